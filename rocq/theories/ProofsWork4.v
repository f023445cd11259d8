(** The parallel loops: sparsity pattern, preconditioner, races, completion. *)
From Coq Require Import Reals List Arith Bool Permutation Lia FunctionalExtensionality.
From Verif Require Import ModelOctree ProofsOctTree ProofsOctLevels ProofsOctFacts ProofsOctLists ModelFmm SpecFmm ProofsFmm ModelConc ProofsConc SpecConc ProofsConc2 ModelWork ProofsWork ProofsWork2 ProofsWork3.
Import ListNotations.
Local Open Scope nat_scope.

Lemma word_tab : forall l, loc_word l = true -> l = Tab.
Proof. intros l. destruct l; cbn; congruence. Qed.

Section Gen.
  Context {AR : arith}.
  Variable E : eops.
  Notation val := (val E).
  Notation prog := (prog loc val). Notation mem := (mem loc val).
  Notation exec := (exec loc val loc_eqb).
  Lemma ws_race_tab : forall X D (worker : X -> D -> prog D) (copier : D -> prog unit) sample items wc m0,
    (forall x d, In x items -> worker_ok E wc m0 (worker x d)) -> (forall x d, In x items -> copier_ok E wc m0 (copier (snd (exec (worker x d) m0)))) ->
    forall l, ws_race E worker copier sample items m0 l -> l = Tab.
  Proof.
    intros X D worker copier sample items wc m0 Hw Hc l (n & s & Hs & Hr). apply word_tab. destruct (loc_word l) eqn:Hl; auto. exfalso.
    revert Hr. eapply (work_stream_race_free loc val loc_eqb loc_eqb_spec loc_word (cst E wc m0)); eauto. apply cst_consts.
  Qed.
  Lemma pf_race_tab : forall X (items : list X) body own m0,
    (forall x, In x items -> fp loc val loc_word (cst E (any_own X items own) m0) (fun l => own x l = true) (fun l => own x l = true) (body x)) ->
    (forall x y l, In x items -> In y items -> x <> y -> own x l = true -> own y l = false) -> NoDup items ->
    forall l, pf_race E items body m0 l -> l = Tab.
  Proof.
    intros X items body own m0 Hb Hd Hnd l (m' & ts & Hs & Hr). apply word_tab. destruct (loc_word l) eqn:Hl; auto. exfalso. revert Hr.
    apply (parallel_for_race_free loc val loc_eqb loc_eqb_spec loc_word (cst E (any_own X items own) m0) X items body
        (fun j l => exists x, nth_error items j = Some x /\ own x l = true) (fun j l => exists x, nth_error items j = Some x /\ own x l = true)) with (m0 := m0) (m' := m'); auto.
    - intros j x Hx. eapply fp_weaken; [apply Hb; eapply nth_error_In; eauto| |]; intros l' Hl'; exists x; auto.
    - intros i j l' Hi Hj N (x & Hx & Ox) Q.
      assert (O : exists y, nth_error items j = Some y /\ own y l' = true) by tauto. destruct O as (y & Hy & Oy).
      assert (x <> y). { intros ->. apply N. apply (proj1 (NoDup_nth_error items) Hnd); auto. congruence. }
      rewrite (Hd x y l') in Oy; auto; [discriminate|eapply nth_error_In; eauto|eapply nth_error_In; eauto].
    - apply cst_consts.
  Qed.
  Lemma over_race_tab : forall (Inv : mem -> Prop) (loop : nat -> mem -> mem -> Prop) (race : nat -> mem -> loc -> Prop) ls, (forall x m m', In x ls -> Inv m -> loop x m m' -> Inv m') ->
    (forall x m l, In x ls -> Inv m -> race x m l -> l = Tab) -> forall m l, Inv m -> over_race E ls loop race m l -> l = Tab.
  Proof.
    intros Inv loop race ls. induction ls as [|x ls IH]; intros Hl Hr m l Hi Ho; cbn [over_race] in Ho; [contradiction|].
    destruct Ho as [Ho|(m1 & Ho1 & Ho2)]; [eapply (Hr x); eauto; left; auto|].
    apply (IH (fun y a b Hy => Hl y a b (or_intror Hy)) (fun y a b Hy => Hr y a b (or_intror Hy)) m1 l); auto. eapply Hl; eauto. left; auto.
  Qed.
  (** every loop can run *)
  Lemma ws_total : forall X D (worker : X -> D -> prog D) (copier : D -> prog unit) sample items m, exists m', ws E worker copier sample items m m'.
  Proof.
    intros. destruct (work_stream_never_stuck loc val loc_eqb loc_eqb_spec loc_word X D worker copier 1 items sample m _ (le_n 1) (ws_refl _ _ _ _ _ _ _ _ _ _)) as (s & Hs & Hc).
    exists (w_mem _ _ _ _ s), 1, (w_done _ _ _ _ s), s. auto.
  Qed.
  Lemma pf_total : forall X (items : list X) (body : X -> prog unit) m, exists m', pf E items body m m'.
  Proof. intros. destruct (parallel_progress loc val loc_eqb loc_eqb_spec loc_word (map (fun x => Run (body x)) items) m) as (m' & ts & A & C). exists m', ts. auto. Qed.
  Lemma over_total : forall ls (loop : nat -> mem -> mem -> Prop), (forall l m, exists m', loop l m m') -> forall m, exists m', over E ls loop m m'.
  Proof. induction ls as [|l ls IH]; intros loop Ht m; cbn [over]; [eauto|]. destruct (Ht l m) as (m1 & H1). destruct (IH loop Ht m1) as (m' & H2). eauto. Qed.
End Gen.

Section W4.
  Context {AR : arith}.
  Variable E : eops.
  Variable I : oin.
  Hypothesis W : wf_in I.
  Variable K : kern.
  Variable phi : nat -> R.
  Variable owned : nat -> bool.
  Notation st := (octree I).
  Notation bs := (st_blocks (octree I)).
  Notation B := (getb (st_blocks (octree I))).
  Notation nb := (length (st_blocks (octree I))).
  Notation val := (val E).
  Notation mem := (mem loc val).
  Notation exec := (exec loc val loc_eqb).
  Notation put := (put loc val loc_eqb).

  (** ** Sparsity pattern *)
  Definition ic_pairs (d : init_copy) : list (nat * nat) :=
    flat_map (fun k => map (fun c => (nth k (ic_rows d) 0, c)) (nth k (ic_cols d) [])) (seq 0 (length (ic_cols d))).
  Definition is_pat (l : loc) : bool := match l with Pat => true | _ => false end.
  Lemma pat_copier_exec : forall d (m : mem), let m' := fst (exec (pat_copier E d) m) in
    asP E (m' Pat) = asP E (m Pat) ++ ic_pairs d /\ forall l, is_pat l = false -> m' l = m l.
  Proof.
    intros d m. unfold pat_copier, ic_pairs. rewrite exec_for_unit. generalize (seq 0 (length (ic_cols d))) as ks. intros ks. cbv zeta. revert m.
    induction ks as [|k ks IH]; intros m; cbn [fold_left flat_map]; [rewrite app_nil_r; auto|].
    destruct (IH (fst (exec (for_each (nth k (ic_cols d) []) (fun _ c => Rd Pat (fun p => Wr Pat (VP E (asP E p ++ [(nth k (ic_rows d) 0, c)])) (done1 E))) tt) m))) as (A & C).
    rewrite A. rewrite app_assoc.
    assert (G : forall cs m, let m' := fst (exec (for_each cs (fun _ c => Rd Pat (fun p => Wr Pat (VP E (asP E p ++ [(nth k (ic_rows d) 0, c)])) (done1 E))) tt) m) in
      asP E (m' Pat) = asP E (m Pat) ++ map (fun c => (nth k (ic_rows d) 0, c)) cs /\ forall l, is_pat l = false -> m' l = m l).
    { induction cs as [|c cs IHc]; intros m1; [cbn; rewrite app_nil_r; auto|]. rewrite exec_for_cons. cbn [done1 ModelConc.exec fst snd].
      destruct (IHc (put m1 Pat (VP E (asP E (m1 Pat) ++ [(nth k (ic_rows d) 0, c)])))) as (Q1 & Q2). cbv zeta in *. rewrite Q1, put_same'. cbn [asP map]. rewrite <- app_assoc. split; auto.
      intros l Hl. rewrite Q2 by auto. apply put_other'. intros <-. discriminate Hl. }
    destruct (G (nth k (ic_cols d) []) m) as (G1 & G2). cbv zeta in *. rewrite G1. split; auto. intros l Hl. rewrite C, G2; auto.
  Qed.
  Lemma pat_ok : forall d (m : mem), copier_ok E is_pat m (pat_copier E d).
  Proof. intros d m. apply fp_for. intros _ k _. apply fp_for. intros _ c _. apply ok_readw; [exact Logic.I|]. intros. apply ok_write; auto. apply ok_ret. Qed.
  Lemma pat_ws : forall (g : nat -> init_copy -> prog loc val init_copy) (cd : nat -> init_copy) items m m',
    (forall b d, g b d = Ret (cd b)) -> ws E g (pat_copier E) ic_sample items m m' ->
    exists dn, Permutation dn items /\ asP E (m' Pat) = asP E (m Pat) ++ flat_map (fun b => ic_pairs (cd b)) dn /\ forall l, is_pat l = false -> m' l = m l.
  Proof.
    intros g cd items m m' Hg Hr.
    assert (Hw : forall x d, In x items -> worker_ok E is_pat m (g x d)) by (intros; rewrite Hg; apply ok_ret).
    assert (Hc : forall x d, In x items -> copier_ok E is_pat m (pat_copier E (snd (exec (g x d) m)))) by (intros; apply pat_ok).
    destruct (ws_fresh E _ _ g (pat_copier E) ic_sample items is_pat m Hw Hc) with (m' := m') as (dn & Hp & Hl); auto.
    { intros x d _. rewrite !Hg. auto. }
    assert (Hi : incl dn items) by (intros y Hy; apply (Permutation_in _ Hp); auto).
    exists dn. split; auto. split.
    - rewrite Hl. clear Hl Hp. induction dn as [|x dn IH] using rev_ind; [cbn; rewrite app_nil_r; auto|].
      assert (Hi' : incl dn items) by (intros y Hy; apply Hi, in_or_app; auto).
      rewrite (loop_snoc E _ _ g (pat_copier E) ic_sample items is_pat m Hw Hc) by (auto; apply Hi, in_or_app; right; left; auto).
      rewrite Hg. cbn [ModelConc.exec snd]. rewrite (proj1 (pat_copier_exec (cd x) _)), IH by auto. rewrite flat_map_app, app_assoc. cbn [flat_map]. rewrite app_nil_r. auto.
    - intros l Hl'. rewrite Hl. apply (loop_outside E _ _ g (pat_copier E) ic_sample items is_pat m Hw Hc); auto.
  Qed.
  Lemma ic_pairs_push : forall d i cs, length (ic_rows d) = length (ic_cols d) ->
    length (ic_rows (ic_push d i cs)) = length (ic_cols (ic_push d i cs)) /\ ic_pairs (ic_push d i cs) = ic_pairs d ++ map (fun c => (i, c)) cs.
  Proof.
    intros d i cs Hl. unfold ic_push, ic_pairs. cbn [ic_rows ic_cols]. rewrite !app_length. cbn [length]. split; [lia|].
    rewrite seq_app, flat_map_app. cbn [seq flat_map]. rewrite app_nil_r. f_equal.
    - rewrite !flat_map_concat_map. f_equal. apply map_ext_in. intros k Hk. apply in_seq in Hk. rewrite !app_nth1 by lia. auto.
    - rewrite Nat.add_0_l. rewrite (nth_middle (ic_cols d)). rewrite <- Hl. rewrite (nth_middle (ic_rows d)). reflexivity.
  Qed.
  Lemma ic_fold : forall cs nodes d, length (ic_rows d) = length (ic_cols d) ->
    let d' := fold_left (fun d i => if owned i then ic_push d i cs else d) nodes d in
    length (ic_rows d') = length (ic_cols d') /\ ic_pairs d' = ic_pairs d ++ flat_map (fun i => map (fun c => (i, c)) cs) (filter owned nodes).
  Proof.
    intros cs nodes. induction nodes as [|i nodes IH]; intros d Hd; cbv zeta; cbn [fold_left filter flat_map]; [rewrite app_nil_r; auto|].
    destruct (owned i); [|apply IH; auto]. destruct (ic_pairs_push d i cs Hd) as (P1 & P2). destruct (IH _ P1) as (Q1 & Q2). cbv zeta in *. split; auto.
    rewrite Q2, P2. cbn [flat_map]. rewrite app_assoc. auto.
  Qed.
  Theorem pattern_run_result : forall m m', m Pat = VP E [] -> pattern_run E I st owned m m' ->
    Permutation (asP E (m' Pat)) (sparsity I st owned) /\ forall l, is_pat l = false -> m' l = m l.
  Proof.
    intros m m' Hm (m1 & H1 & H2).
    set (cd1 := fun b => fold_left (fun d i => if owned i then ic_push d i (dofs_of_blocks I st (last_int I st b)) else d) (b_nodes (B b)) (ic_reset ic_sample)).
    set (cd2 := fun lv b => fold_left (fun d s => fold_left (fun d i => if owned i then ic_push d i (dofs_of_blocks I st (bigger I st lv b s)) else d) (b_nodes (B b)) d) (seq 0 (near_levels I st b)) (ic_reset ic_sample)).
    assert (C1 : forall b, ic_pairs (cd1 b) = near_pattern I st owned b) by (intros b; unfold cd1, near_pattern; apply (ic_fold (dofs_of_blocks I st (last_int I st b)) (b_nodes (B b)) (ic_reset ic_sample)); reflexivity).
    assert (C2 : forall lv b, ic_pairs (cd2 lv b) = level_pattern I st owned lv b).
    { intros lv b. unfold cd2, level_pattern.
      assert (G : forall ss d, length (ic_rows d) = length (ic_cols d) -> ic_pairs (fold_left (fun d s => fold_left (fun d i => if owned i then ic_push d i (dofs_of_blocks I st (bigger I st lv b s)) else d) (b_nodes (B b)) d) ss d) =
        ic_pairs d ++ flat_map (fun s => flat_map (fun i => map (fun d => (i, d)) (dofs_of_blocks I st (bigger I st lv b s))) (filter owned (b_nodes (B b)))) ss).
      { induction ss as [|s ss IH]; intros d Hd; cbn [fold_left flat_map]; [rewrite app_nil_r; auto|].
        destruct (ic_fold (dofs_of_blocks I st (bigger I st lv b s)) (b_nodes (B b)) d Hd) as (Q1 & Q2). cbv zeta in *. rewrite IH by auto. rewrite Q2, app_assoc. auto. }
      rewrite G by reflexivity. reflexivity. }
    destruct (pat_ws (pat_worker E I st owned) cd1 (st_childless st) m m1) as (dn & P1 & P2 & P3); auto.
    assert (G : forall ls ma mb, over E ls (fun l => ws E (pat_level_worker E I st owned l) (pat_copier E) ic_sample (dfill st l)) ma mb ->
      (exists t, asP E (mb Pat) = asP E (ma Pat) ++ t /\ Permutation t (flat_map (fun level => flat_map (level_pattern I st owned level) (nth level (st_dfill st) [])) ls)) /\ forall l, is_pat l = false -> mb l = ma l).
    { induction ls as [|lv ls IH]; intros ma mb Ho; cbn [over flat_map] in *; [subst; split; auto; exists []; rewrite app_nil_r; auto|].
      destruct Ho as (mc & Ha & Hb). destruct (pat_ws (pat_level_worker E I st owned lv) (cd2 lv) (dfill st lv) ma mc) as (dn2 & Q1 & Q2 & Q3); auto.
      destruct (IH mc mb Hb) as ((t & T1 & T2) & T3). split; [|intros l Hl; rewrite T3, Q3; auto].
      exists (flat_map (fun b => ic_pairs (cd2 lv b)) dn2 ++ t). rewrite T1, Q2, app_assoc. split; auto. apply Permutation_app; auto.
      rewrite (flat_map_ext _ (level_pattern I st owned lv)) by (intros; apply C2). apply Permutation_flat_map. exact Q1. }
    destruct (G (levels I) m1 m' H2) as ((t & T1 & T2) & T3). split; [|intros l Hl; rewrite T3, P3; auto].
    rewrite T1, P2, Hm. cbn [asP app]. unfold sparsity. apply Permutation_app; auto.
    rewrite (flat_map_ext _ (near_pattern I st owned)) by (intros; apply C1). apply Permutation_flat_map. exact P1.
  Qed.

  (** ** The preconditioner *)
  Section Prec.
  Variable nd : nat.
  Variable cons : nat -> option (list (nat * R)).
  Variable init : nat -> nat -> R.
  Variables dirichlet alpha : nat -> R.
  Definition has (p : list (nat * nat)) (i j : nat) : bool := existsb (fun e => Nat.eqb (fst e) i && Nat.eqb (snd e) j) p.
  (** the columns of row i *)
  Definition frow (p : list (nat * nat)) (i : nat) : list nat :=
    match cons i with Some es => i :: map fst es | None => filter (has p i) (seq 0 nd) end.
  Definition is_fpat (l : loc) : bool := match l with FPat => true | _ => false end.
  Lemma fpat_worker_exec : forall i d (m : mem), exec (fpat_worker E owned nd cons i d) m =
    (m, if owned i then {| pc_row := Some i; pc_cols := frow (asP E (m Pat)) i |} else {| pc_row := pc_row d; pc_cols := [] |}).
  Proof.
    intros i d m. unfold fpat_worker, frow. destruct (owned i); [|reflexivity]. destruct (cons i) as [es|]; [reflexivity|].
    rewrite (exec_for_pure loc val loc_eqb prec_copy nat (seq 0 nd) _ (fun d j => if has (asP E (m Pat)) i j then {| pc_row := pc_row d; pc_cols := pc_cols d ++ [j] |} else d) m) by reflexivity.
    f_equal. assert (G : forall l d, fold_left (fun d j => if has (asP E (m Pat)) i j then {| pc_row := pc_row d; pc_cols := pc_cols d ++ [j] |} else d) l d = {| pc_row := pc_row d; pc_cols := pc_cols d ++ filter (has (asP E (m Pat)) i) l |}).
    { induction l as [|j l IH]; intros d0; cbn [fold_left filter]; [rewrite app_nil_r; destruct d0; auto|]. rewrite IH. destruct (has _ i j); cbn [pc_row pc_cols]; auto. rewrite <- app_assoc. auto. }
    rewrite G. reflexivity.
  Qed.
  Lemma fpat_copier_exec : forall r cs (m : mem), let m' := fst (exec (for_each cs (fun _ c => Rd FPat (fun p => Wr FPat (VP E (asP E p ++ [(r, c)])) (done1 E))) tt) m) in
      asP E (m' FPat) = asP E (m FPat) ++ map (fun c => (r, c)) cs /\ forall l, is_fpat l = false -> m' l = m l.
  Proof.
    intros r. induction cs as [|c cs IHc]; intros m1; [cbn; rewrite app_nil_r; auto|]. rewrite exec_for_cons. cbn [done1 ModelConc.exec fst snd].
    destruct (IHc (put m1 FPat (VP E (asP E (m1 FPat) ++ [(r, c)])))) as (Q1 & Q2). cbv zeta in *. rewrite Q1, put_same'. cbn [asP map]. rewrite <- app_assoc. split; auto.
    intros l Hl. rewrite Q2 by auto. apply put_other'. intros <-. discriminate Hl.
  Qed.
  Lemma fpat_w_ok : forall x d (m : mem), worker_ok E is_fpat m (fpat_worker E owned nd cons x d).
  Proof.
    intros. unfold fpat_worker. destruct (owned x); [|apply ok_ret]. destruct (cons x); [apply ok_ret|]. apply fp_for. intros. apply ok_read; [reflexivity|]. apply ok_ret.
  Qed.
  Lemma fpat_c_ok : forall d (m : mem), copier_ok E is_fpat m (fpat_copier E owned d).
  Proof.
    intros. unfold fpat_copier. destruct (pc_row d); [|apply ok_ret]. destruct (owned n); [|apply ok_ret]. apply fp_for. intros. apply ok_readw; [exact Logic.I|]. intros. apply ok_write; auto. apply ok_ret.
  Qed.
  Lemma fpat_result : forall m m', ws E (fpat_worker E owned nd cons) (fpat_copier E owned) fpat_sample (seq 0 nd) m m' ->
    (exists dn, Permutation dn (seq 0 nd) /\ asP E (m' FPat) = asP E (m FPat) ++ flat_map (fun i => map (fun c => (i, c)) (frow (asP E (m Pat)) i)) (filter owned dn)) /\
    forall l, is_fpat l = false -> m' l = m l.
  Proof.
    intros m m' Hr.
    assert (Hw : forall x d, In x (seq 0 nd) -> worker_ok E is_fpat m (fpat_worker E owned nd cons x d)) by (intros; apply fpat_w_ok).
    assert (Hc : forall x d, In x (seq 0 nd) -> copier_ok E is_fpat m (fpat_copier E owned (snd (exec (fpat_worker E owned nd cons x d) m)))) by (intros; apply fpat_c_ok).
    destruct (ws_stale E _ _ (fpat_worker E owned nd cons) (fpat_copier E owned) fpat_sample (seq 0 nd) is_fpat m Hw Hc (fun _ _ => True)) with (m' := m') as (dn & Hp & Hl); auto.
    { intros x d dn z Hx _ Hi. split; auto. intros l. rewrite !fpat_worker_exec. cbn [snd]. destruct (owned x); auto. unfold fpat_copier. cbn [pc_row pc_cols fpat_sample].
      destruct (pc_row d) as [r|]; [|reflexivity]. destruct (owned r); reflexivity. }
    assert (Hi : incl dn (seq 0 nd)) by (intros y Hy; apply (Permutation_in _ Hp); auto).
    split; [|intros l Hl'; rewrite Hl; apply (loop_outside E _ _ (fpat_worker E owned nd cons) (fpat_copier E owned) fpat_sample (seq 0 nd) is_fpat m Hw Hc); auto].
    exists dn. split; auto. rewrite Hl. clear Hl Hp. induction dn as [|x dn IH] using rev_ind; [cbn; rewrite app_nil_r; auto|].
    assert (Hi' : incl dn (seq 0 nd)) by (intros y Hy; apply Hi, in_or_app; auto).
    rewrite (loop_snoc E _ _ (fpat_worker E owned nd cons) (fpat_copier E owned) fpat_sample (seq 0 nd) is_fpat m Hw Hc) by (auto; apply Hi, in_or_app; right; left; auto).
    rewrite fpat_worker_exec. cbn [snd]. rewrite filter_app, flat_map_app, app_assoc, <- IH by auto. cbn [filter]. destruct (owned x) eqn:Ox.
    - unfold fpat_copier. cbn [pc_row pc_cols]. rewrite Ox. rewrite (proj1 (fpat_copier_exec x _ _)). cbn [flat_map]. rewrite app_nil_r. auto.
    - cbn. rewrite app_nil_r. auto.
  Qed.
  Definition own_p (i : nat) (l : loc) : bool := match l with Prec r _ => Nat.eqb i r | _ => false end.
  Definition is_prec (l : loc) : bool := match l with Prec _ _ => true | _ => false end.
  Definition fill_val (p : list (nat * nat)) (i : nat) (f : nat -> R) : nat -> R :=
    match cons i with
    | Some es => fold_left (fun f e => upd f (fst e) (snd e)) es (upd f i 1%R)
    | None => fun j => if Nat.ltb j nd && has p i j then init i j else f j
    end.
  Lemma own_p_disj : forall x y l, x <> y -> own_p x l = true -> own_p y l = false.
  Proof. intros x y l N. destruct l; cbn; try congruence. intros Q. apply Nat.eqb_eq in Q. subst. apply Nat.eqb_neq. auto. Qed.
  Lemma fill_ok : forall x (m : mem), In x (seq 0 nd) -> fp loc val loc_word (cst E (any_own nat (seq 0 nd) own_p) m) (fun l => own_p x l = true) (fun l => own_p x l = true) (fill_body E owned nd cons init x).
  Proof.
    intros x m Hx. unfold fill_body.
    assert (Q : forall j, any_own nat (seq 0 nd) own_p (Prec x j) = true) by (intros j; apply existsb_exists; exists x; split; auto; cbn; apply Nat.eqb_refl).
    assert (O : forall j, own_p x (Prec x j) = true) by (intros; cbn; apply Nat.eqb_refl).
    destruct (owned x); [|apply ok_ret]. destruct (cons x) as [es|].
    - apply ok_write; auto. apply fp_for. intros _ e _. apply ok_write; auto. apply ok_ret.
    - apply fp_for. intros _ j _. apply ok_read; [apply any_no; auto|]. destruct (existsb _ _); [|apply ok_ret]. apply ok_write; auto. apply ok_ret.
  Qed.
  Lemma alpha_ok : forall x (m : mem), In x (seq 0 nd) -> fp loc val loc_word (cst E (any_own nat (seq 0 nd) own_p) m) (fun l => own_p x l = true) (fun l => own_p x l = true) (alpha_body E owned cons dirichlet alpha x).
  Proof.
    intros x m Hx. unfold alpha_body.
    assert (Q : forall j, any_own nat (seq 0 nd) own_p (Prec x j) = true) by (intros j; apply existsb_exists; exists x; split; auto; cbn; apply Nat.eqb_refl).
    assert (O : forall j, own_p x (Prec x j) = true) by (intros; cbn; apply Nat.eqb_refl).
    destruct (owned x); [|apply ok_ret]. destruct (cons x) as [es|]; [|destruct (Req_EM_T (dirichlet x) 0)]; apply ok_add; auto.
  Qed.
  Lemma fill_exec : forall i (m : mem) f, owned i = true -> (forall j, m (Prec i j) = VR E (f j)) ->
    forall j, fst (exec (fill_body E owned nd cons init i) m) (Prec i j) = VR E (fill_val (asP E (m Pat)) i f j).
  Proof.
    intros i m f Ho Hm. unfold fill_body, fill_val. rewrite Ho. destruct (cons i) as [es|].
    - cbn [ModelConc.exec]. rewrite exec_for_unit.
      assert (G : forall es m f, (forall j, m (Prec i j) = VR E (f j)) -> forall j, fold_left (fun m x => fst (exec (Wr (Prec i (fst x)) (VR E (snd x)) (done1 E)) m)) es m (Prec i j) = VR E (fold_left (fun f e => upd f (fst e) (snd e)) es f j)).
      { clear m f Hm. induction es0 as [|e es0 IH]; intros m f Hm j; cbn [fold_left]; auto. apply IH. intros k. cbn [done1 ModelConc.exec fst]. unfold upd. destruct (Nat.eqb_spec k (fst e)) as [->|N]; [apply put_same'|]. rewrite put_other' by congruence. auto. }
      apply G. intros k. unfold upd. destruct (Nat.eqb_spec k i) as [->|N]; [apply put_same'|]. rewrite put_other' by congruence. auto.
    - rewrite exec_for_unit.
      assert (G : forall n a (m1 : mem) g, m1 Pat = m Pat -> (forall j, m1 (Prec i j) = VR E (g j)) ->
        forall j, fold_left (fun m x => fst (exec (Rd Pat (fun p => if existsb (fun e => Nat.eqb (fst e) i && Nat.eqb (snd e) x) (asP E p) then Wr (Prec i x) (VR E (init i x)) (done1 E) else done1 E)) m)) (seq a n) m1 (Prec i j) =
         VR E (if (Nat.leb a j && Nat.ltb j (a + n)) && has (asP E (m Pat)) i j then init i j else g j)).
      { induction n as [|n IH]; intros a m1 g Hp Hg j; cbn [seq fold_left].
        - destruct (Nat.leb_spec a j), (Nat.ltb_spec j (a + 0)); cbn [andb]; auto; lia.
        - rewrite (IH (S a) _ (fun k => if Nat.eqb k a && has (asP E (m Pat)) i k then init i k else g k)).
          + f_equal. destruct (Nat.eqb_spec j a) as [->|N].
            * destruct (Nat.leb_spec (S a) a); [lia|]. destruct (Nat.leb_spec a a); [|lia]. destruct (Nat.ltb_spec a (a + S n)); [|lia]. cbn [andb]. auto.
            * cbn [andb]. destruct (Nat.leb_spec (S a) j), (Nat.leb_spec a j); cbn [andb]; try lia; auto. destruct (Nat.ltb_spec j (S a + n)), (Nat.ltb_spec j (a + S n)); try lia; auto.
          + cbn [ModelConc.exec]. destruct (existsb _ _); cbn [done1 ModelConc.exec fst]; try rewrite put_other' by congruence; auto.
          + intros k. cbn [ModelConc.exec]. rewrite Hp. change (existsb (fun e => Nat.eqb (fst e) i && Nat.eqb (snd e) a) (asP E (m Pat))) with (has (asP E (m Pat)) i a). destruct (Nat.eqb_spec k a) as [->|N]; cbn [andb].
            * destruct (has (asP E (m Pat)) i a); cbn [done1 ModelConc.exec fst]; [apply put_same'|auto].
            * destruct (has (asP E (m Pat)) i a); cbn [done1 ModelConc.exec fst]; [rewrite put_other' by congruence; auto|auto]. }
      intros j. rewrite (G nd 0 m f); auto.
  Qed.
  Definition alpha_val (i : nat) : R := match cons i with Some _ => 0%R | None => if Req_EM_T (dirichlet i) 0 then alpha i else 0%R end.
  Theorem prec_run_result : forall m m', (forall i j, m (Prec i j) = VR E 0) -> prec_run E owned nd cons init dirichlet alpha m m' ->
    (exists dn, Permutation dn (seq 0 nd) /\ asP E (m' FPat) = asP E (m FPat) ++ flat_map (fun i => map (fun c => (i, c)) (frow (asP E (m Pat)) i)) (filter owned dn)) /\
    (forall i j, i < nd -> owned i = true -> m' (Prec i j) = VR E (upd (fill_val (asP E (m Pat)) i (fun _ => 0%R)) i (aadd (fill_val (asP E (m Pat)) i (fun _ => 0%R) i) (alpha_val i)) j)) /\
    (forall i j, ~ (i < nd /\ owned i = true) -> m' (Prec i j) = VR E 0).
  Proof.
    intros m m' Hz (m1 & m2 & H1 & H2 & H3). destruct (fpat_result m m1 H1) as (F1 & F2).
    destruct (pf_result E nat (seq 0 nd) (fill_body E owned nd cons init) own_p m1) with (m' := m2) as (A & C); auto; [intros; apply fill_ok; auto|intros; eapply own_p_disj; eauto|apply seq_NoDup|].
    destruct (pf_result E nat (seq 0 nd) (alpha_body E owned cons dirichlet alpha) own_p m2) with (m' := m') as (A' & C'); auto; [intros; apply alpha_ok; auto|intros; eapply own_p_disj; eauto|apply seq_NoDup|].
    assert (Op : forall x j, own_p x (Prec x j) = true) by (intros; cbn; apply Nat.eqb_refl).
    split; [|split].
    - destruct F1 as (dn & P1 & P2). exists dn. split; auto. rewrite <- P2. rewrite C', C; auto.
    - intros i j Hi Ho. assert (Hin : In i (seq 0 nd)) by (apply in_seq; lia).
      assert (Fv : forall k, m2 (Prec i k) = VR E (fill_val (asP E (m Pat)) i (fun _ => 0%R) k)).
      { intros k. rewrite (A i (Prec i k) Hin (Op i k)). rewrite (fill_exec i m1 (fun _ => 0%R) Ho); [|intros; rewrite F2; auto]. rewrite (F2 Pat) by reflexivity. auto. }
      rewrite (A' i (Prec i j) Hin (Op i j)). unfold alpha_body, alpha_val. rewrite Ho.
      assert (G : forall x, fst (exec (add_to E (Prec i i) x) m2) (Prec i j) = VR E (upd (fill_val (asP E (m Pat)) i (fun _ => 0%R)) i (aadd (fill_val (asP E (m Pat)) i (fun _ => 0%R) i) x) j)).
      { intros x. cbn [add_to done1 ModelConc.exec fst]. rewrite Fv. cbn [asR]. unfold upd. destruct (Nat.eqb_spec j i) as [->|N]; [apply put_same'|]. rewrite put_other' by congruence. auto. }
      destruct (cons i); [apply G|]. destruct (Req_EM_T (dirichlet i) 0); apply G.
    - intros i j Hn. destruct (Nat.lt_ge_cases i nd) as [Hi|Hi].
      + assert (Ho : owned i = false) by (destruct (owned i); auto; exfalso; auto). assert (Hin : In i (seq 0 nd)) by (apply in_seq; lia).
        rewrite (A' i (Prec i j) Hin (Op i j)). unfold alpha_body. rewrite Ho. cbn [done1 ModelConc.exec fst]. rewrite (A i (Prec i j) Hin (Op i j)). unfold fill_body. rewrite Ho. cbn [done1 ModelConc.exec fst]. rewrite F2; auto.
      + assert (Nn : forall x, In x (seq 0 nd) -> own_p x (Prec i j) = false) by (intros x Hx; apply in_seq in Hx; apply Nat.eqb_neq; lia). rewrite C', C, F2; auto.
  Qed.
  Theorem prec_race_none : forall m l, prec_race E owned nd cons init dirichlet alpha m l -> l = Tab.
  Proof.
    intros m l [H1|(m1 & _ & [H2|(m2 & _ & H3)])].
    - revert H1. apply (ws_race_tab E _ _ _ _ _ _ is_fpat); intros; [apply fpat_w_ok|apply fpat_c_ok].
    - revert H2. apply (pf_race_tab E _ _ _ own_p); [intros; apply fill_ok; auto|intros; eapply own_p_disj; eauto|apply seq_NoDup].
    - revert H3. apply (pf_race_tab E _ _ _ own_p); [intros; apply alpha_ok; auto|intros; eapply own_p_disj; eauto|apply seq_NoDup].
  Qed.
  Theorem prec_total : forall m, exists m', prec_run E owned nd cons init dirichlet alpha m m'.
  Proof.
    intros m. destruct (ws_total E _ _ (fpat_worker E owned nd cons) (fpat_copier E owned) fpat_sample (seq 0 nd) m) as (m1 & H1).
    destruct (pf_total E _ (seq 0 nd) (fill_body E owned nd cons init) m1) as (m2 & H2). destruct (pf_total E _ (seq 0 nd) (alpha_body E owned cons dirichlet alpha) m2) as (m3 & H3). exists m3, m1, m2. auto.
  Qed.
  End Prec.

  (** ** Completion *)
  Theorem pattern_total : forall m, exists m', pattern_run E I st owned m m'.
  Proof.
    intros m. destruct (ws_total E _ _ (pat_worker E I st owned) (pat_copier E) ic_sample (st_childless st) m) as (m1 & H1).
    destruct (over_total E (levels I) (fun l => ws E (pat_level_worker E I st owned l) (pat_copier E) ic_sample (dfill st l))) with (m := m1) as (m2 & H2); [intros; apply ws_total|]. exists m2, m1. auto.
  Qed.
  Theorem fmm_total : forall m, exists m', fmm_run E I st K phi owned m m'.
  Proof.
    intros m.
    assert (D : forall m, exists m', direct_run E I st K owned m m').
    { intros ma. destruct (ws_total E _ _ (near_work E I st K owned) (direct_copier E I) dc_sample (st_childless st) ma) as (mb & H1).
      destruct (over_total E (levels I) (fun l => ws E (big_work E I st K owned l) (direct_copier E I) dc_sample (dfill st l))) with (m := mb) as (mc & H2); [intros; apply ws_total|]. exists mc, mb. auto. }
    assert (U : forall m, exists m', up_run E I st phi m m').
    { intros ma. destruct (pf_total E _ (seq 0 (num_blocks st)) (create_m E) ma) as (mb & H1). destruct (pf_total E _ (st_childless st) (leaf_body E I st phi) mb) as (mc & H2).
      destruct (over_total E (rev (levels I)) (fun l => ws E (up_worker E st) (up_copier E) (up_sample E) (level_ids st l))) with (m := mc) as (md & H3); [intros; apply ws_total|]. exists md, mb, mc. auto. }
    assert (N : forall m, exists m', down_run E I st phi owned m m').
    { intros ma. set (mb := fun l : loc => match l with Out i => VR E (fold_left (fun a d => aadd a (amul (asR E (ma (Ent i d))) (phi d))) (seq 0 (o_nd I)) 0%R) | _ => ma l end : val).
      destruct (pf_total E _ (seq 0 (num_blocks st)) (create_l E) mb) as (mc & H1).
      destruct (over_total E (levels I) (fun l => ws E (dn_worker E I st owned) (dn_copier E) (dn_sample E) (dfill st l))) with (m := mc) as (md & H2); [intros; apply ws_total|].
      destruct (pf_total E _ (st_childless st) (eval_body E st owned) md) as (me & H3). exists me, mb, mc, md. repeat split; auto. }
    destruct (D m) as (m1 & H1). destruct (ws_total E _ _ (elem_worker E I st K) (elem_copier E) (elem_sample E) (st_childless st) m1) as (m2 & H2).
    destruct (U m2) as (m3 & H3). destruct (N m3) as (m4 & H4). exists m4, m1, m2, m3. auto.
  Qed.

  (** ** Races of the product *)
  Theorem pattern_race_none : forall m l, pattern_race E I st owned m l -> l = Tab.
  Proof.
    intros m l [H1|(m1 & _ & H2)].
    - revert H1. apply (ws_race_tab E _ _ _ _ _ _ is_pat); intros; [apply ok_ret|apply pat_ok].
    - revert H2. apply (over_race_tab E (fun _ => True)); auto. intros x ma l' _ _. apply (ws_race_tab E _ _ _ _ _ _ is_pat); intros; [apply ok_ret|apply pat_ok].
  Qed.
  Theorem fmm_race_table : forall m l, fmm_start E m -> fmm_race E I st K phi owned m l -> l = Tab.
  Proof.
    intros m l (S1 & S2 & S3) Hr.
    assert (Dc : forall d (m : mem), copier_ok E is_ent m (direct_copier E I d)) by (intros; apply fp_for; intros; apply ok_add; auto).
    destruct Hr as [[H1|(ma & _ & H1)]|(m1 & R1 & Hr)].
    { revert H1. apply (ws_race_tab E _ _ _ _ _ _ is_ent); intros; [apply ok_ret|apply Dc]. }
    { revert H1. apply (over_race_tab E (fun _ => True)); auto. intros x mb l' _ _. apply (ws_race_tab E _ _ _ _ _ _ is_ent); intros; [apply ok_ret|apply Dc]. }
    destruct (direct_run_result E I K owned m m1 S1 R1) as (cl & lv & D1 & D2 & D3 & D4).
    destruct Hr as [H2|(m2 & R2 & Hr)].
    { revert H2. apply (ws_race_tab E _ _ _ _ _ _ is_elem); intros; [apply ok_ret|]. apply ok_readw; [exact Logic.I|]. intros. apply ok_write; auto. apply ok_ret. }
    destruct (elem_run_result E I K m1 m2) as ((e & E1 & E2) & E3); auto; [rewrite D4; auto|].
    destruct Hr as [H3|(m3 & R3 & Hr)].
    { destruct H3 as [H3|(ma & Ra & [H3|(mb & Rb & H3)])].
      - revert H3. apply (pf_race_tab E _ _ _ own_m); [| |apply seq_NoDup].
        + intros x Hx. assert (Q : forall l, own_m x l = true -> any_own nat (seq 0 nb) own_m l = true) by (intros l' Hl'; apply existsb_exists; eauto).
          apply ok_write; [apply Q; cbn; apply Nat.eqb_refl|cbn; apply Nat.eqb_refl|]. apply ok_write; [apply Q; cbn; apply Nat.eqb_refl|cbn; apply Nat.eqb_refl|]. apply ok_ret.
        + intros x y l' _ _ N. destruct l'; cbn; try congruence; intros Q; apply Nat.eqb_eq in Q; subst; apply Nat.eqb_neq; auto.
      - destruct (create_m_result E I m2 ma Ra) as (A1 & A2).
        revert H3. apply (pf_race_tab E _ _ _ own_e); [| |apply F_cl_nodup; auto].
        + intros b Hb. assert (Q : forall l, own_e b l = true -> any_own nat (st_childless st) own_e l = true) by (intros l' Hl'; apply existsb_exists; eauto).
          apply fp_for. intros _ c Hc. apply fp_for. intros _ jd Hjd.
          apply ok_read; [apply any_no; auto|]. rewrite A2, E1 by reflexivity. cbn [asE]. rewrite (E2 b Hb).
          destruct (elem_val_cell E I K b c Hc) as (f & F1 & F2). rewrite F1, F2.
          apply ok_readw; [cbn; apply Nat.eqb_refl|]. intros v. apply ok_write; [apply Q; cbn; apply Nat.eqb_refl|cbn; apply Nat.eqb_refl|apply ok_ret].
        + intros x y l' _ _ N. destruct l'; cbn; try congruence; intros Q; apply Nat.eqb_eq in Q; subst; apply Nat.eqb_neq; auto.
      - destruct (create_m_result E I m2 ma Ra) as (A1 & A2).
        destruct (leaf_result E I W K phi ma mb e) as (B1 & B2); auto; [rewrite A2; auto|intros; apply A1; auto|].
        revert H3. apply (over_race_tab E (fun mm => exists M, RelM E I M mm)).
        + intros x mc md Hx (M & HM) Hw. apply in_rev in Hx. apply in_seq in Hx. destruct (up_level E I W x M mc md ltac:(lia) HM Hw) as (dn & _ & P2 & _). eauto.
        + intros x mc l' Hx (M & HM). apply in_rev in Hx. apply in_seq in Hx.
          assert (Hit : forall k, In k (level_ids st x) -> 0 < k < nb /\ b_level (B k) = x /\ b_parent (B k) < nb /\ S (b_level (B (b_parent (B k)))) = x).
          { intros k Hk. apply (F_level_ids I W) in Hk; [|lia]. destruct Hk as (K1 & K2).
            assert (k <> 0). { intros ->. destruct (F_start0 I W) as (Z0 & Z1). assert (Q := proj1 (F_level_iff I W 0 x K1 ltac:(lia)) K2). assert (startL st 0 <= 0 <= endL st 0) by lia. apply (F_level_iff I W) in H; lia. }
            assert (Hk0 : 0 < k < nb) by lia. destruct (parent_info I bs (F_tree I W) k Hk0) as (P1 & _). assert (P2 := parent_level I bs (F_tree I W) k Hk0). repeat split; try lia. }
          apply (ws_race_tab E _ _ _ _ _ _ (wc_up I x)).
          * intros y d Hi. destruct (Hit y Hi) as (K1 & K2 & K3 & K4). apply ok_read; [reflexivity|]. apply ok_read; [apply Nat.eqb_neq; lia|apply ok_ret].
          * intros y d Hi. destruct (Hit y Hi) as (K1 & K2 & K3 & K4). apply ok_readw; [exact Logic.I|]. intros v. apply ok_write; [| |apply ok_ret]; apply Nat.eqb_eq; auto.
        + exists (leaves E I st K phi (st_childless st)). intros b Hb. split; [rewrite B2 by reflexivity; apply A1; auto|auto]. }
    destruct (up_run_result E I W K phi m2 m3 e E1 E2 R3) as (up & U1 & U2 & U3).
    assert (T3 : m3 Tab = VT E true) by (rewrite U3, E3, D4; auto).
    destruct Hr as (ma & Ra & Hr).
    set (out0 := fun i => fold_left (fun a d => aadd a (amul (asR E (m3 (Ent i d))) (phi d))) (seq 0 (o_nd I)) 0%R).
    assert (V1 : forall i, ma (Out i) = VR E (out0 i)) by (intros i; rewrite (Ra (Out i)); reflexivity).
    assert (V2 : forall l, (forall i, l <> Out i) -> ma l = m3 l) by (intros l' Hl'; rewrite (Ra l'); destruct l'; auto; destruct (Hl' i eq_refl)).
    assert (Ta : ma Tab = VT E true) by (rewrite V2 by congruence; auto).
    destruct Hr as [H4|(mb & Rb & Hr)].
    { revert H4. apply (pf_race_tab E _ _ _ own_l); [| |apply seq_NoDup].
      - intros x Hx. assert (Q : forall l, own_l x l = true -> any_own nat (seq 0 nb) own_l l = true) by (intros l' Hl'; apply existsb_exists; eauto).
        apply ok_touch; [apply any_no; auto|].
        apply ok_write; [apply Q; cbn; apply Nat.eqb_refl|cbn; apply Nat.eqb_refl|]. apply ok_write; [apply Q; cbn; apply Nat.eqb_refl|cbn; apply Nat.eqb_refl|]. apply ok_ret.
      - intros x y l' _ _ N. destruct l'; cbn; try congruence; intros Q; apply Nat.eqb_eq in Q; subst; apply Nat.eqb_neq; auto. }
    destruct (create_l_result E I ma mb Ta Rb) as (A1 & A2).
    set (M := ascend E I st up (leaves E I st K phi (st_childless st))) in *.
    assert (RMb : RelM E I M mb). { intros b Hb. rewrite !A2 by reflexivity. rewrite !V2 by congruence. apply U2; auto. }
    assert (Tb : mb Tab = VT E true) by (rewrite A2 by reflexivity; auto).
    destruct Hr as [H5|(mc & Rc & H6)].
    - revert H5. apply (over_race_tab E (fun mm => RelM E I M mm /\ mm Tab = VT E true /\ exists s, RelD E I s mm)).
      + intros x md me Hx (Q1 & Q2 & s & Q3) Hw. apply in_seq in Hx. destruct (dn_level E I W owned x M s md me ltac:(lia) Q1 Q2 Q3 Hw) as (dn & P1 & P2 & P3).
        split; [intros b Hb; rewrite !P3 by reflexivity; apply Q1; auto|]. split; [rewrite P3; auto|]. eauto.
      + intros lv0 md l' Hx (Q1 & Q2 & s & Q3). apply in_seq in Hx.
        assert (Hit : forall k, In k (dfill st lv0) -> 0 < k < nb /\ b_level (B k) = lv0 /\ b_parent (B k) < nb /\ S (b_level (B (b_parent (B k)))) = lv0).
        { intros k Hk. apply (dfill_in I W) in Hk; [|lia]. destruct Hk as (K1 & K2 & _).
          assert (k <> 0). { intros ->. destruct (F_start0 I W) as (Z0 & Z1). assert (Q := proj1 (F_level_iff I W 0 lv0 K1 ltac:(lia)) K2). assert (startL st 0 <= 0 <= endL st 0) by lia. apply (F_level_iff I W) in H; lia. }
          assert (Hk0 : 0 < k < nb) by lia. destruct (parent_info I bs (F_tree I W) k Hk0) as (P1 & _). assert (P2 := parent_level I bs (F_tree I W) k Hk0). repeat split; try lia. }
        apply (ws_race_tab E _ _ _ _ _ _ (wc_dn I lv0)).
        * intros x d Hi. destruct (Hit x Hi) as (K1 & K2 & K3 & K4). apply ok_read; [reflexivity|]. apply ok_touch; [reflexivity|]. cbn [nc_block nc_exp nc_contr nc_nodes].
          destruct (existsb owned (b_nodes (B x))); [|apply ok_ret].
          apply ok_read; [apply Nat.eqb_neq; lia|]. apply fp_bind; [|intros; apply ok_ret]. apply fp_for. intros a s0 Hs0. apply fp_bind.
          -- apply fp_for. intros l0 c Hc. apply ok_read; [reflexivity|]. apply ok_read; [reflexivity|]. apply ok_ret.
          -- intros l0. apply fp_bind; [|intros; apply ok_ret]. apply fp_for. intros r c Hc. apply fp_for. intros r' ii Hii. apply ok_read; [reflexivity|apply ok_ret].
        * intros x d Hi. destruct (Hit x Hi) as (K1 & K2 & K3 & K4). destruct (dn_worker_exec E I W owned x d M s md K1 Q1 Q3 Q2 K3) as (r & R0 & _). rewrite R0.
          apply ok_readw; [exact Logic.I|]. intros v. apply ok_write; [apply Nat.eqb_eq; auto|apply Nat.eqb_eq; auto|]. apply fp_for. intros _ ii _. apply ok_add; auto.
      + split; auto. split; auto. exists (lz E, out0). split; [intros; apply A1; auto|intros; rewrite A2 by reflexivity; apply V1].
    - revert H6. apply (pf_race_tab E _ _ _ (own_o I)); [| |apply F_cl_nodup; auto].
      + intros b Hb. assert (Q : forall l, own_o I b l = true -> any_own nat (st_childless st) (own_o I) l = true) by (intros l' Hl'; apply existsb_exists; eauto).
        apply fp_for. intros _ i Hi. destruct (owned i); [|apply ok_ret].
        apply ok_read; [apply any_no; auto|]. assert (O : own_o I b (Out i) = true) by (cbn; apply mem_in; auto). apply ok_add; auto.
      + intros x y l' Hx Hy N. destruct l'; cbn; try congruence. intros Q. apply mem_in in Q. destruct (ModelFmm.mem i (b_nodes (B y))) eqn:Ey; auto. apply mem_in in Ey. exfalso. apply N. apply (leaf_unique I W x y i); auto.
  Qed.
End W4.
