(** The FMM loops on the concurrent machine compute what the sequential model computes. *)
From Coq Require Import Reals List Arith Bool Permutation Lia FunctionalExtensionality.
From Verif Require Import ModelOctree ProofsOctTree ProofsOctLevels ProofsOctFacts ProofsOctLists ModelFmm SpecFmm ModelConc ProofsConc ModelWork ProofsWork.
Import ListNotations.
Local Open Scope nat_scope.

Section W2.
  Context {AR : arith}.
  Variable E : eops.
  Variable I : oin.
  Hypothesis W : wf_in I.
  Variable K : kern.
  Variable phi : nat -> R.
  Variable owned : nat -> bool.
  Notation st := (octree I).
  Notation bs := (st_blocks (octree I)).
  Notation B := (getb (st_blocks (octree I))).
  Notation nb := (length (st_blocks (octree I))).
  Notation val := (val E).
  Notation mem := (mem loc val).
  Notation exec := (exec loc val loc_eqb).
  Notation put := (put loc val loc_eqb).
  Lemma put_same' : forall (m : mem) l v, put m l v l = v.
  Proof. apply put_same. apply loc_eqb_spec. Qed.
  Lemma put_other' : forall (m : mem) l v l', l <> l' -> put m l v l' = m l'.
  Proof. apply put_other. apply loc_eqb_spec. Qed.

  (** levels one after the other: collect the orders *)
  Lemma over_sched : forall (loop : nat -> mem -> mem -> Prop) (Step : nat -> list nat -> mem -> mem -> Prop) (Inv : mem -> Prop) ls, NoDup ls ->
    (forall l m m', In l ls -> Inv m -> loop l m m' -> Inv m' /\ exists dn, Step l dn m m') ->
    forall m m', Inv m -> over E ls loop m m' -> Inv m' /\ exists f, over E ls (fun l => Step l (f l)) m m'.
  Proof.
    intros loop Step Inv ls ND. induction ND as [|l ls Hl ND IH]; intros Hs m m' Hi Ho; cbn [over] in *.
    - subst m'. split; auto. exists (fun _ => []). auto.
    - destruct Ho as (m1 & H1 & H2). destruct (Hs l m m1 (or_introl eq_refl) Hi H1) as (Hi1 & dn & Hd).
      destruct (IH (fun l' a b Hl' => Hs l' a b (or_intror Hl')) m1 m' Hi1 H2) as (Hi2 & f & Hf). split; auto.
      exists (fun l' => if Nat.eqb l' l then dn else f l'). exists m1. rewrite Nat.eqb_refl. split; auto.
      clear - Hf Hl. revert m1 Hf. induction ls as [|a ls IH]; intros m1 Hf; cbn [over] in *; auto.
      destruct Hf as (m2 & A & C). exists m2. assert (a <> l) by (intros ->; apply Hl; left; auto).
      destruct (Nat.eqb_spec a l); [congruence|]. split; auto. apply IH; auto. intros Q. apply Hl. right. auto.
  Qed.
  (** run a fold along the levels *)
  Lemma over_fold : forall S (Step : nat -> mem -> mem -> Prop) (Rel : S -> mem -> Prop) (g : S -> nat -> S) ls,
    (forall l s m m', In l ls -> Rel s m -> Step l m m' -> Rel (g s l) m') ->
    forall s m m', Rel s m -> over E ls Step m m' -> Rel (fold_left g ls s) m'.
  Proof.
    intros S Step Rel g ls. induction ls as [|l ls IH]; intros Hs s m m' Hr Ho; cbn [over fold_left] in *; [subst; auto|].
    destruct Ho as (m1 & A & C). eapply IH; [intros; eapply Hs; eauto; right; auto| |exact C]. eapply Hs; eauto. left; auto.
  Qed.

  (** ** Matrix entries *)
  Definition acc (a : R) (adds : list (nat * nat * R)) (i d : nat) : R :=
    fold_left (fun a x => if Nat.eqb (fst (fst x)) i && Nat.eqb (snd (fst x)) d then aadd a (snd x) else a) adds a.
  Lemma acc_app : forall l1 l2 a i d, acc a (l1 ++ l2) i d = acc (acc a l1 i d) l2 i d.
  Proof. intros. unfold acc. apply fold_left_app. Qed.
  Definition is_ent (l : loc) : bool := match l with Ent _ _ => true | _ => false end.
  Lemma adds_exec : forall adds (m : mem) f, (forall i d, m (Ent i d) = VR E (f i d)) ->
    let m' := fold_left (fun m x => fst (exec (add_to E (Ent (fst (fst x)) (snd (fst x))) (snd x)) m)) adds m in
    (forall i d, m' (Ent i d) = VR E (acc (f i d) adds i d)) /\ forall l, is_ent l = false -> m' l = m l.
  Proof.
    induction adds as [|((r, c), x) adds IH]; intros m f Hm; cbn [fold_left]; [split; auto|].
    cbn [add_to ModelConc.exec fst snd]. cbn [fst snd]. rewrite Hm. cbn [asR].
    destruct (IH (put m (Ent r c) (VR E (aadd (f r c) x))) (fun i d => if Nat.eqb r i && Nat.eqb c d then (aadd (f i d) x) else f i d)) as (A1 & A2).
    { intros i d. destruct (Nat.eqb_spec r i) as [->|N]; cbn [andb]; [destruct (Nat.eqb_spec c d) as [->|N]|].
      - apply put_same'.
      - rewrite put_other' by congruence. auto.
      - rewrite put_other' by congruence. auto. }
    split.
    - intros i d. rewrite A1. reflexivity.
    - intros l Hl. rewrite A2 by auto. apply put_other'. intros <-. discriminate Hl.
  Qed.
  Lemma direct_ws : forall (g : nat -> direct_copy -> prog loc val direct_copy) (cd : nat -> direct_copy) items m m' f,
    (forall b d, g b d = Ret (cd b)) -> (forall i d, m (Ent i d) = VR E (f i d)) ->
    ws E g (direct_copier E I) dc_sample items m m' ->
    exists dn, Permutation dn items /\
      (forall i d, m' (Ent i d) = VR E (acc (f i d) (flat_map (fun b => copier_adds I (cd b)) dn) i d)) /\ forall l, is_ent l = false -> m' l = m l.
  Proof.
    intros g cd items m m' f Hg Hm Hr.
    assert (Hw : forall x d, In x items -> worker_ok E is_ent m (g x d)) by (intros; rewrite Hg; apply ok_ret).
    assert (Hc : forall x d, In x items -> copier_ok E is_ent m (direct_copier E I (snd (exec (g x d) m)))).
    { intros x d Hx. apply fp_for. intros. apply ok_add; auto. }
    destruct (ws_fresh E _ _ g (direct_copier E I) dc_sample items is_ent m Hw Hc) with (m' := m') as (dn & Hp & Hl); auto.
    { intros x d _. rewrite !Hg. auto. }
    assert (Hi : incl dn items) by (intros y Hy; apply (Permutation_in _ Hp); auto).
    exists dn. split; auto.
    assert (G : (forall i d, seq_loop loc val loc_eqb _ _ g (direct_copier E I) dc_sample m dn (Ent i d) = VR E (acc (f i d) (flat_map (fun b => copier_adds I (cd b)) dn) i d))).
    { clear Hl Hp. induction dn as [|x dn IH] using rev_ind; [exact Hm|]. intros i d.
      assert (Hi' : incl dn items) by (intros y Hy; apply Hi, in_or_app; auto).
      rewrite (loop_snoc E _ _ g (direct_copier E I) dc_sample items is_ent m Hw Hc) by (auto; apply Hi, in_or_app; right; left; auto).
      rewrite Hg. cbn [ModelConc.exec snd]. unfold direct_copier. rewrite exec_for_unit.
      destruct (adds_exec (copier_adds I (cd x)) (seq_loop loc val loc_eqb _ _ g (direct_copier E I) dc_sample m dn) (fun i d => acc (f i d) (flat_map (fun b => copier_adds I (cd b)) dn) i d)) as (A1 & _); auto.
      rewrite A1. rewrite flat_map_app, acc_app. cbn [flat_map]. rewrite app_nil_r. reflexivity. }
    split; [intros; rewrite Hl; auto|]. intros l Hl'. rewrite Hl. apply (loop_outside E _ _ g (direct_copier E I) dc_sample items is_ent m Hw Hc); auto.
  Qed.
  Lemma dc_near_spec : forall b d, dc_near I st K owned (dc_reset d) b = near_worker I st K owned b.
  Proof.
    intros b d. unfold dc_near, near_worker, dc_reset. cbn [dc_nodes dc_start dc_rows]. set (qs := near_quads I st b).
    assert (G : forall l cd, fst (fold_left (fun (a : direct_copy * nat) i => let (cd, h) := a in if owned i then
        ({| dc_nodes := dc_nodes cd ++ [i]; dc_start := dc_start cd ++ [h]; dc_rows := dc_rows cd ++ map (fun c => (c, near_row I K i c qs)) (cells_in I qs) |}, h + length (map (fun c => (c, near_row I K i c qs)) (cells_in I qs)))
        else (cd, h)) l (cd, length (dc_rows cd))) =
      fold_left (fun cd i => if owned i then {| dc_nodes := dc_nodes cd ++ [i]; dc_start := dc_start cd ++ [length (dc_rows cd)];
           dc_rows := dc_rows cd ++ map (fun c => (c, near_row I K i c qs)) (cells_in I qs) |} else cd) l cd).
    { induction l as [|i l IH]; intros cd; cbn [fold_left]; [reflexivity|]. destruct (owned i); [|apply IH].
      rewrite <- app_length.
      apply (IH {| dc_nodes := dc_nodes cd ++ [i]; dc_start := dc_start cd ++ [length (dc_rows cd)]; dc_rows := dc_rows cd ++ map (fun c => (c, near_row I K i c qs)) (cells_in I qs) |}). }
    exact (G (b_nodes (B b)) {| dc_nodes := []; dc_start := []; dc_rows := [] |}).
  Qed.
  Lemma dc_big_spec : forall l b d, dc_big I st K owned (dc_reset d) l b = big_worker I st K owned l b.
  Proof.
    intros lv b d. unfold dc_big, big_worker, dc_reset. cbn [dc_nodes dc_start dc_rows]. set (qs := big_quads I st lv b).
    assert (G : forall l cd, fst (fold_left (fun (a : direct_copy * nat) i => let (cd, h) := a in
        ({| dc_nodes := dc_nodes cd ++ [i]; dc_start := dc_start cd ++ [h]; dc_rows := dc_rows cd ++ (if owned i then map (fun c => (c, regular_row I K i c qs)) (cells_in I qs) else []) |}, h + length (if owned i then map (fun c => (c, regular_row I K i c qs)) (cells_in I qs) else []))) l (cd, length (dc_rows cd))) =
      fold_left (fun cd i => {| dc_nodes := dc_nodes cd ++ [i]; dc_start := dc_start cd ++ [length (dc_rows cd)];
           dc_rows := dc_rows cd ++ (if owned i then map (fun c => (c, regular_row I K i c qs)) (cells_in I qs) else []) |}) l cd).
    { induction l as [|i l IH]; intros cd; cbn [fold_left]; [reflexivity|].
      rewrite <- app_length.
      apply (IH {| dc_nodes := dc_nodes cd ++ [i]; dc_start := dc_start cd ++ [length (dc_rows cd)]; dc_rows := dc_rows cd ++ (if owned i then map (fun c => (c, regular_row I K i c qs)) (cells_in I qs) else []) |}). }
    exact (G (b_nodes (B b)) {| dc_nodes := []; dc_start := []; dc_rows := [] |}).
  Qed.
  Theorem direct_run_result : forall m m', (forall i d, m (Ent i d) = VR E 0) -> direct_run E I st K owned m m' ->
    exists cl lv, Permutation cl (st_childless st) /\ (forall l, 1 <= l <= o_N I -> Permutation (lv l) (nth l (st_dfill st) [])) /\
      (forall i d, m' (Ent i d) = VR E (entry (direct_adds I st K owned cl lv) i d)) /\ forall l, is_ent l = false -> m' l = m l.
  Proof.
    intros m m' Hm (m1 & H1 & H2).
    destruct (direct_ws (near_work E I st K owned) (near_worker I st K owned) (st_childless st) m m1 (fun _ _ => 0%R)) as (cl & P1 & A1 & A2); auto.
    { intros. unfold near_work. rewrite dc_near_spec. auto. }
    set (Step := fun l dn (m m' : mem) => Permutation dn (dfill st l) /\ (forall f, (forall i d, m (Ent i d) = VR E (f i d)) ->
       forall i d, m' (Ent i d) = VR E (acc (f i d) (flat_map (fun b => copier_adds I (big_worker I st K owned l b)) dn) i d)) /\ forall l, is_ent l = false -> m' l = m l).
    destruct (over_sched (fun l => ws E (big_work E I st K owned l) (direct_copier E I) dc_sample (dfill st l)) Step (fun m => exists f, forall i d, m (Ent i d) = VR E (f i d)) (levels I)) with (m := m1) (m' := m') as (_ & f & Hf).
    - apply seq_NoDup.
    - intros l ma mb Hl (f & Hf) Hw.
      destruct (direct_ws (big_work E I st K owned l) (big_worker I st K owned l) (dfill st l) ma mb f) as (dn & Q1 & Q2 & Q3); auto.
      { intros. unfold big_work. rewrite dc_big_spec. auto. }
      split; [eexists; exact Q2|]. exists dn. split; auto. split; auto. intros f' Hf' i d. rewrite Q2.
      assert (Z : VR E (f i d) = VR E (f' i d)) by (rewrite <- Hf; auto). injection Z as ->. reflexivity.
    - eexists. exact A1.
    - exact H2.
    - exists cl, (fun l => f l). split; auto.
      assert (G : forall ls m1 g m', over E ls (fun l => Step l (f l)) m1 m' -> (forall i d, m1 (Ent i d) = VR E (g i d)) ->
        (forall l, In l ls -> Permutation (f l) (dfill st l)) /\ (forall l, is_ent l = false -> m' l = m1 l) /\
        (forall i d, m' (Ent i d) = VR E (acc (g i d) (flat_map (fun level => flat_map (fun b => copier_adds I (big_worker I st K owned level b)) (f level)) ls) i d))).
      { induction ls as [|l ls IH]; intros ma g mb Ho Hg; cbn [over] in Ho.
        - subst mb. split; [intros l []|]. split; auto.
        - destruct Ho as (mc & (S1 & S2 & S3) & Ho). destruct (IH mc _ mb Ho (S2 g Hg)) as (T1 & T2 & T3).
          split; [intros l' [<-|Hl']; auto|]. split; [intros l' Hl'; rewrite T2, S3; auto|].
          intros i d. rewrite T3. cbn [flat_map]. rewrite acc_app. reflexivity. }
      destruct (G (levels I) m1 _ m' Hf A1) as (T1 & T2 & T3). split; [intros l Hl; apply T1; apply in_seq; lia|]. split.
      + intros i d. rewrite T3. f_equal. unfold entry, direct_adds. change (acc (acc 0 (flat_map (fun b => copier_adds I (near_worker I st K owned b)) cl) i d) (flat_map (fun level => flat_map (fun b => copier_adds I (big_worker I st K owned level b)) (f level)) (levels I)) i d = acc 0 (flat_map (fun b => copier_adds I (near_worker I st K owned b)) cl ++ flat_map (fun level => flat_map (fun b => copier_adds I (big_worker I st K owned level b)) (f level)) (seq 1 (o_N I))) i d). rewrite acc_app. reflexivity.
      + intros l Hl. rewrite T2, A2; auto.
  Qed.

  (** ** The map of element expansions *)
  Definition elem_val (b : nat) : option (nat -> option (nat -> ME E)) :=
    match cells_in I (b_quads (B b)) with [] => None | _ => Some (elem_cells E I st K b (fun _ => None)) end.
  Lemma elem_cells_val : forall b old c, elem_cells E I st K b old c =
    if ModelFmm.mem c (cells_in I (b_quads (B b))) then Some (fun j => elem_exp E I st K b c j) else old c.
  Proof.
    intros b old c. unfold elem_cells. generalize (cells_in I (b_quads (B b))). intros l. revert old.
    induction l as [|a l IH]; intros old; [reflexivity|]. cbn [fold_left]. rewrite IH. unfold ModelFmm.mem. cbn [existsb].
    destruct (existsb (Nat.eqb c) l); [rewrite orb_true_r; auto|]. rewrite orb_false_r. unfold upd.
    destruct (Nat.eqb_spec c a) as [->|N]; auto.
  Qed.
  Lemma elem_cells_twice : forall b old, elem_cells E I st K b (elem_cells E I st K b old) = elem_cells E I st K b old.
  Proof. intros. apply functional_extensionality. intros c. rewrite !elem_cells_val. destruct (ModelFmm.mem c _); auto. Qed.
  Definition is_elem (l : loc) : bool := match l with Elem => true | _ => false end.
  Notation eloop := (seq_loop loc val loc_eqb nat (emap E) (elem_worker E I st K) (elem_copier E) (elem_sample E)).
  Theorem elem_run_result : forall m m', m Elem = VE E (elem_sample E) -> elem_run E I st K m m' ->
    (exists e, m' Elem = VE E e /\ forall b, In b (st_childless st) -> e b = elem_val b) /\ forall l, is_elem l = false -> m' l = m l.
  Proof.
    intros m m' Hm Hr. unfold elem_run in Hr. set (items := st_childless st) in *.
    assert (Hw : forall x d, In x items -> worker_ok E is_elem m (elem_worker E I st K x d)) by (intros; apply ok_ret).
    assert (Hc : forall x d, In x items -> copier_ok E is_elem m (elem_copier E (snd (exec (elem_worker E I st K x d) m)))).
    { intros. apply ok_readw; [exact Logic.I|]. intros. apply ok_write; auto. apply ok_ret. }
    set (P := fun (dn : list nat) (d : emap E) => forall b f, d b = Some f -> In b dn /\ d b = elem_val b).
    (* what the sequential loop leaves in the map *)
    assert (HL : forall dn, incl dn items -> exists e, eloop m dn Elem = VE E e /\ forall b, e b = if ModelFmm.mem b dn then elem_val b else None).
    { intros dn. induction dn as [|x dn IH] using rev_ind; intros Hi.
      - exists (elem_sample E). split; auto.
      - destruct IH as (e & E1 & E2); [intros y Hy; apply Hi, in_or_app; auto|].
        assert (Hx : In x items) by (apply Hi, in_or_app; right; left; auto).
        rewrite (loop_snoc E _ _ (elem_worker E I st K) (elem_copier E) (elem_sample E) items is_elem m Hw Hc) by (auto; intros y Hy; apply Hi, in_or_app; auto).
        cbn [elem_copier done1 ModelConc.exec fst]. rewrite put_same'. rewrite E1. cbn [asE]. eexists. split; [reflexivity|].
        intros b. cbn beta. rewrite E2. unfold ModelFmm.mem. rewrite existsb_app. cbn [existsb]. rewrite orb_false_r.
        assert (V1 : snd (exec (elem_worker E I st K x (elem_sample E)) m) b = if Nat.eqb b x then elem_val x else None).
        { unfold elem_worker, elem_val. destruct (cells_in I (b_quads (B x))) eqn:Ec; cbn [ModelConc.exec snd]; [destruct (Nat.eqb b x); auto|].
          unfold upd, elem_sample. destruct (Nat.eqb b x); auto. }
        rewrite V1. destruct (existsb (Nat.eqb b) dn); cbn [orb].
        + destruct (elem_val b) eqn:Ev; auto. destruct (Nat.eqb_spec b x) as [Eq|]; [congruence|auto].
        + destruct (Nat.eqb_spec b x) as [Eq|]; [rewrite Eq; auto|auto]. }
    destruct (ws_stale E _ _ (elem_worker E I st K) (elem_copier E) (elem_sample E) items is_elem m Hw Hc P) with (m' := m') as (dn & Hp & Hl); auto.
    - intros b f Q. discriminate Q.
    - intros dn z d Hd b f Q. destruct (Hd b f Q). split; auto. apply in_or_app; auto.
    - intros x d dn z Hx Hd Hi.
      assert (Wd : forall b, snd (exec (elem_worker E I st K x d) m) b = if Nat.eqb b x then elem_val x else d b).
      { intros b. unfold elem_worker, elem_val. destruct (cells_in I (b_quads (B x))) eqn:Ec; cbn [ModelConc.exec snd].
        - destruct (Nat.eqb_spec b x) as [->|]; auto. destruct (d x) as [f|] eqn:Ed; auto. destruct (Hd x f Ed) as (_ & Q). unfold elem_val in Q. rewrite Ec in Q. congruence.
        - unfold upd. destruct (Nat.eqb_spec b x) as [->|]; auto. f_equal. destruct (d x) as [f|] eqn:Ed; auto.
          destruct (Hd x f Ed) as (_ & Q). unfold elem_val in Q. rewrite Ec, Ed in Q. injection Q as ->. apply elem_cells_twice. }
      split.
      + intros l. destruct (HL (dn ++ z) Hi) as (e & E1 & E2). cbn [elem_copier done1 ModelConc.exec fst]. unfold ModelConc.put.
        destruct (loc_eqb Elem l); auto. f_equal. apply functional_extensionality. intros b. rewrite E1. cbn [asE].
        destruct (e b) as [f|] eqn:Eb; auto. rewrite Wd.
        assert (V1 : snd (exec (elem_worker E I st K x (elem_sample E)) m) b = if Nat.eqb b x then elem_val x else None).
        { unfold elem_worker, elem_val. destruct (cells_in I (b_quads (B x))) eqn:Ec; cbn [ModelConc.exec snd]; [destruct (Nat.eqb b x); auto|].
          unfold upd, elem_sample. destruct (Nat.eqb b x); auto. }
        rewrite V1. destruct (Nat.eqb_spec b x); auto. destruct (d b) as [f|] eqn:Ed; auto. destruct (Hd b f Ed) as (D1 & D2).
        rewrite E2 in Eb. unfold ModelFmm.mem in Eb. destruct (existsb (Nat.eqb b) (dn ++ z)) eqn:Ex; [congruence|].
        assert (existsb (Nat.eqb b) (dn ++ z) = true) by (apply existsb_exists; exists b; rewrite Nat.eqb_refl; split; auto; apply in_or_app; auto). congruence.
      + intros b f Q. rewrite Wd in *. destruct (Nat.eqb_spec b x) as [->|N].
        * split; auto. rewrite app_assoc. apply in_or_app. right. left. auto.
        * destruct (Hd b f Q). split; auto. apply in_or_app; auto.
    - assert (Hi : incl dn items) by (intros y Hy; apply (Permutation_in _ Hp); auto).
      split.
      + destruct (HL dn Hi) as (e & E1 & E2). exists e. rewrite Hl. split; auto. intros b Hb. rewrite E2.
        assert (Q : ModelFmm.mem b dn = true). { apply existsb_exists. exists b. rewrite Nat.eqb_refl. split; auto. apply (Permutation_in _ (Permutation_sym Hp)); auto. }
        rewrite Q. auto.
      + intros l Hl'. rewrite Hl. apply (loop_outside E _ _ (elem_worker E I st K) (elem_copier E) (elem_sample E) items is_elem m Hw Hc); auto.
  Qed.
End W2.
