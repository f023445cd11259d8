(** The FMM loops on the concurrent machine, continued: expansions, evaluation, the whole product. *)
From Coq Require Import Reals List Arith Bool Permutation Lia FunctionalExtensionality.
From Verif Require Import ModelOctree ProofsOctTree ProofsOctLevels ProofsOctFacts ProofsOctLists ModelFmm SpecFmm ProofsFmm ModelConc ProofsConc ModelWork ProofsWork ProofsWork2.
Import ListNotations.
Local Open Scope nat_scope.

Section W3.
  Context {AR : arith}.
  Variable E : eops.
  Variable I : oin.
  Hypothesis W : wf_in I.
  Variable K : kern.
  Variable phi : nat -> R.
  Variable owned : nat -> bool.
  Notation st := (octree I).
  Notation bs := (st_blocks (octree I)).
  Notation B := (getb (st_blocks (octree I))).
  Notation nb := (length (st_blocks (octree I))).
  Notation val := (val E).
  Notation mem := (mem loc val).
  Notation exec := (exec loc val loc_eqb).
  Notation put := (put loc val loc_eqb).

  Lemma over_rel : forall S (loop : nat -> mem -> mem -> Prop) (Rel : S -> mem -> Prop) (step : S -> nat -> S) (items : nat -> list nat) ls, NoDup ls ->
    (forall l s m m', In l ls -> Rel s m -> loop l m m' -> exists dn, Permutation dn (items l) /\ Rel (fold_left step dn s) m') ->
    forall s m m', Rel s m -> over E ls loop m m' ->
    exists f, (forall l, In l ls -> Permutation (f l) (items l)) /\ Rel (fold_left (fun s l => fold_left step (f l) s) ls s) m'.
  Proof.
    intros S loop Rel step items ls ND. induction ND as [|l ls Hl ND IH]; intros Hs s m m' Hr Ho; cbn [over] in Ho.
    - subst m'. exists (fun _ => []). split; [intros l []|exact Hr].
    - destruct Ho as (m1 & H1 & H2). destruct (Hs l s m m1 (or_introl eq_refl) Hr H1) as (dn & Hp & Hr1).
      destruct (IH (fun l' s a b Hl' => Hs l' s a b (or_intror Hl')) _ m1 m' Hr1 H2) as (f & Hf & Hr2).
      exists (fun l' => if Nat.eqb l' l then dn else f l'). split.
      + intros l' [<-|Hl']; [rewrite Nat.eqb_refl; auto|]. destruct (Nat.eqb_spec l' l) as [->|]; [contradiction|auto].
      + cbn [fold_left]. rewrite Nat.eqb_refl.
        replace (fold_left (fun s l' => fold_left step (if Nat.eqb l' l then dn else f l') s) ls (fold_left step dn s))
          with (fold_left (fun s l => fold_left step (f l) s) ls (fold_left step dn s)); auto.
        clear - Hl. generalize (fold_left step dn s). induction ls as [|a ls IH]; intros s'; cbn [fold_left]; auto.
        destruct (Nat.eqb_spec a l) as [->|]; [exfalso; apply Hl; left; auto|]. apply IH. intros Q. apply Hl. right. auto.
  Qed.

  Lemma any_no : forall X (items : list X) own l, (forall x, own x l = false) -> any_own X items own l = false.
  Proof. intros X items own l Hf. unfold any_own. induction items as [|a r IH]; cbn [existsb]; auto. rewrite Hf. auto. Qed.

  (** ** Multipole expansions *)
  Definition own_m (b : nat) (l : loc) : bool := match l with MCen x | MExp x => Nat.eqb b x | _ => false end.
  Definition is_m (l : loc) : bool := match l with MCen _ | MExp _ => true | _ => false end.
  Lemma create_m_result : forall m m', pf E (seq 0 nb) (create_m E) m m' ->
    (forall b, b < nb -> m' (MCen b) = VC E b /\ m' (MExp b) = VM E (mz E b)) /\ forall l, is_m l = false -> m' l = m l.
  Proof.
    intros m m' Hr.
    destruct (pf_result E nat (seq 0 nb) (create_m E) own_m m) with (m' := m') as (A & C); auto.
    - intros x Hx. assert (Q : forall l, own_m x l = true -> any_own nat (seq 0 nb) own_m l = true) by (intros l Hl; apply existsb_exists; eauto).
      apply ok_write; [apply Q; cbn; apply Nat.eqb_refl|cbn; apply Nat.eqb_refl|]. apply ok_write; [apply Q; cbn; apply Nat.eqb_refl|cbn; apply Nat.eqb_refl|]. apply ok_ret.
    - intros x y l _ _ N. destruct l; cbn; try congruence; intros Q; apply Nat.eqb_eq in Q; subst; apply Nat.eqb_neq; auto.
    - apply seq_NoDup.
    - split.
      + intros b Hb. assert (Hi : In b (seq 0 nb)) by (apply in_seq; lia).
        rewrite (A b (MCen b) Hi), (A b (MExp b) Hi) by (cbn; apply Nat.eqb_refl). cbn [create_m done1 ModelConc.exec fst]. split.
        * rewrite put_other' by congruence. apply put_same'.
        * apply put_same'.
      + intros l Hl. apply C. intros x _. destruct l; auto; discriminate Hl.
  Qed.
  Definition own_e (b : nat) (l : loc) : bool := match l with MExp x => Nat.eqb b x | _ => false end.
  Definition is_e (l : loc) : bool := match l with MExp _ => true | _ => false end.
  Lemma elem_val_cell : forall b c, In c (cells_in I (b_quads (B b))) -> exists f, elem_val E I K b = Some f /\ f c = Some (fun j => elem_exp E I st K b c j).
  Proof.
    intros b c Hc. exists (elem_cells E I st K b (fun _ => None)). split.
    - unfold elem_val. destruct (cells_in I (b_quads (B b))); [destruct Hc|reflexivity].
    - rewrite elem_cells_val. assert (Q : ModelFmm.mem c (cells_in I (b_quads (B b))) = true) by (apply existsb_exists; exists c; rewrite Nat.eqb_refl; auto).
      rewrite Q. auto.
  Qed.
  Lemma leaves_in : forall order M b, NoDup order ->
    fold_left (fun M b => upd M b (leaf_exp E I st K phi b (M b))) order M b = if ModelFmm.mem b order then leaf_exp E I st K phi b (M b) else M b.
  Proof.
    induction order as [|a order IH]; intros M b ND; [reflexivity|]. inversion ND; subst. cbn [fold_left]. rewrite IH by auto.
    unfold ModelFmm.mem. cbn [existsb]. destruct (existsb (Nat.eqb b) order) eqn:Ex.
    - rewrite orb_true_r. unfold upd. destruct (Nat.eqb_spec b a) as [->|]; auto. exfalso. apply existsb_exists in Ex. destruct Ex as (y & Hy & Q). apply Nat.eqb_eq in Q. subst. auto.
    - rewrite orb_false_r. unfold upd. destruct (Nat.eqb_spec b a) as [->|]; auto.
  Qed.
  Theorem leaf_result : forall m m' e, m Elem = VE E e -> (forall b, In b (st_childless st) -> e b = elem_val E I K b) ->
    (forall b, b < nb -> m (MExp b) = VM E (mz E b)) -> pf E (st_childless st) (leaf_body E I st phi) m m' ->
    (forall b, b < nb -> m' (MExp b) = VM E (leaves E I st K phi (st_childless st) b)) /\ forall l, is_e l = false -> m' l = m l.
  Proof.
    intros m m' e He Hv Hm Hr.
    destruct (pf_result E nat (st_childless st) (leaf_body E I st phi) own_e m) with (m' := m') as (A & C); auto.
    - intros b Hb. assert (Q : forall l, own_e b l = true -> any_own nat (st_childless st) own_e l = true) by (intros l Hl; apply existsb_exists; eauto).
      apply fp_for. intros _ c Hc. apply fp_for. intros _ jd Hjd.
      apply ok_read; [apply any_no; auto|]. rewrite He. cbn [asE]. rewrite (Hv b Hb).
      destruct (elem_val_cell b c Hc) as (f & F1 & F2). rewrite F1, F2.
      apply ok_readw; [cbn; apply Nat.eqb_refl|]. intros v. apply ok_write; [apply Q; cbn; apply Nat.eqb_refl|cbn; apply Nat.eqb_refl|apply ok_ret].
    - intros x y l _ _ N. destruct l; cbn; try congruence; intros Q; apply Nat.eqb_eq in Q; subst; apply Nat.eqb_neq; auto.
    - apply F_cl_nodup; auto.
    - split.
      + intros b Hb. unfold leaves. rewrite leaves_in by (apply F_cl_nodup; auto). destruct (ModelFmm.mem b (st_childless st)) eqn:Ex.
        * apply existsb_exists in Ex. destruct Ex as (y & Hy & Q). apply Nat.eqb_eq in Q. subst y. rewrite (A b (MExp b) Hy) by (cbn; apply Nat.eqb_refl).
          unfold leaf_body. rewrite exec_for_unit.
          set (G := fun (m1 : mem) v => m1 Elem = VE E e /\ m1 (MExp b) = VM E v).
          assert (G2 : forall cs jds m1 v, incl cs (cells_in I (b_quads (B b))) -> G m1 v ->
            G (fold_left (fun m x => fst (exec (for_each (jds x) (fun _ jd => Rd Elem (fun e => match asE E e b with
               | Some f => match f x with Some x => Rd (MExp b) (fun m => Wr (MExp b) (VM E (maddc E (asM E m) (x (fst jd)) (phi (snd jd)))) (done1 E)) | None => Wr Elem (VE E (upd (asE E e) b (Some (upd f x (Some (fun _ => mz E 0)))))) (done1 E) end
               | None => Wr Elem (VE E (upd (asE E e) b (Some (fun _ => None)))) (done1 E) end)) tt) m)) cs m1)
              (fold_left (fun m c => fold_left (fun m jd => maddc E m (elem_exp E I st K b c (fst jd)) (phi (snd jd))) (jds c) m) cs v)).
          { intros cs jds. induction cs as [|c cs IH]; intros m1 v Hi Hg; cbn [fold_left]; auto. apply IH; [intros y Q; apply Hi; right; auto|].
            destruct (elem_val_cell b c (Hi c (or_introl eq_refl))) as (f & F1 & F2). rewrite exec_for_unit.
            generalize (jds c) as js. clear IH. intros js. revert m1 v Hg. induction js as [|jd js IHj]; intros m1 v Hg; cbn [fold_left]; auto.
            apply IHj. destruct Hg as (Q1 & Q2). cbn [ModelConc.exec]. rewrite Q1. cbn [asE]. rewrite (Hv b Hy), F1, F2. cbn [ModelConc.exec done1 fst]. rewrite Q2. cbn [asM].
            split; [rewrite put_other' by congruence; auto|apply put_same']. }
          assert (G1 : G m (mz E b)) by (split; auto). exact (proj2 (G2 (cells_in I (b_quads (B b))) (fun c => combine (seq 0 (length (o_cdofs I c))) (o_cdofs I c)) m (mz E b) (fun y Q => Q) G1)).
        * rewrite C; auto. intros x Hx. cbn. apply Nat.eqb_neq. intros ->. assert (ModelFmm.mem b (st_childless st) = true) by (apply existsb_exists; exists b; rewrite Nat.eqb_refl; auto). congruence.
      + intros l Hl. apply C. intros x _. destruct l; auto; discriminate Hl.
  Qed.
  (** ascend *)
  Definition wc_up (lv : nat) (l : loc) : bool := match l with MExp p => Nat.eqb (S (b_level (B p))) lv | _ => false end.
  Definition RelM (M : nat -> ME E) (m : mem) : Prop := forall b, b < nb -> m (MCen b) = VC E b /\ m (MExp b) = VM E (M b).
  Lemma up_level : forall lv M m m', 1 <= lv <= o_N I -> RelM M m -> ws E (up_worker E st) (up_copier E) (up_sample E) (level_ids st lv) m m' ->
    exists dn, Permutation dn (level_ids st lv) /\ RelM (fold_left (ascend1 E st) dn M) m' /\ forall l, is_e l = false -> m' l = m l.
  Proof.
    intros lv M m m' Hlv HM Hr. set (items := level_ids st lv) in *.
    assert (Hit : forall k, In k items -> 0 < k < nb /\ b_level (B k) = lv /\ b_parent (B k) < nb /\ S (b_level (B (b_parent (B k)))) = lv).
    { intros k Hk. apply (F_level_ids I W) in Hk; [|lia]. destruct Hk as (K1 & K2).
      assert (k <> 0). { intros ->. destruct (F_start0 I W) as (S0 & S1). assert (Q := proj1 (F_level_iff I W 0 lv K1 ltac:(lia)) K2). assert (startL st 0 <= 0 <= endL st 0) by lia. apply (F_level_iff I W) in H; lia. }
      assert (Hk0 : 0 < k < nb) by lia. destruct (parent_info I bs (F_tree I W) k Hk0) as (P1 & _). assert (P2 := parent_level I bs (F_tree I W) k Hk0).
      repeat split; try lia. }
    assert (Hx : forall x d, In x items -> snd (exec (up_worker E st x d) m) = {| uc_parent := b_parent (B x); uc_exp := madd E (mz E (b_parent (B x))) (M x) |}).
    { intros x d Hi. destruct (Hit x Hi) as (K1 & K2 & K3 & K4). cbn [up_worker ModelConc.exec snd uc_parent uc_exp].
      destruct (HM (b_parent (B x)) K3) as (C1 & _). destruct (HM x ltac:(lia)) as (_ & C2). rewrite C1, C2. reflexivity. }
    assert (Hw : forall x d, In x items -> worker_ok E (wc_up lv) m (up_worker E st x d)).
    { intros x d Hi. destruct (Hit x Hi) as (K1 & K2 & K3 & K4). apply ok_read; [reflexivity|]. apply ok_read; [apply Nat.eqb_neq; lia|apply ok_ret]. }
    assert (Hc : forall x d, In x items -> copier_ok E (wc_up lv) m (up_copier E (snd (exec (up_worker E st x d) m)))).
    { intros x d Hi. destruct (Hit x Hi) as (K1 & K2 & K3 & K4). rewrite Hx by auto. apply ok_readw; [exact Logic.I|]. intros v. apply ok_write; [| |apply ok_ret]; apply Nat.eqb_eq; auto. }
    destruct (ws_fresh E _ _ (up_worker E st) (up_copier E) (up_sample E) items (wc_up lv) m Hw Hc) with (m' := m') as (dn & Hp & Hl); auto.
    assert (Hin : incl dn items) by (intros y Hy; apply (Permutation_in _ Hp); auto).
    exists dn. split; auto. split.
    - assert (G : RelM (fold_left (ascend1 E st) dn M) (seq_loop loc val loc_eqb _ _ (up_worker E st) (up_copier E) (up_sample E) m dn)).
      { clear Hp Hl. induction dn as [|x dn IH] using rev_ind; [exact HM|].
        assert (Hi' : incl dn items) by (intros y Hy; apply Hin, in_or_app; auto). assert (Hxi : In x items) by (apply Hin, in_or_app; right; left; auto).
        specialize (IH Hi'). destruct (Hit x Hxi) as (K1 & K2 & K3 & K4). rewrite fold_left_app. cbn [fold_left]. intros b Hb.
        rewrite !(loop_snoc E _ _ (up_worker E st) (up_copier E) (up_sample E) items (wc_up lv) m Hw Hc) by auto.
        rewrite Hx by auto. cbn [up_copier uc_parent uc_exp done1 ModelConc.exec fst]. split.
        - rewrite put_other' by congruence. apply IH; auto.
        - destruct (IH _ K3) as (_ & C1). rewrite C1. cbn [asM]. unfold ascend1, upd. destruct (Nat.eqb_spec b (b_parent (B x))) as [->|N].
          + rewrite put_same'. f_equal. f_equal. f_equal.
            assert (Q : VM E (M x) = VM E (fold_left (ascend1 E st) dn M x)).
            { rewrite <- (proj2 (HM x ltac:(lia))), <- (proj2 (IH x ltac:(lia))). symmetry. apply (loop_outside E _ _ (up_worker E st) (up_copier E) (up_sample E) items (wc_up lv) m Hw Hc); auto. apply Nat.eqb_neq. lia. }
            injection Q as Q. exact Q.
          + rewrite put_other' by congruence. apply IH; auto. }
      intros b Hb. rewrite !Hl. apply G; auto.
    - intros l Hl'. rewrite Hl. apply (loop_outside E _ _ (up_worker E st) (up_copier E) (up_sample E) items (wc_up lv) m Hw Hc); auto. destruct l; auto. discriminate Hl'.
  Qed.
  Theorem up_run_result : forall m m' e, m Elem = VE E e -> (forall b, In b (st_childless st) -> e b = elem_val E I K b) -> up_run E I st phi m m' ->
    exists up, (forall l, 1 <= l <= o_N I -> Permutation (up l) (level_ids st l)) /\
      RelM (ascend E I st up (leaves E I st K phi (st_childless st))) m' /\ forall l, is_m l = false -> m' l = m l.
  Proof.
    intros m m' e He Hv (m1 & m2 & H1 & H2 & H3).
    destruct (create_m_result m m1 H1) as (A1 & A2).
    destruct (leaf_result m1 m2 e) as (B1 & B2); auto; [rewrite A2; auto|intros; apply A1; auto|].
    destruct (over_rel (nat -> ME E) (fun l => ws E (up_worker E st) (up_copier E) (up_sample E) (level_ids st l)) (fun M ma => RelM M ma /\ forall l, is_m l = false -> ma l = m l)
      (ascend1 E st) (level_ids st) (rev (levels I))) with (s := leaves E I st K phi (st_childless st)) (m := m2) (m' := m') as (f & F1 & F2 & F3); auto.
    - apply NoDup_rev. apply seq_NoDup.
    - intros l M ma mb Hl (R1 & R2) Hw. apply in_rev in Hl. apply in_seq in Hl. destruct (up_level l M ma mb ltac:(lia) R1 Hw) as (dn & P1 & P2 & P3).
      exists dn. split; auto. split; auto. intros l' Hl'. rewrite P3; auto. destruct l'; auto; discriminate Hl'.
    - split; [intros b Hb; split; [rewrite B2 by reflexivity; apply A1; auto|auto]|]. intros l Hl. rewrite B2, A2; auto. destruct l; auto; discriminate Hl.
    - exists f. split; [intros l Hl; apply F1; apply -> in_rev; apply in_seq; lia|]. split; auto.
  Qed.

  (** ** Local expansions *)
  Definition own_l (b : nat) (l : loc) : bool := match l with LCen x | LExp x => Nat.eqb b x | _ => false end.
  Definition is_l (l : loc) : bool := match l with LCen _ | LExp _ => true | _ => false end.
  Lemma create_l_result : forall m m', m Tab = VT E true -> pf E (seq 0 nb) (create_l E) m m' ->
    (forall b, b < nb -> m' (LCen b) = VC E b /\ m' (LExp b) = VL E (lz E b)) /\ forall l, is_l l = false -> m' l = m l.
  Proof.
    intros m m' Ht Hr.
    destruct (pf_result E nat (seq 0 nb) (create_l E) own_l m) with (m' := m') as (A & C); auto.
    - intros x Hx. assert (Q : forall l, own_l x l = true -> any_own nat (seq 0 nb) own_l l = true) by (intros l Hl; apply existsb_exists; eauto).
      apply ok_touch; [apply any_no; auto|].
      apply ok_write; [apply Q; cbn; apply Nat.eqb_refl|cbn; apply Nat.eqb_refl|]. apply ok_write; [apply Q; cbn; apply Nat.eqb_refl|cbn; apply Nat.eqb_refl|]. apply ok_ret.
    - intros x y l _ _ N. destruct l; cbn; try congruence; intros Q; apply Nat.eqb_eq in Q; subst; apply Nat.eqb_neq; auto.
    - apply seq_NoDup.
    - split.
      + intros b Hb. assert (Hi : In b (seq 0 nb)) by (apply in_seq; lia).
        rewrite (A b (LCen b) Hi), (A b (LExp b) Hi) by (cbn; apply Nat.eqb_refl). cbn [create_l touch_table done1 ModelConc.exec fst]. split.
        * rewrite put_other' by congruence. apply put_same'.
        * apply put_same'.
      + intros l Hl. apply C. intros x _. destruct l; auto; discriminate Hl.
  Qed.
  Definition is_dn (l : loc) : bool := match l with LExp _ | Out _ => true | _ => false end.
  Definition wc_dn (lv : nat) (l : loc) : bool := match l with LExp b => Nat.eqb (b_level (B b)) lv | Out _ => true | _ => false end.
  Definition RelD (s : (nat -> LE E) * (nat -> R)) (m : mem) : Prop :=
    (forall b, b < nb -> m (LCen b) = VC E b /\ m (LExp b) = VL E (fst s b)) /\ forall i, m (Out i) = VR E (snd s i).
  (** reading is constant *)
  Lemma nonint_bound : forall b s c, 0 < b < nb -> s < near_levels I st b -> In c (nonint_list I st b s) -> c < nb.
  Proof.
    intros b s c Hb Hs Hc. destruct (Nat.eq_dec (b_level (B b)) 1) as [L1|L1]; [rewrite (nonint_1 I b s L1) in Hc; destruct Hc|].
    apply (nonint_front I W b s c Hb L1 Hs Hc).
  Qed.
  Lemma contr_fold : forall (M : nat -> ME E) nodes cs r ii,
    fold_left (fun r c => fold_left (fun r ii => upd r ii (aadd (r ii) (evM E (M c) (nth ii nodes 0%nat)))) (seq 0 (length nodes)) r) cs r ii =
    if Nat.ltb ii (length nodes) then fold_left (fun a c => aadd a (evM E (M c) (nth ii nodes 0%nat))) cs (r ii) else r ii.
  Proof.
    intros M nodes cs. induction cs as [|c cs IH]; intros r ii; cbn [fold_left]; [destruct (Nat.ltb _ _); auto|].
    rewrite IH.
    assert (G : forall n a r, fold_left (fun r ii => upd r ii (aadd (r ii) (evM E (M c) (nth ii nodes 0%nat)))) (seq a n) r ii = if Nat.leb a ii && Nat.ltb ii (a + n) then (aadd (r ii) (evM E (M c) (nth ii nodes 0%nat))) else r ii).
    { induction n as [|n IHn]; intros a r0; cbn [seq fold_left].
      - destruct (Nat.leb_spec a ii); cbn [andb]; auto. destruct (Nat.ltb_spec ii (a + 0)); auto; lia.
      - rewrite IHn. unfold upd. destruct (Nat.eqb_spec ii a) as [->|N].
        + destruct (Nat.leb_spec (S a) a); [lia|]. cbn [andb]. destruct (Nat.leb_spec a a); [|lia]. destruct (Nat.ltb_spec a (a + S n)); [auto|lia].
        + destruct (Nat.leb_spec (S a) ii), (Nat.leb_spec a ii); cbn [andb]; try lia; auto.
          destruct (Nat.ltb_spec ii (S a + n)), (Nat.ltb_spec ii (a + S n)); auto; lia. }
    rewrite G. cbn [Nat.leb andb]. rewrite Nat.add_0_l. destruct (Nat.ltb_spec ii (length nodes)); auto.
  Qed.
  Lemma dn_sub_exec : forall b nodes M m a s, 0 < b < nb -> RelM M m -> m Tab = VT E true -> s < near_levels I st b ->
    exec (dn_sub E I st b (level_of_id I st b) nodes a s) m =
    (m, (fold_left (fun l c => laddm E l (M c)) (same_size I st (level_of_id I st b) b s) (fst a),
         fold_left (fun r c => fold_left (fun r ii => upd r ii (aadd (r ii) (evM E (M c) (nth ii nodes 0%nat)))) (seq 0 (length nodes)) r) (smaller I st (level_of_id I st b) b s) (snd a))).
  Proof.
    intros b nodes M m a s Hb HM Ht Hs. unfold dn_sub. rewrite exec_bind.
    rewrite (exec_for_pure loc val loc_eqb (LE E) nat (same_size I st (level_of_id I st b) b s) _ (fun l c => laddm E l (M c)) m).
    2:{ intros l c Hc. cbn [ModelConc.exec]. rewrite Ht. apply filter_In in Hc. rewrite (proj2 (HM c (nonint_bound b s c Hb Hs (proj1 Hc)))). reflexivity. }
    cbn [fst snd]. rewrite exec_bind.
    rewrite (exec_for_pure loc val loc_eqb (nat -> R) nat (smaller I st (level_of_id I st b) b s) _ (fun r c => fold_left (fun r ii => upd r ii (aadd (r ii) (evM E (M c) (nth ii nodes 0%nat)))) (seq 0 (length nodes)) r) m).
    2:{ intros r c Hc. apply filter_In in Hc. apply exec_for_pure. intros r0 ii _. cbn [ModelConc.exec].
        rewrite (proj2 (HM c (nonint_bound b s c Hb Hs (proj1 Hc)))). reflexivity. }
    reflexivity.
  Qed.
  Lemma dn_worker_exec : forall b d M s m, 0 < b < nb -> RelM M m -> RelD s m -> m Tab = VT E true -> b_parent (B b) < nb ->
    exists r, snd (exec (dn_worker E I st owned b d) m) = {| nc_block := b; nc_exp := if existsb owned (b_nodes (B b)) then descend_local E I st M (fst s) b else lz E b; nc_contr := r; nc_nodes := b_nodes (B b) |} /\
      (forall ii, ii < length (b_nodes (B b)) -> r ii = if existsb owned (b_nodes (B b)) then descend_eval E I st M b (nth ii (b_nodes (B b)) 0) else 0%R) /\
      forall d', snd (exec (dn_worker E I st owned b d') m) = snd (exec (dn_worker E I st owned b d) m).
  Proof.
    intros b d M s m Hb HM (HD & _) Ht Hp. destruct (HD b ltac:(lia)) as (C1 & C2). destruct (HD _ Hp) as (_ & C3).
    set (nodes := b_nodes (B b)). set (level := level_of_id I st b).
    set (r := if existsb owned nodes then fold_left (fun r s => fold_left (fun r c => fold_left (fun r ii => upd r ii (aadd (r ii) (evM E (M c) (nth ii nodes 0%nat)))) (seq 0 (length nodes)) r) (smaller I st level b s) r) (seq 0 (near_levels I st b)) (fun _ => 0%R) else fun _ => 0%R).
    assert (Hx : forall d, snd (exec (dn_worker E I st owned b d) m) = {| nc_block := b; nc_exp := if existsb owned nodes then descend_local E I st M (fst s) b else lz E b; nc_contr := r; nc_nodes := nodes |}).
    { intros d0. unfold dn_worker. cbn [touch_table ModelConc.exec nc_block nc_exp nc_contr nc_nodes].
      assert (Pm : exec (dn_worker E I st owned b d0) m = exec (dn_worker E I st owned b d0) m) by reflexivity. clear Pm.
      set (m1 := put m Tab (m Tab)).
      assert (M1 : forall l, m1 l = m l) by (intros l; unfold m1, ModelConc.put; destruct (loc_eqb Tab l) eqn:Q; auto; apply loc_eqb_spec in Q; subst; auto).
      rewrite C1. cbn [asC]. fold nodes. fold level. unfold r. destruct (existsb owned nodes).
      - cbn [ModelConc.exec]. rewrite M1, C3. cbn [asL].
        assert (HM1 : RelM M m1) by (intros c Hc; rewrite !M1; apply HM; auto).
        assert (Ht1 : m1 Tab = VT E true) by (rewrite M1; auto).
        rewrite exec_bind. unfold level.
        erewrite (exec_for_pure loc val loc_eqb _ nat (seq 0 (near_levels I st b)) (dn_sub E I st b (level_of_id I st b) nodes) _ m1).
        2:{ intros a s0 Hs0. apply in_seq in Hs0. apply (dn_sub_exec b nodes M m1 a s0); auto. lia. }
        cbn [fst snd ModelConc.exec]. unfold descend_local.
        assert (Gp : forall ss x y, fold_left (fun a s => (fold_left (fun l c => laddm E l (M c)) (same_size I st (level_of_id I st b) b s) (fst a),
             fold_left (fun r c => fold_left (fun r ii => upd r ii (aadd (r ii) (evM E (M c) (nth ii nodes 0%nat)))) (seq 0 (length nodes)) r) (smaller I st (level_of_id I st b) b s) (snd a))) ss (x, y) =
            (fold_left (fun l s => fold_left (fun l c => laddm E l (M c)) (same_size I st (level_of_id I st b) b s) l) ss x,
             fold_left (fun r s => fold_left (fun r c => fold_left (fun r ii => upd r ii (aadd (r ii) (evM E (M c) (nth ii nodes 0%nat)))) (seq 0 (length nodes)) r) (smaller I st (level_of_id I st b) b s) r) ss y)).
        { induction ss as [|s0 ss IH]; intros x y; cbn [fold_left fst snd]; auto. }
        rewrite Gp. reflexivity.
      - reflexivity. }
    exists r. split; [apply Hx|]. split; [|intros; rewrite !Hx; auto].
    intros ii Hii. unfold r. destruct (existsb owned nodes); auto. unfold descend_eval. fold level.
    generalize (seq 0 (near_levels I st b)) as ss. intros ss.
    change 0%R with ((fun _ : nat => 0%R) ii) at 2. generalize (fun _ : nat => 0%R) as r0.
    induction ss as [|s0 ss IH]; intros r0; cbn [fold_left]; auto. rewrite IH. rewrite contr_fold. destruct (Nat.ltb_spec ii (length nodes)); [auto|lia].
  Qed.
  Lemma fold_seq_nth : forall T (f : T -> nat -> nat -> T) (l : list nat) a,
    fold_left (fun t ii => f t ii (nth ii l 0)) (seq 0 (length l)) a = fst (fold_left (fun p x => (f (fst p) (snd p) x, S (snd p))) l (a, 0)).
  Proof.
    intros T f l a.
    assert (G : forall l2 l1 a, fold_left (fun t ii => f t ii (nth ii (l1 ++ l2) 0)) (seq (length l1) (length l2)) a = fst (fold_left (fun p x => (f (fst p) (snd p) x, S (snd p))) l2 (a, length l1))).
    { induction l2 as [|x l2 IH]; intros l1 a0; cbn [length seq fold_left]; auto. cbn [fst snd].
      rewrite app_nth2, Nat.sub_diag by lia. cbn [nth]. specialize (IH (l1 ++ [x]) (f a0 (length l1) x)). rewrite <- app_assoc in IH. cbn [app] in IH.
      rewrite app_length in IH. cbn [length] in IH. rewrite Nat.add_1_r in IH. exact IH. }
    apply (G l [] a).
  Qed.
  Lemma dn_level : forall lv M s m m', 1 <= lv <= o_N I -> RelM M m -> m Tab = VT E true -> RelD s m ->
    ws E (dn_worker E I st owned) (dn_copier E) (dn_sample E) (dfill st lv) m m' ->
    exists dn, Permutation dn (dfill st lv) /\ RelD (fold_left (descend1 E I st owned M) dn s) m' /\ forall l, is_dn l = false -> m' l = m l.
  Proof.
    intros lv M s m m' Hlv HM Ht HD Hr. set (items := dfill st lv) in *.
    assert (Hit : forall k, In k items -> 0 < k < nb /\ b_level (B k) = lv /\ b_parent (B k) < nb /\ S (b_level (B (b_parent (B k)))) = lv).
    { intros k Hk. apply (dfill_in I W) in Hk; [|lia]. destruct Hk as (K1 & K2 & _).
      assert (k <> 0). { intros ->. destruct (F_start0 I W) as (S0 & S1). assert (Q := proj1 (F_level_iff I W 0 lv K1 ltac:(lia)) K2). assert (startL st 0 <= 0 <= endL st 0) by lia. apply (F_level_iff I W) in H; lia. }
      assert (Hk0 : 0 < k < nb) by lia. destruct (parent_info I bs (F_tree I W) k Hk0) as (P1 & _). assert (P2 := parent_level I bs (F_tree I W) k Hk0).
      repeat split; try lia. }
    assert (Hw : forall x d, In x items -> worker_ok E (wc_dn lv) m (dn_worker E I st owned x d)).
    { intros x d Hi. destruct (Hit x Hi) as (K1 & K2 & K3 & K4). apply ok_read; [reflexivity|]. apply ok_touch; [reflexivity|]. cbn [nc_block nc_exp nc_contr nc_nodes].
      destruct (existsb owned (b_nodes (B x))); [|apply ok_ret].
      apply ok_read; [apply Nat.eqb_neq; lia|]. apply fp_bind; [|intros; apply ok_ret]. apply fp_for. intros a s0 Hs0. apply fp_bind.
      - apply fp_for. intros l c Hc. apply ok_read; [reflexivity|]. apply ok_read; [reflexivity|]. apply ok_ret.
      - intros l. apply fp_bind; [|intros; apply ok_ret]. apply fp_for. intros r c Hc. apply fp_for. intros r' ii Hii. apply ok_read; [reflexivity|apply ok_ret]. }
    assert (Hc : forall x d, In x items -> copier_ok E (wc_dn lv) m (dn_copier E (snd (exec (dn_worker E I st owned x d) m)))).
    { intros x d Hi. destruct (Hit x Hi) as (K1 & K2 & K3 & K4). destruct (dn_worker_exec x d M s m K1 HM HD Ht K3) as (r & R1 & _). rewrite R1.
      apply ok_readw; [exact Logic.I|]. intros v. apply ok_write; [apply Nat.eqb_eq; auto|apply Nat.eqb_eq; auto|]. apply fp_for. intros _ ii _. apply ok_add; auto. }
    destruct (ws_fresh E _ _ (dn_worker E I st owned) (dn_copier E) (dn_sample E) items (wc_dn lv) m Hw Hc) with (m' := m') as (dn & Hp & Hl); auto.
    assert (Hin : incl dn items) by (intros y Hy; apply (Permutation_in _ Hp); auto).
    exists dn. split; auto. split.
    - assert (G : RelD (fold_left (descend1 E I st owned M) dn s) (seq_loop loc val loc_eqb _ _ (dn_worker E I st owned) (dn_copier E) (dn_sample E) m dn)).
      { clear Hp Hl. induction dn as [|x dn IH] using rev_ind; [exact HD|].
        assert (Hi' : incl dn items) by (intros y Hy; apply Hin, in_or_app; auto). assert (Hxi : In x items) by (apply Hin, in_or_app; right; left; auto).
        specialize (IH Hi'). destruct (Hit x Hxi) as (K1 & K2 & K3 & K4). rewrite fold_left_app. cbn [fold_left].
        set (mm := seq_loop loc val loc_eqb _ _ (dn_worker E I st owned) (dn_copier E) (dn_sample E) m dn) in *.
        destruct (fold_left (descend1 E I st owned M) dn s) as (L, out) eqn:EL.
        destruct (dn_worker_exec x (dn_sample E) M s m K1 HM HD Ht K3) as (r & R1 & R2 & _).
        assert (Lp : fst s (b_parent (B x)) = L (b_parent (B x))).
        { destruct HD as (D1 & _). destruct IH as (D2 & _). assert (Q : VL E (fst s (b_parent (B x))) = VL E (L (b_parent (B x)))).
          { cbn [fst] in D2; rewrite <- (proj2 (D1 _ K3)), <- (proj2 (D2 _ K3)). symmetry. apply (loop_outside E _ _ (dn_worker E I st owned) (dn_copier E) (dn_sample E) items (wc_dn lv) m Hw Hc); auto. apply Nat.eqb_neq. lia. }
          injection Q as Q. exact Q. }
        assert (Dl : descend_local E I st M (fst s) x = descend_local E I st M L x) by (unfold descend_local; rewrite Lp; auto).
        assert (Ex : forall l, seq_loop loc val loc_eqb _ _ (dn_worker E I st owned) (dn_copier E) (dn_sample E) m (dn ++ [x]) l = fst (exec (dn_copier E (snd (exec (dn_worker E I st owned x (dn_sample E)) m))) mm) l)
          by (intros l; apply (loop_snoc E _ _ (dn_worker E I st owned) (dn_copier E) (dn_sample E) items (wc_dn lv) m Hw Hc); auto).
        rewrite R1 in Ex. cbn [dn_copier nc_block nc_exp nc_contr nc_nodes ModelConc.exec] in Ex. rewrite exec_for_unit in Ex.
        destruct IH as (I1 & I2). rewrite (proj2 (I1 x ltac:(lia))) in Ex. cbn [asL fst snd] in *.
        set (on := existsb owned (b_nodes (B x))) in *. rewrite Dl in Ex. set (ll := if on then descend_local E I st M L x else lz E x) in *.
        set (m1 := put mm (LExp x) (VL E (laddl E (L x) ll))) in *.
        assert (Fo : forall iis o m2, (forall ii, In ii iis -> ii < length (b_nodes (B x))) -> (forall i, m2 (Out i) = VR E (o i)) ->
           (forall i, fold_left (fun m y => fst (exec (add_to E (Out (nth y (b_nodes (B x)) 0)) (r y)) m)) iis m2 (Out i) =
                VR E (fold_left (fun o ii => upd o (nth ii (b_nodes (B x)) 0) (aadd (o (nth ii (b_nodes (B x)) 0%nat)) (if on then descend_eval E I st M x (nth ii (b_nodes (B x)) 0%nat) else 0%R))) iis o i)) /\
           forall l, (forall i, l <> Out i) -> fold_left (fun m y => fst (exec (add_to E (Out (nth y (b_nodes (B x)) 0)) (r y)) m)) iis m2 l = m2 l).
        { induction iis as [|ii iis IHi]; intros o m2 Hii Ho; cbn [fold_left]; [split; auto|].
          destruct (IHi (upd o (nth ii (b_nodes (B x)) 0) (aadd (o (nth ii (b_nodes (B x)) 0%nat)) (if on then descend_eval E I st M x (nth ii (b_nodes (B x)) 0%nat) else 0%R))) (fst (exec (add_to E (Out (nth ii (b_nodes (B x)) 0)) (r ii)) m2))) as (Q1 & Q2).
          - intros; apply Hii; right; auto.
          - intros i. cbn [add_to done1 ModelConc.exec fst]. rewrite Ho. cbn [asR]. rewrite R2 by (apply Hii; left; auto). unfold upd. destruct (Nat.eqb_spec i (nth ii (b_nodes (B x)) 0)) as [->|N]; [apply put_same'|]. rewrite put_other' by congruence. apply Ho.
          - split; [exact Q1|]. intros l Nl. rewrite Q2 by auto. cbn [add_to done1 ModelConc.exec fst]. apply put_other'. intros <-. apply (Nl (nth ii (b_nodes (B x)) 0)). reflexivity. }
        destruct (Fo (seq 0 (length (b_nodes (B x)))) out m1) as (Q1 & Q2).
        { intros ii Hii. apply in_seq in Hii. lia. } { intros i. unfold m1. rewrite put_other' by congruence. apply I2. }
        unfold descend1. fold on. fold ll. split; cbn [fst snd].
        - intros b Hb. rewrite !Ex. rewrite !Q2 by congruence. unfold m1. split; [rewrite put_other' by congruence; apply I1; auto|].
          unfold upd. destruct (Nat.eqb_spec b x) as [->|N]; [apply put_same'|]. rewrite put_other' by congruence. apply I1; auto.
        - intros i. rewrite Ex, Q1. f_equal.
          rewrite (fold_seq_nth _ (fun o ii j => upd o j (aadd (o j) (if on then descend_eval E I st M x j else 0%R)))).
          assert (Gq : forall l o n, fst (fold_left (fun p j => (upd (fst p) j (aadd (fst p j) (if on then descend_eval E I st M x j else 0%R)), S (snd p))) l (o, n)) = fold_left (fun o j => upd o j (aadd (o j) (if on then descend_eval E I st M x j else 0%R))) l o).
          { induction l as [|j l IHl]; intros o n; cbn [fold_left fst snd]; auto. }
          rewrite Gq. reflexivity. }
      destruct G as (G1 & G2). split; intros; rewrite !Hl; auto.
    - intros l Hl'. rewrite Hl. apply (loop_outside E _ _ (dn_worker E I st owned) (dn_copier E) (dn_sample E) items (wc_dn lv) m Hw Hc); auto. destruct l; auto; discriminate Hl'.
  Qed.

  (** ** Evaluation on the leaves *)
  Definition own_o (b : nat) (l : loc) : bool := match l with Out i => ModelFmm.mem i (b_nodes (B b)) | _ => false end.
  Definition ev1 (L : nat -> LE E) (o : nat -> R) (b : nat) : nat -> R :=
    fold_left (fun o i => if owned i then upd o i (aadd (o i) (evL E (L b) i)) else o) (b_nodes (B b)) o.
  Lemma mem_in : forall x l, ModelFmm.mem x l = true <-> In x l.
  Proof. intros. unfold ModelFmm.mem. rewrite existsb_exists. split; [intros (y & H1 & H2); apply Nat.eqb_eq in H2; subst; auto|]. intros Hx. exists x. rewrite Nat.eqb_refl. auto. Qed.
  Lemma ev1_local : forall L b o o' i, o i = o' i -> ev1 L o b i = ev1 L o' b i.
  Proof.
    intros L b. unfold ev1. induction (b_nodes (B b)) as [|j l IH]; intros o o' i Ho; cbn [fold_left]; auto. apply IH. destruct (owned j); auto. unfold upd. destruct (Nat.eqb_spec i j) as [->|]; auto. rewrite Ho. auto.
  Qed.
  Lemma ev1_other : forall L b o i, ~ In i (b_nodes (B b)) -> ev1 L o b i = o i.
  Proof.
    intros L b. unfold ev1. induction (b_nodes (B b)) as [|j l IH]; intros o i Hi; cbn [fold_left]; auto. rewrite IH by (intros Q; apply Hi; right; auto).
    destruct (owned j); auto. unfold upd. destruct (Nat.eqb_spec i j) as [->|]; auto. exfalso. apply Hi. left; auto.
  Qed.
  Lemma evaluate_in : forall L order o i, NoDup order -> (forall x y, In x order -> In y order -> In i (b_nodes (B x)) -> In i (b_nodes (B y)) -> x = y) ->
    (forall x, In x order -> In i (b_nodes (B x)) -> fold_left (ev1 L) order o i = ev1 L o x i) /\ ((forall x, In x order -> ~ In i (b_nodes (B x))) -> fold_left (ev1 L) order o i = o i).
  Proof.
    intros L order. induction order as [|a order IH]; intros o i ND Hu; [split; [intros x []|auto]|]. inversion ND; subst. cbn [fold_left].
    destruct (IH (ev1 L o a) i) as (Q1 & Q2); auto; [intros; apply Hu; auto; right; auto|]. split.
    - intros x [<-|Hx] Hix.
      + apply Q2. intros x Hx Q. assert (a = x) by (apply Hu; auto; [left; auto|right; auto]). subst. contradiction.
      + rewrite (Q1 x Hx Hix). apply ev1_local. apply ev1_other. intros Q. assert (a = x) by (apply Hu; auto; [left; auto|right; auto]). subst. contradiction.
    - intros Hn. rewrite Q2 by (intros x Hx; apply Hn; right; auto). apply ev1_other. apply Hn. left; auto.
  Qed.
  Lemma leaf_unique : forall x y i, In x (st_childless st) -> In y (st_childless st) -> In i (b_nodes (B x)) -> In i (b_nodes (B y)) -> x = y.
  Proof.
    assert (Fr : forall x, In x (st_childless st) -> front I (o_N I) x).
    { intros x Hx. assert (Hl := F_cl I W x Hx). split; auto. assert (Q := F_level_le I W x Hl). assert (b_kids (B x) = []) by (apply (F_leaf I W); auto). destruct (Nat.eq_dec (b_level (B x)) (o_N I)); [left; auto|right; split; auto; lia]. }
    intros x y i Hx Hy Hix Hiy. apply (front_unique_n I W (o_N I) x y i); auto.
  Qed.
  Theorem eval_result : forall L out m m', (forall b, b < nb -> m (LExp b) = VL E (L b)) -> (forall i, m (Out i) = VR E (out i)) ->
    pf E (st_childless st) (eval_body E st owned) m m' -> forall i, m' (Out i) = VR E (evaluate E st owned L (st_childless st) out i).
  Proof.
    intros L out m m' HL HO Hr.
    destruct (pf_result E nat (st_childless st) (eval_body E st owned) own_o m) with (m' := m') as (A & C); auto.
    - intros b Hb. assert (Q : forall l, own_o b l = true -> any_own nat (st_childless st) own_o l = true) by (intros l Hl; apply existsb_exists; eauto).
      apply fp_for. intros _ i Hi. destruct (owned i); [|apply ok_ret].
      apply ok_read; [apply any_no; auto|]. assert (O : own_o b (Out i) = true) by (cbn; apply mem_in; auto). apply ok_add; auto.
    - intros x y l Hx Hy N. destruct l; cbn; try congruence. intros Q. apply mem_in in Q. destruct (ModelFmm.mem i (b_nodes (B y))) eqn:Ey; auto. apply mem_in in Ey. exfalso. apply N. apply (leaf_unique x y i); auto.
    - apply F_cl_nodup; auto.
    - intros i. change (evaluate E st owned L (st_childless st) out i) with (fold_left (ev1 L) (st_childless st) out i).
      destruct (evaluate_in L (st_childless st) out i (F_cl_nodup I W)) as (Q1 & Q2); [intros; apply (leaf_unique x y i); auto|].
      destruct (existsb (fun b => ModelFmm.mem i (b_nodes (B b))) (st_childless st)) eqn:Ex.
      + apply existsb_exists in Ex. destruct Ex as (x & Hx & Hi). rewrite (A x (Out i) Hx Hi). apply mem_in in Hi. rewrite (Q1 x Hx Hi).
        unfold eval_body. rewrite exec_for_unit. unfold ev1.
        assert (G : forall l m1 o, (forall j, m1 (Out j) = VR E (o j)) -> m1 (LExp x) = VL E (L x) ->
          forall j, fold_left (fun m i => fst (exec (if owned i then Rd (LExp x) (fun l => add_to E (Out i) (evL E (asL E l) i)) else done1 E) m)) l m1 (Out j) =
            VR E (fold_left (fun o i => if owned i then upd o i (aadd (o i) (evL E (L x) i)) else o) l o j)).
        { induction l as [|a l IH]; intros m1 o H1 H2 j; cbn [fold_left]; auto. apply IH.
          - intros k. destruct (owned a); [|apply H1]. cbn [add_to done1 ModelConc.exec fst]. rewrite H1, H2. cbn [asR asL]. unfold upd. destruct (Nat.eqb_spec k a) as [->|]; [apply put_same'|]. rewrite put_other' by congruence. apply H1.
          - destruct (owned a); [|exact H2]. cbn [add_to done1 ModelConc.exec fst]. rewrite put_other' by congruence. exact H2. }
        apply G; auto. apply HL. apply (F_cl I W); auto.
      + assert (Hn : forall x, In x (st_childless st) -> ModelFmm.mem i (b_nodes (B x)) = false).
        { intros x Hx. destruct (ModelFmm.mem i (b_nodes (B x))) eqn:Q; auto. assert (existsb (fun b => ModelFmm.mem i (b_nodes (B b))) (st_childless st) = true) by (apply existsb_exists; eauto). congruence. }
        rewrite C by (intros x Hx; exact (Hn x Hx)). rewrite HO. f_equal. symmetry. apply Q2. intros x Hx Q. apply mem_in in Q. rewrite Hn in Q; auto. discriminate Q.
  Qed.
  Theorem down_run_result : forall M adds m m', RelM M m -> m Tab = VT E true -> (forall i d, m (Ent i d) = VR E (entry adds i d)) -> down_run E I st phi owned m m' ->
    exists dn, (forall l, 1 <= l <= o_N I -> Permutation (dn l) (nth l (st_dfill st) [])) /\
      forall i, m' (Out i) = VR E (let (L, out) := descend E I st owned M dn (fun i => fold_left (fun a d => aadd a (amul (entry adds i d) (phi d))) (seq 0 (o_nd I)) 0%R) in
                                   evaluate E st owned L (st_childless st) out i).
  Proof.
    intros M adds m m' HM Ht He (m1 & m2 & m3 & H1 & H2 & H3 & H4).
    set (out0 := fun i => fold_left (fun a d => aadd a (amul (entry adds i d) (phi d))) (seq 0 (o_nd I)) 0%R).
    assert (V1 : forall i, m1 (Out i) = VR E (out0 i)).
    { intros i. rewrite (H1 (Out i)). f_equal. unfold out0. assert (Q : forall d, asR E (m (Ent i d)) = entry adds i d) by (intros; rewrite He; auto).
      generalize (0%R). generalize (seq 0 (o_nd I)). induction l as [|d l IH]; intros a; cbn [fold_left]; auto. rewrite Q. apply IH. }
    assert (V2 : forall l, (forall i, l <> Out i) -> m1 l = m l) by (intros l Hl; rewrite (H1 l); destruct l; auto; destruct (Hl i eq_refl)).
    destruct (create_l_result m1 m2) as (A1 & A2); auto; [rewrite V2 by congruence; auto|].
    destruct (over_rel ((nat -> LE E) * (nat -> R)) (fun l => ws E (dn_worker E I st owned) (dn_copier E) (dn_sample E) (dfill st l)) (fun s ma => RelD s ma /\ RelM M ma /\ ma Tab = VT E true)
      (descend1 E I st owned M) (dfill st) (levels I)) with (s := (lz E, out0)) (m := m2) (m' := m3) as (f & F1 & (F2 & F3) & _); auto.
    - apply seq_NoDup.
    - intros l s ma mb Hl (R1 & R2 & R3) Hw. apply in_seq in Hl. destruct (dn_level l M s ma mb ltac:(lia) R2 R3 R1 Hw) as (dn & P1 & P2 & P3).
      exists dn. split; auto. split; auto. split; [intros b Hb; rewrite !P3 by reflexivity; apply R2; auto|rewrite P3; auto].
    - split; [split; [intros; apply A1; auto|intros; rewrite A2 by reflexivity; apply V1]|]. split.
      + intros b Hb. rewrite !A2 by reflexivity. rewrite !V2 by congruence. apply HM; auto.
      + rewrite A2 by reflexivity. rewrite V2 by congruence. auto.
    - exists f. split; [intros l Hl; apply F1; apply in_seq; lia|].
      change (fold_left _ (levels I) (lz E, out0)) with (descend E I st owned M f out0) in F2, F3. destruct (descend E I st owned M f out0) as (L, out). cbn [fst snd] in *.
      intros i. apply (eval_result L out m3 m'); auto. intros b Hb. apply F2. auto.
  Qed.

  Theorem fmm_run_result : forall m m', fmm_start E m -> fmm_run E I st K phi owned m m' ->
    exists s, good_sched I st s /\ forall i, m' (Out i) = VR E (fmm_product E I st K phi owned s i).
  Proof.
    intros m m' (S1 & S2 & S3) (m1 & m2 & m3 & H1 & H2 & H3 & H4).
    destruct (direct_run_result E I K owned m m1 S1 H1) as (cl & lv & D1 & D2 & D3 & D4).
    destruct (elem_run_result E I K m1 m2) as ((e & E1 & E2) & E3); auto; [rewrite D4; auto|].
    destruct (up_run_result m2 m3 e E1 E2 H3) as (up & U1 & U2 & U3).
    destruct (down_run_result (ascend E I st up (leaves E I st K phi (st_childless st))) (direct_adds I st K owned cl lv) m3 m') as (dn & N1 & N2); auto.
    - rewrite U3, E3, D4; auto.
    - intros i d. rewrite U3, E3 by reflexivity. apply D3.
    - exists {| s_direct := cl; s_big := lv; s_leaves := st_childless st; s_up := up; s_down := dn; s_eval := st_childless st |}. split.
      + repeat split; cbn; auto.
      + intros i. rewrite N2. unfold fmm_product. cbn [s_direct s_big s_leaves s_up s_down s_eval]. destruct (descend E I st owned _ dn _) as (L, out). reflexivity.
  Qed.
End W3.
