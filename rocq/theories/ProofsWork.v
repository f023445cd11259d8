(** The loops of ModelWork: footprints, staleness, and agreement with the sequential model. *)
From Coq Require Import Reals List Arith Bool Permutation Lia.
From Verif Require Import ModelOctree ProofsOctTree ProofsOctLevels ProofsOctFacts ProofsOctLists ModelFmm SpecFmm ModelConc ProofsConc ModelWork.
Import ListNotations.
Local Open Scope nat_scope.

Lemma loc_eqb_spec : forall a b, loc_eqb a b = true <-> a = b.
Proof.
  intros a b. destruct a, b; cbn; try (split; congruence); rewrite ?andb_true_iff, ?Nat.eqb_eq; (split; [intros Q; try (destruct Q; subst; reflexivity); subst; reflexivity|intros Q; inversion Q; subst; auto]).
Qed.

(** ** Running loops alone *)
Section Run.
  Variables L V : Type.
  Variable leq : L -> L -> bool.
  Notation exec := (exec L V leq).
  Lemma exec_bind : forall A B (p : prog L V A) (f : A -> prog L V B) m, exec (bind p f) m = exec (f (snd (exec p m))) (fst (exec p m)).
  Proof. induction p as [a|l k IH|l v k IH]; intros f m; cbn; auto. Qed.
  Lemma exec_for_cons : forall A X (x : X) xs (body : A -> X -> prog L V A) a m,
    exec (for_each (x :: xs) body a) m = exec (for_each xs body (snd (exec (body a x) m))) (fst (exec (body a x) m)).
  Proof. intros. cbn [for_each]. apply exec_bind. Qed.
  (** a loop that only reads *)
  Lemma exec_for_pure : forall A X (xs : list X) (body : A -> X -> prog L V A) (f : A -> X -> A) m a,
    (forall a x, In x xs -> exec (body a x) m = (m, f a x)) -> exec (for_each xs body a) m = (m, fold_left f xs a).
  Proof.
    induction xs as [|x xs IH]; intros body f m a Hb; [reflexivity|]. rewrite exec_for_cons, Hb by (left; auto). cbn [fst snd fold_left].
    apply IH. intros. apply Hb. right; auto.
  Qed.
  Lemma exec_for_unit : forall X (xs : list X) (body : unit -> X -> prog L V unit) m,
    fst (exec (for_each xs body tt) m) = fold_left (fun m x => fst (exec (body tt x) m)) xs m.
  Proof.
    induction xs as [|x xs IH]; intros body m; [reflexivity|]. rewrite exec_for_cons. cbn [fold_left]. destruct (snd (exec (body tt x) m)). apply IH.
  Qed.
End Run.

(** ** The machine specialised: whatever the loop does not write is constant *)
Section Spec.
  Context {AR : arith}.
  Variable E : eops.
  Notation val := (val E).
  Notation prog := (prog loc val). Notation mem := (mem loc val).
  Notation exec := (exec loc val loc_eqb).
  Notation put := (put loc val loc_eqb).
  Definition cst (wc : loc -> bool) (m0 : mem) : loc -> option val := fun l => if wc l then None else Some (m0 l).
  Notation fp wc m0 := (fp loc val loc_word (cst wc m0)).
  Lemma cst_consts : forall wc m0, consts loc val (cst wc m0) m0.
  Proof. intros wc m0 l c. unfold cst. destruct (wc l); congruence. Qed.

  (** a worker: reads only what no copier of the loop writes, writes only words back *)
  Definition worker_ok {A} wc m0 (p : prog A) : Prop := fp wc m0 (fun _ => False) (fun _ => False) p.
  Definition copier_ok wc m0 (p : prog unit) : Prop := fp wc m0 (fun _ => True) (fun l => wc l = true) p.
  Lemma ok_ret : forall A wc m0 (R W : loc -> Prop) (a : A), fp wc m0 R W (Ret a).
  Proof. intros. constructor. Qed.
  Lemma ok_read : forall A wc m0 (R W : loc -> Prop) l (k : val -> prog A), wc l = false -> fp wc m0 R W (k (m0 l)) -> fp wc m0 R W (Rd l k).
  Proof.
    intros A wc m0 R W l k Hl Hk. apply fp_rd; [right; unfold cst; rewrite Hl; congruence|]. intros v Hv. rewrite (Hv (m0 l)); auto. unfold cst. rewrite Hl. auto.
  Qed.
  Lemma ok_readw : forall A wc m0 (R W : loc -> Prop) l (k : val -> prog A), R l -> (forall v, fp wc m0 R W (k v)) -> fp wc m0 R W (Rd l k).
  Proof. intros. apply fp_rd; auto. Qed.
  Lemma ok_write : forall A wc m0 (R W : loc -> Prop) l v (k : prog A), wc l = true -> W l -> fp wc m0 R W k -> fp wc m0 R W (Wr l v k).
  Proof. intros. apply fp_wr; auto. unfold cst. rewrite H. auto. Qed.
  Lemma ok_touch : forall A wc m0 (R W : loc -> Prop) (k : prog A), wc Tab = false -> fp wc m0 R W k -> fp wc m0 R W (touch_table E k).
  Proof.
    intros A wc m0 R W k Ht Hk. apply ok_read; auto. apply fp_silent; auto. unfold cst. rewrite Ht. auto.
  Qed.
  Lemma ok_add : forall wc m0 (R W : loc -> Prop) l x, wc l = true -> R l -> W l -> fp wc m0 R W (add_to E l x).
  Proof. intros. apply ok_readw; auto. intros. apply ok_write; auto. apply ok_ret. Qed.

  Section WSloop.
    Variables X D : Type.
    Variable worker : X -> D -> prog D.
    Variable copier : D -> prog unit.
    Variable sample : D.
    Variable items : list X.
    Variable wc : loc -> bool.
    Variable m0 : mem.
    Hypothesis Hw : forall x d, In x items -> worker_ok wc m0 (worker x d).
    Hypothesis Hc : forall x d, In x items -> copier_ok wc m0 (copier (snd (exec (worker x d) m0))).
    Notation loop := (seq_loop loc val loc_eqb X D worker copier sample m0).
    Theorem ws_stale : forall P : list X -> D -> Prop, P [] sample -> (forall dn z d, P dn d -> P (dn ++ z) d) ->
      (forall x d dn z, In x items -> P dn d -> incl (dn ++ z) items ->
        (forall l, fst (exec (copier (snd (exec (worker x d) m0))) (loop (dn ++ z))) l = fst (exec (copier (snd (exec (worker x sample) m0))) (loop (dn ++ z))) l) /\
        P (dn ++ z ++ [x]) (snd (exec (worker x d) m0))) ->
      forall m', ws E worker copier sample items m0 m' -> exists dn, Permutation dn items /\ forall l, m' l = loop dn l.
    Proof.
      intros P P0 Pm Ps m' (n & dn & Hr). exists dn.
      eapply (work_stream_result loc val loc_eqb loc_eqb_spec loc_word (cst wc m0)) with (Rw := fun _ => False) (Wc := fun l => wc l = true) (P := P); eauto.
      - apply cst_consts.
      - intros x d dn0 Hx _. apply (Hc x d Hx).
    Qed.
    (** when the worker's result does not depend on what was in the copy data *)
    Theorem ws_fresh : (forall x d, In x items -> snd (exec (worker x d) m0) = snd (exec (worker x sample) m0)) ->
      forall m', ws E worker copier sample items m0 m' -> exists dn, Permutation dn items /\ forall l, m' l = loop dn l.
    Proof.
      intros Hf m' Hr. apply (ws_stale (fun _ _ => True)); auto. intros x d dn z Hx _ Hi. split; auto. intros l. rewrite (Hf x d Hx). auto.
    Qed.
    (** locations outside [wc] keep their value, and each copier sees the worker's result for the memory
        before the loop *)
    Lemma loop_outside : forall dn, incl dn items -> forall l, wc l = false -> loop dn l = m0 l.
    Proof.
      intros dn Hi l Hl.
      assert (G : forall dn, incl dn items -> consts loc val (cst wc m0) (loop dn)).
      { clear dn Hi l Hl. intros dn. induction dn as [|x dn IH] using rev_ind; intros Hi; [apply cst_consts|].
        unfold seq_loop. rewrite fold_left_app. cbn [fold_left]. set (mm := fold_left _ dn m0). unfold seq1.
        assert (Hx : In x items) by (apply Hi; apply in_or_app; right; left; auto).
        assert (Cm : consts loc val (cst wc m0) mm) by (apply IH; intros y Hy; apply Hi; apply in_or_app; auto).
        pose proof (exec_frame _ _ loc_eqb loc_eqb_spec loc_word _ _ _ _ _ (Hw x sample Hx) mm Cm) as (F1 & _).
        assert (Er : snd (exec (worker x sample) mm) = snd (exec (worker x sample) m0)).
        { apply (exec_agree _ _ loc_eqb loc_eqb_spec loc_word _ _ _ _ _ (Hw x sample Hx)); auto; [apply cst_consts|]. intros l' [[]|[]]. }
        destruct (exec (worker x sample) mm) as (m1 & d). cbn [fst snd] in *. rewrite Er.
        apply (exec_frame _ _ loc_eqb loc_eqb_spec loc_word _ _ _ _ _ (Hc x sample Hx) m1 F1). }
      apply (G dn Hi). unfold cst. rewrite Hl. auto.
    Qed.
    Lemma loop_snoc : forall dn x l, incl dn items -> In x items ->
      loop (dn ++ [x]) l = fst (exec (copier (snd (exec (worker x sample) m0))) (loop dn)) l.
    Proof.
      intros dn x l Hi Hx. rewrite (loop_app loc val loc_eqb).
      apply (seq1_copy loc val loc_eqb loc_eqb_spec loc_word (cst wc m0) X D worker copier sample items m0 (cst_consts wc m0) (fun _ => False) (fun l => wc l = true) (fun _ _ => True)); auto.
      - intros y d dn0 Hy _. apply (Hc y d Hy).
    Qed.
  End WSloop.

  (** ** parallel_for: [own j] are the locations iteration j writes (and may read), everything else
      is constant *)
  Section PFloop.
    Variable X : Type.
    Variable items : list X.
    Variable body : X -> prog unit.
    Variable own : X -> loc -> bool.
    Variable m0 : mem.
    Definition any_own (l : loc) : bool := existsb (fun x => own x l) items.
    Hypothesis Hb : forall x, In x items -> fp any_own m0 (fun l => own x l = true) (fun l => own x l = true) (body x).
    Hypothesis Hd : forall x y l, In x items -> In y items -> x <> y -> own x l = true -> own y l = false.
    Hypothesis Hnd : NoDup items.
    Theorem pf_result : forall m', pf E items body m0 m' ->
      (forall x l, In x items -> own x l = true -> m' l = fst (exec (body x) m0) l) /\
      (forall l, (forall x, In x items -> own x l = false) -> m' l = m0 l).
    Proof.
      intros m' Hr.
      destruct (parallel_for_result loc val loc_eqb loc_eqb_spec loc_word (cst any_own m0) X items body
        (fun j l => exists x, nth_error items j = Some x /\ own x l = true) (fun j l => exists x, nth_error items j = Some x /\ own x l = true)) with (m0 := m0) (m' := m') as (_ & A & B); auto.
      - intros j x Hx. eapply fp_weaken; [apply Hb; eapply nth_error_In; eauto| |]; intros l Hl; exists x; auto.
      - intros i j l Hi Hj N (x & Hx & Ox) Q.
        assert (O : exists y, nth_error items j = Some y /\ own y l = true) by tauto. destruct O as (y & Hy & Oy).
        assert (x <> y). { intros ->. apply N. apply (proj1 (NoDup_nth_error items) Hnd); auto. congruence. }
        rewrite (Hd x y l) in Oy; auto; [discriminate|eapply nth_error_In; eauto|eapply nth_error_In; eauto].
      - apply cst_consts.
      - split.
        + intros x l Hx Ox. destruct (In_nth_error _ _ Hx) as (j & Hj). apply (A j x l Hj). eauto.
        + intros l Hl. apply B. intros j Hj (x & Hx & Ox). rewrite (Hl x) in Ox; [discriminate|eapply nth_error_In; eauto].
    Qed.
  End PFloop.
End Spec.
