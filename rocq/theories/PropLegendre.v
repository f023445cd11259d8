(** * C11, C12: the tabulated associated Legendre functions and derivatives. *)
From Coq Require Import ZArith List Reals Lra Lia Bool Arith.
From Coquelicot Require Import Coquelicot.
From Verif Require Import ModelLegendre ModelLegTable ModelLegApi SpecLegendre ProofsLegendre ProofsLegCheck.
Import ListNotations.
Local Open Scope R_scope.

(** ** The check of all table entries *)
Definition entries : list (nat * nat) := flat_map (fun n => map (fun m => (n, m)) (seq 0 (n + 1))) (seq 0 21).
Lemma entries_in n m : (m <= n <= 20)%nat -> In (n, m) entries.
Proof. intros H. apply in_flat_map. exists n. split; [apply in_seq; lia|]. apply in_map_iff. exists m. split; auto. apply in_seq. lia. Qed.
Definition on (l : list ((nat * nat) * prog)) (f : nat -> nat -> prog -> bool) (nm : nat * nat) : bool :=
  match table l (fst nm) (snd nm) with Some p => f (fst nm) (snd nm) p | None => false end.
Lemma all_values : forallb (on leg_pointers_assignments check_val) entries = true.
Proof. vm_compute. reflexivity. Qed.
Lemma all_derivatives : forallb (on leg_der_pointers_assignments (fun n m => check_der (Nat.eqb m 1) n m)) entries = true.
Proof. vm_compute. reflexivity. Qed.
Lemma all_poles : forallb (fun n => on leg_der_pointers_assignments (fun _ _ p => (afails p 1 && afails p (-1))%bool) (n, 1%nat)) (seq 1 20) = true.
Proof. vm_compute. reflexivity. Qed.
Lemma on_ok l f n m : on l f (n, m) = true -> exists p, table l n m = Some p /\ f n m p = true.
Proof. unfold on. cbn [fst snd]. destruct (table l n m) as [p|]; [eauto|discriminate]. Qed.
Lemma table_none l n m : ~ (m <= n <= 20)%nat -> table l n m = None.
Proof. intros H. unfold table. destruct (Nat.ltb_spec n 21); [|reflexivity]. destruct (Nat.ltb_spec m (n + 1)); [lia|reflexivity]. Qed.

(** ** C11 *)
(** Every table entry is the normalised associated Legendre function on the closed interval; in particular
    its evaluation never divides by zero nor takes the root of a negative number. *)
Theorem C11_table_values : forall n m x, (m <= n <= 20)%nat -> -1 <= x <= 1 ->
  GetAssLegFunSph n m x = Some (Plm n m x).
Proof.
  intros n m x H Hx. assert (E := proj1 (forallb_forall _ _) all_values _ (entries_in n m H)). apply on_ok in E as (p & A & B).
  unfold GetAssLegFunSph. rewrite A. apply check_val_ok; auto.
Qed.
(** AssLegFunSph fills y[0..p-m] with degrees m..p. *)
Lemma mapM_ok {A B} (f : A -> option B) g l : (forall a, In a l -> f a = Some (g a)) -> mapM f l = Some (map g l).
Proof. induction l as [|a l IH]; intros H; [reflexivity|]. cbn [mapM map]. rewrite H by (left; auto). cbn [bind]. rewrite IH by (intros; apply H; right; auto). reflexivity. Qed.
Theorem C11_array : forall p m x, (m <= p <= 20)%nat -> -1 <= x <= 1 ->
  exists y, AssLegFunSph p m x = Some y /\ length y = (p - m + 1)%nat /\ forall n, (m <= n <= p)%nat -> nth_error y (n - m) = Some (Plm n m x).
Proof.
  intros p m x H Hx. exists (map (fun n => Plm n m x) (seq m (p + 1 - m))). split; [|split].
  - apply mapM_ok. intros n Hn. apply in_seq in Hn. apply C11_table_values; auto. lia.
  - rewrite map_length, seq_length. lia.
  - intros n Hn. erewrite map_nth_error; [reflexivity|]. rewrite nth_error_nth' with (d := 0%nat) by (rewrite seq_length; lia). rewrite seq_nth by lia. f_equal. lia.
Qed.
(** Outside the table (degree above 20 or order above the degree) the accessor reads out of bounds. *)
Theorem C11_outside_is_undefined : forall n m x, ~ (m <= n <= 20)%nat -> GetAssLegFunSph n m x = None /\ GetAssLegFunSphDeriv n m x = None.
Proof. intros n m x H. unfold GetAssLegFunSph, GetAssLegFunSphDeriv. rewrite !table_none by auto. auto. Qed.
Theorem C11_array_beyond_order_20_is_undefined : forall p m x, (20 < p)%nat -> (m <= p)%nat -> AssLegFunSph p m x = None.
Proof.
  intros p m x H Hm. unfold AssLegFunSph.
  assert (K : forall l, In p l -> mapM (fun n => GetAssLegFunSph n m x) l = None).
  { induction l as [|a l IH]; [intros []|]. intros [->|Hi]; cbn [mapM].
    - rewrite (proj1 (C11_outside_is_undefined p m x ltac:(lia))). reflexivity.
    - rewrite IH by auto. destruct (GetAssLegFunSph a m x); reflexivity. }
  apply K. apply in_seq. lia.
Qed.
(** Low degrees of the specification, to see that it is the usual function. *)
Example C11_nonvacuous : forall x, -1 <= x <= 1 ->
  GetAssLegFunSph 2 0 x = Some ((3 * x ^ 2 - 1) / 2) /\ GetAssLegFunSph 1 1 x = Some (- sqrt 2 * sqrt (1 - x * x) / 2).
Proof.
  intros x Hx. assert (W := w_nonneg x Hx). split; unfold GetAssLegFunSph; cbn -[IZR Rmult Rdiv Ropp Rminus Rplus sqrt pow].
  - unfold run. cbn. destruct (Req_EM_T 2 0); [lra|]. cbn. f_equal. field.
  - unfold run. cbn. destruct (Rlt_dec 2 0); [lra|]. cbn. destruct (Rlt_dec (1 - x * x) 0); [lra|]. cbn. destruct (Req_EM_T 2 0); [lra|]. reflexivity.
Qed.

(** ** C12 *)
(** The tabulated derivative is the derivative of the value table on the open interval. *)
Theorem C12_table_derivatives : forall n m x, (m <= n <= 20)%nat -> -1 < x < 1 ->
  exists d, GetAssLegFunSphDeriv n m x = Some d /\ is_derive (Plm n m) x d.
Proof.
  intros n m x H Hx. assert (E := proj1 (forallb_forall _ _) all_derivatives _ (entries_in n m H)). apply on_ok in E as (p & A & B).
  unfold GetAssLegFunSphDeriv. rewrite A. eapply check_der_ok; eauto.
Qed.
Theorem C12_derivative_of_the_value_accessor : forall n m x, (m <= n <= 20)%nat -> -1 < x < 1 ->
  exists d, GetAssLegFunSphDeriv n m x = Some d /\
    forall f : R -> R, (forall t, -1 < t < 1 -> GetAssLegFunSph n m t = Some (f t)) -> is_derive f x d.
Proof.
  intros n m x H Hx. destruct (C12_table_derivatives n m x H Hx) as (d & A & B). exists d. split; auto. intros f Hf.
  apply (is_derive_ext_loc (Plm n m)); auto.
  assert (O : open (fun t => -1 < t < 1)) by (apply open_and; [apply open_gt|apply open_lt]).
  eapply filter_imp; [|exact (O x Hx)]. intros t Ht. specialize (Hf t Ht). rewrite C11_table_values in Hf by (auto; lra). congruence.
Qed.
(** At the end points the derivative accessor divides by zero exactly for order one; for every other order
    it is defined on the closed interval and extends the interior derivative continuously. *)
Theorem C12_end_points_order_one : forall n x, (1 <= n <= 20)%nat -> (x = 1 \/ x = -1) -> GetAssLegFunSphDeriv n 1 x = None.
Proof.
  intros n x H Hx. assert (Hi : In n (seq 1 20)) by (apply in_seq; lia).
  assert (E := proj1 (forallb_forall _ _) all_poles n Hi). apply on_ok in E as (p & A & B). apply andb_prop in B as [B C].
  unfold GetAssLegFunSphDeriv. rewrite A. cbn [bind]. destruct Hx as [->| ->]; [apply (afails_ok p 1)|apply (afails_ok p (-1))]; auto.
Qed.
Theorem C12_end_points_other_orders : forall n m, (m <= n <= 20)%nat -> m <> 1%nat ->
  exists F : R -> R, (forall x, -1 <= x <= 1 -> GetAssLegFunSphDeriv n m x = Some (F x)) /\ (forall x, continuous F x) /\
    forall x, -1 < x < 1 -> is_derive (Plm n m) x (F x).
Proof.
  intros n m H Hm. assert (E := proj1 (forallb_forall _ _) all_derivatives _ (entries_in n m H)). apply on_ok in E as (p & A & B).
  assert (M : Nat.eqb m 1 = false) by (apply Nat.eqb_neq; auto). rewrite M in B.
  destruct (check_der_cont n m p B) as (F & C & D). exists F. unfold GetAssLegFunSphDeriv. rewrite A. cbn [bind]. split; [|split]; auto.
  intros x Hx. destruct (check_der_ok false n m p x B Hx) as (d & R & S). rewrite C in R by lra. congruence.
Qed.
(** AssLegFunSphDeriv fills both arrays. *)
Theorem C12_array : forall p m x, (m <= p <= 20)%nat -> -1 < x < 1 ->
  exists y, AssLegFunSphDeriv p m x = Some y /\ length y = (p - m + 1)%nat /\
    forall n, (m <= n <= p)%nat -> exists d, nth_error y (n - m) = Some (Plm n m x, d) /\ is_derive (Plm n m) x d.
Proof.
  intros p m x H Hx. exists (map (fun n => (Plm n m x, Derive (Plm n m) x)) (seq m (p + 1 - m))). split; [|split].
  - apply mapM_ok. intros n Hn. apply in_seq in Hn. rewrite C11_table_values by (lia || lra). cbn [bind].
    destruct (C12_table_derivatives n m x ltac:(lia) Hx) as (d & A & B). rewrite A. cbn [bind]. rewrite (is_derive_unique _ _ _ B). reflexivity.
  - rewrite map_length, seq_length. lia.
  - intros n Hn. exists (Derive (Plm n m) x). split.
    + erewrite map_nth_error; [reflexivity|]. rewrite nth_error_nth' with (d := 0%nat) by (rewrite seq_length; lia). rewrite seq_nth by lia. f_equal. lia.
    + apply Derive_correct. destruct (C12_table_derivatives n m x ltac:(lia) Hx) as (d & _ & B). exists d. exact B.
Qed.
Example C12_nonvacuous : GetAssLegFunSphDeriv 2 0 (1 / 2) = Some (3 * (1 / 2)) /\ GetAssLegFunSphDeriv 1 1 1 = None.
Proof.
  split; [reflexivity|]. apply C12_end_points_order_one; [lia|auto].
Qed.
