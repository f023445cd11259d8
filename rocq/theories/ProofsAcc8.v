(** * Square truncation of a double series, and monotonicity of the error bounds. *)
From Coq Require Import ZArith List Reals Lia Lra Bool.
From Coquelicot Require Import Coquelicot.
From Verif Require Import ProofsAcc2 ProofsAcc4 ProofsAcc6.
Import ListNotations.
Local Open Scope R_scope.

Lemma rsum_zero {A} (l : list A) f : (forall a, In a l -> f a = 0) -> rsum l f = 0.
Proof. induction l as [|a l IH]; intros F; [reflexivity|]. cbn. rewrite F by (left; auto). rewrite IH by (intros; apply F; right; auto). ring. Qed.
Lemma rsum_abs {A} (l : list A) f : Rabs (rsum l f) <= rsum l (fun a => Rabs (f a)).
Proof. induction l as [|a l IH]; cbn; [rewrite Rabs_R0; lra|]. eapply Rle_trans; [apply Rabs_triang|]. apply Rplus_le_compat_l. auto. Qed.
Lemma seq_plus a n : seq a n = map (fun i => (a + i)%nat) (seq 0 n).
Proof. revert a. induction n as [|n IH]; intros a; [reflexivity|]. cbn [seq map]. f_equal; [lia|]. rewrite (IH (S a)), (IH 1%nat), map_map. apply map_ext. intros i. lia. Qed.
Lemma rsum_map {A B} (h : A -> B) l f : rsum (map h l) f = rsum l (fun a => f (h a)).
Proof. induction l as [|a l IH]; [reflexivity|]. cbn. rewrite IH. reflexivity. Qed.
Lemma rsum_shift a n f : rsum (seq a n) f = rsum (seq 0 n) (fun i => f (a + i)%nat).
Proof. rewrite seq_plus, rsum_map. reflexivity. Qed.
Lemma rsum_pick a n f N : (a + n <= N)%nat -> rsum (seq a n) f = rsum (seq 0 N) (fun i => if (Nat.leb a i && Nat.ltb i (a + n))%bool then f i else 0).
Proof.
  intros L. replace N with (a + (n + (N - a - n)))%nat by lia. rewrite !seq_app, !rsum_app, !Nat.add_0_l.
  rewrite (rsum_zero (seq 0 a)). 2:{ intros i Hi. apply in_seq in Hi. destruct (Nat.leb_spec a i); [lia|reflexivity]. }
  rewrite (rsum_zero (seq (a + n) _)). 2:{ intros i Hi. apply in_seq in Hi. destruct (Nat.ltb_spec i (a + n)); [lia|]. rewrite andb_false_r. reflexivity. }
  rewrite (rsum_ext (seq a n) (fun i => if (Nat.leb a i && Nat.ltb i (a + n))%bool then f i else 0) f). { ring. }
  intros i Hi. apply in_seq in Hi. destruct (Nat.leb_spec a i); [|lia]. destruct (Nat.ltb_spec i (a + n)); [|lia]. reflexivity.
Qed.
Definition diag (T : nat -> nat -> R) (N : nat) : R := rsum (seq 0 (N + 1)) (fun n => T n (N - n)%nat).
Lemma square_split (T : nat -> nat -> R) p :
  rsum (seq 0 (p + 1)) (fun n => rsum (seq 0 (p + 1)) (T n)) =
  rsum (seq 0 (p + 1)) (diag T) + rsum (seq (p + 1) p) (fun N => rsum (seq (N - p) (2 * p + 1 - N)) (fun n => T n (N - n)%nat)).
Proof.
  set (F := fun n N => if (Nat.leb n N && Nat.ltb N (n + (p + 1)))%bool then T n (N - n)%nat else 0).
  transitivity (rsum (seq 0 (p + 1)) (fun n => rsum (seq 0 (2 * p + 1)) (F n))).
  { apply rsum_ext. intros n Hn. apply in_seq in Hn. unfold F. rewrite <- (rsum_pick n (p + 1) (fun N => T n (N - n)%nat)) by lia.
    rewrite rsum_shift with (a := n). apply rsum_ext. intros i _. f_equal. lia. }
  rewrite rsum_swap. replace (2 * p + 1)%nat with (p + 1 + p)%nat at 1 by lia. rewrite seq_app, rsum_app, Nat.add_0_l. f_equal.
  - apply rsum_ext. intros N HN. apply in_seq in HN. unfold diag. rewrite (rsum_pick 0 (N + 1) _ (p + 1)) by lia. apply rsum_ext. intros n Hn. apply in_seq in Hn.
    unfold F. destruct (Nat.leb_spec n N), (Nat.ltb_spec N (n + (p + 1))), (Nat.leb_spec 0 n), (Nat.ltb_spec n (0 + (N + 1))); try lia; reflexivity.
  - apply rsum_ext. intros N HN. apply in_seq in HN. rewrite (rsum_pick (N - p) (2 * p + 1 - N) _ (p + 1)) by lia. apply rsum_ext. intros n Hn. apply in_seq in Hn.
    unfold F. destruct (Nat.leb_spec n N), (Nat.ltb_spec N (n + (p + 1))), (Nat.leb_spec (N - p) n), (Nat.ltb_spec n (N - p + (2 * p + 1 - N))); try lia; reflexivity.
Qed.
Lemma rsum_const {A} (l : list A) c : rsum l (fun _ => c) = INR (length l) * c.
Proof. induction l as [|a l IH]; [cbn; ring|]. cbn [rsum length]. rewrite IH, S_INR. ring. Qed.
Lemma telescope g a n : rsum (seq (S a) n) (fun N => g (N - 1)%nat - g N) = g a - g (a + n)%nat.
Proof. induction n as [|n IH]; [rewrite Nat.add_0_r; cbn; ring|]. rewrite rsum_seq_S, IH. replace (S a + n - 1)%nat with (a + n)%nat by lia. replace (S a + n)%nat with (a + S n)%nat by lia. ring. Qed.
Lemma square_error (T : nat -> nat -> R) (l : R) (g : nat -> R) p : (forall n, 0 <= g n) ->
  (forall n k, (p < n + k)%nat -> Rabs (T n k) <= g (n + k - 1)%nat - g (n + k)%nat) ->
  Rabs (l - rsum (seq 0 (p + 1)) (diag T)) <= g p ->
  Rabs (l - rsum (seq 0 (p + 1)) (fun n => rsum (seq 0 (p + 1)) (T n))) <= INR (p + 1) * g p.
Proof.
  intros Gp Tb Tail. rewrite square_split. set (off := rsum (seq (p + 1) p) _).
  assert (Off : Rabs off <= INR p * g p).
  { unfold off. eapply Rle_trans; [apply rsum_abs|]. eapply Rle_trans with (rsum (seq (p + 1) p) (fun N => INR p * (g (N - 1)%nat - g N))).
    - apply rsum_le. intros N HN. apply in_seq in HN. eapply Rle_trans; [apply rsum_abs|].
      assert (P0 : 0 <= g (N - 1)%nat - g N). { assert (Q := Tb N 0%nat ltac:(lia)). rewrite Nat.add_0_r in Q. eapply Rle_trans; [apply Rabs_pos|exact Q]. }
      eapply Rle_trans; [apply (rsum_le _ _ (fun _ => g (N - 1)%nat - g N))|].
      + intros n Hn. apply in_seq in Hn. assert (Q := Tb n (N - n)%nat ltac:(lia)). replace (n + (N - n))%nat with N in Q by lia. exact Q.
      + rewrite rsum_const, seq_length. apply Rmult_le_compat_r; [auto|]. apply le_INR. lia.
    - rewrite rsum_scal. apply Rmult_le_compat_l; [apply pos_INR|]. replace (p + 1)%nat with (S p) by lia. rewrite telescope. assert (Q := Gp (p + p)%nat). lra. }
  rewrite plus_INR. simpl (INR 1). replace (l - (rsum (seq 0 (p + 1)) (diag T) + off)) with ((l - rsum (seq 0 (p + 1)) (diag T)) + - off) by ring.
  eapply Rle_trans; [apply Rabs_triang|]. rewrite Rabs_Ropp. lra.
Qed.

(** ** Monotonicity *)
Lemma G_mono p k r k' r' : 0 <= k <= k' -> k' < r' -> r' <= r -> G p k r <= G p k' r'.
Proof.
  intros K1 K2 K3.
  assert (Q : k / r <= k' / r').
  { apply Rle_trans with (k / r').
    - unfold Rdiv. apply Rmult_le_compat_l; [lra|]. apply Rinv_le_contravar; lra.
    - unfold Rdiv. apply Rmult_le_compat_r; [|lra]. left. apply Rinv_0_lt_compat. lra. }
  assert (Q0 : 0 <= k / r). { unfold Rdiv. apply Rmult_le_pos; [lra|]. left. apply Rinv_0_lt_compat. lra. }
  assert (Q1 : k' / r' < 1). { apply (Rmult_lt_reg_r r'); [lra|]. replace (k' / r' * r') with k' by (field; lra). lra. }
  assert (F : forall k r, 0 <= k < r -> G p k r = (k / r) ^ p * (INR p * / (1 - k / r) + / (1 - k / r) * / (1 - k / r)) * (/ r * / r)).
  { intros u v Uv. unfold G. assert (v - u <> 0) by lra. assert (v <> 0) by lra. set (q := (u / v) ^ p). field. auto. }
  rewrite !F by lra. set (q := k / r) in *. set (q' := k' / r') in *.
  assert (I : / (1 - q) <= / (1 - q')) by (apply Rinv_le_contravar; lra). assert (I0 : 0 < / (1 - q)) by (apply Rinv_0_lt_compat; lra).
  assert (J : / r <= / r') by (apply Rinv_le_contravar; lra). assert (J0 : 0 < / r) by (apply Rinv_0_lt_compat; lra).
  assert (Pp := pos_INR p).
  apply Rmult_le_compat; [| | |apply Rmult_le_compat; lra].
  - apply Rmult_le_pos; [apply pow_le; auto|]. apply Rplus_le_le_0_compat; apply Rmult_le_pos; lra.
  - apply Rmult_le_pos; lra.
  - apply Rmult_le_compat; [apply pow_le; auto| |apply pow_incr; lra|].
    + apply Rplus_le_le_0_compat; apply Rmult_le_pos; lra.
    + apply Rplus_le_compat; [apply Rmult_le_compat_l; auto|apply Rmult_le_compat; lra].
Qed.
(** majorant of charges *)
Definition Gc (p : nat) (k r : R) : R := (k / r) ^ (p + 1) / (r - k).
Lemma Gc_pos p k r : 0 <= k < r -> 0 <= Gc p k r.
Proof.
  intros L. unfold Gc. apply Rmult_le_pos; [apply pow_le|left; apply Rinv_0_lt_compat; lra]. apply Rmult_le_pos; [lra|left; apply Rinv_0_lt_compat; lra].
Qed.
Lemma Gc_step p k r : 0 <= k < r -> Gc p k r - Gc (S p) k r = k ^ (S p) / r ^ (p + 2).
Proof.
  intros L. unfold Gc. replace (S p + 1)%nat with (S (p + 1)) by lia. replace (S p) with (p + 1)%nat by lia. replace (p + 2)%nat with (S (p + 1)) by lia. cbn [pow]. unfold Rdiv. rewrite Rpow_mult_distr, pow_inv by lra. set (rp := r ^ (p + 1)).
  assert (rp <> 0) by (apply pow_nonzero; lra). set (kp := k ^ (p + 1)). field. repeat split; lra.
Qed.
Lemma Gc_mono p k r k' r' : 0 <= k <= k' -> k' < r' -> r' <= r -> Gc p k r <= Gc p k' r'.
Proof. intros. apply geo_mono; auto. Qed.
