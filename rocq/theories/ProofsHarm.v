(** * Solid harmonics: addition theorem, and their expression through the Legendre functions. *)
From Coq Require Import ZArith List Reals Lia Lra Bool.
From Coquelicot Require Import Coquelicot.
From Verif Require Import ModelLegendre ModelLegApi ModelExp SpecLegendre ProofsLegendre ProofsLegCheck.
Import ListNotations.
Local Open Scope C_scope.

Definition nC (n : nat) : C := RtoC (INR n).
Lemma nC_S n : nC (S n) = nC n + 1.
Proof. unfold nC. rewrite S_INR, RtoC_plus. reflexivity. Qed.
Lemma nC_0 : nC 0 = 0. Proof. reflexivity. Qed.
Lemma nC_add a b : nC (a + b) = nC a + nC b.
Proof. unfold nC. rewrite plus_INR, RtoC_plus. reflexivity. Qed.
Lemma nC_nz n : nC (S n) <> 0.
Proof. unfold nC. intros E. apply RtoC_inj in E. apply (not_0_INR (S n)); auto. Qed.

Lemma Cconj_plus a b : Cconj (a + b) = Cconj a + Cconj b.
Proof. unfold Cconj, Cplus; cbn [fst snd]. f_equal. ring. Qed.
Lemma Cconj_mult a b : Cconj (a * b) = Cconj a * Cconj b.
Proof. unfold Cconj, Cmult; cbn [fst snd]. f_equal; ring. Qed.
Lemma Cconj_R r : Cconj (RtoC r) = RtoC r.
Proof. unfold Cconj, RtoC; cbn [fst snd]. rewrite Ropp_0. reflexivity. Qed.
Lemma Ceq_reg_l (a b c : C) : a <> 0 -> a * b = a * c -> b = c.
Proof. intros H E. rewrite <- (Cmult_1_l b), <- (Cmult_1_l c), <- (Cinv_r a H). rewrite (Cmult_comm a (/ a)), <- !Cmult_assoc, E. reflexivity. Qed.
(** ** Finite sums *)
Fixpoint csum {A : Type} (l : list A) (f : A -> C) : C := match l with [] => 0 | a :: r => f a + csum r f end.
Lemma csum_ext {A} (l : list A) f g : (forall a, In a l -> f a = g a) -> csum l f = csum l g.
Proof. induction l as [|a l IH]; intros H; [reflexivity|]. cbn [csum]. rewrite (H a) by (left; auto). rewrite IH by (intros; apply H; right; auto). reflexivity. Qed.
Lemma csum_app {A} (l l' : list A) f : csum (l ++ l') f = csum l f + csum l' f.
Proof. induction l as [|a l IH]; cbn [csum app]; [ring|]. rewrite IH. ring. Qed.
Lemma csum_plus {A} (l : list A) f g : csum l (fun a => f a + g a) = csum l f + csum l g.
Proof. induction l as [|a l IH]; cbn [csum]; [ring|]. rewrite IH. ring. Qed.
Lemma csum_scal {A} (l : list A) k f : csum l (fun a => k * f a) = k * csum l f.
Proof. induction l as [|a l IH]; cbn [csum]; [ring|]. rewrite IH. ring. Qed.
Lemma csum_zero {A} (l : list A) (f : A -> C) : (forall a, In a l -> f a = 0) -> csum l f = 0.
Proof. induction l as [|a l IH]; intros H; [reflexivity|]. cbn [csum]. rewrite (H a) by (left; auto). rewrite IH by (intros; apply H; right; auto). ring. Qed.
Lemma csum_map {A B} (l : list A) (g : A -> B) f : csum (map g l) f = csum l (fun a => f (g a)).
Proof. induction l as [|a l IH]; cbn [csum map]; [reflexivity|]. rewrite IH. reflexivity. Qed.
Lemma csum_flat_map {A B} (l : list A) (g : A -> list B) f : csum (flat_map g l) f = csum l (fun a => csum (g a) f).
Proof. induction l as [|a l IH]; cbn [csum flat_map]; [reflexivity|]. rewrite csum_app, IH. reflexivity. Qed.
Lemma csum_swap {A B} (l : list A) (k : list B) f : csum l (fun a => csum k (f a)) = csum k (fun b => csum l (fun a => f a b)).
Proof.
  induction l as [|a l IH]; cbn [csum].
  - symmetry. apply csum_zero. auto.
  - rewrite IH, <- csum_plus. reflexivity.
Qed.
Lemma csum_seq_S a n f : csum (seq a (S n)) f = csum (seq a n) f + f (a + n)%nat.
Proof. rewrite seq_S, csum_app. cbn [csum]. ring. Qed.
Lemma csum_seq_shift n a f : csum (seq (S a) n) f = csum (seq a n) (fun i => f (S i)).
Proof. rewrite <- seq_shift, csum_map. reflexivity. Qed.

(** integer ranges *)
Lemma zr_S a n f : csum (zrange a (S n)) f = csum (zrange a n) f + f (a + Z.of_nat n)%Z.
Proof. unfold zrange. rewrite !csum_map, csum_seq_S. reflexivity. Qed.
Lemma zr_hd a n f : csum (zrange a (S n)) f = f a + csum (zrange (a + 1) n) f.
Proof.
  unfold zrange. rewrite !csum_map. cbn [seq csum]. rewrite csum_seq_shift. rewrite Z.add_0_r. f_equal. apply csum_ext. intros i _. f_equal. lia.
Qed.
Lemma zr_in a n l : In l (zrange a n) <-> (a <= l < a + Z.of_nat n)%Z.
Proof.
  unfold zrange. rewrite in_map_iff. split.
  - intros (i & E & H). apply in_seq in H. lia.
  - intros H. exists (Z.to_nat (l - a)). split; [lia|]. apply in_seq. lia.
Qed.
Lemma zr_shift k a n f : csum (zrange a n) (fun l => f (l + k)%Z) = csum (zrange (a + k) n) f.
Proof. unfold zrange. rewrite !csum_map. apply csum_ext. intros i _. f_equal. lia. Qed.
Lemma zr_app a n k f : csum (zrange a (n + k)) f = csum (zrange a n) f + csum (zrange (a + Z.of_nat n) k) f.
Proof.
  induction k as [|k IH]; [rewrite Nat.add_0_r; unfold zrange at 3; cbn; ring|].
  rewrite Nat.add_succ_r, !zr_S, IH. rewrite <- Cplus_assoc. f_equal. f_equal. f_equal. lia.
Qed.
Lemma zr_widen a n a' n' (f : Z -> C) :
  (a' <= a)%Z -> (a + Z.of_nat n <= a' + Z.of_nat n')%Z ->
  (forall l, (l < a)%Z \/ (a + Z.of_nat n <= l)%Z -> f l = 0) -> csum (zrange a' n') f = csum (zrange a n) f.
Proof.
  intros H1 H2 Hf. set (i := Z.to_nat (a - a')). set (j := Z.to_nat (a' + Z.of_nat n' - a - Z.of_nat n)).
  replace n' with (i + (n + j))%nat by lia. rewrite !zr_app.
  replace (a' + Z.of_nat i)%Z with a by lia.
  rewrite (csum_zero (zrange a' i)), (csum_zero (zrange (a + Z.of_nat n) j)); [ring| |]; intros l Hl; apply zr_in in Hl; apply Hf; lia.
Qed.
Lemma sym_in k l : In l (sym_range k) <-> (- Z.of_nat k <= l <= Z.of_nat k)%Z.
Proof. unfold sym_range. rewrite zr_in. lia. Qed.
Lemma sym_widen k k' (f : Z -> C) : (k <= k')%nat -> (forall l, (Z.of_nat k < Z.abs l)%Z -> f l = 0) -> csum (sym_range k') f = csum (sym_range k) f.
Proof. intros H Hf. apply zr_widen; try lia. intros l Hl. apply Hf. lia. Qed.
Lemma zr_rev a n f : csum (zrange a n) (fun l => f (- l)%Z) = csum (zrange (- (a + Z.of_nat n - 1)) n) f.
Proof.
  revert a. induction n as [|n IH]; intros a; [reflexivity|]. rewrite zr_hd, zr_S, IH.
  rewrite Cplus_comm. replace (- (a + 1 + Z.of_nat n - 1))%Z with (- (a + Z.of_nat (S n) - 1))%Z by lia.
  f_equal. f_equal. lia.
Qed.
Lemma sym_rev k f : csum (sym_range k) (fun l => f (- l)%Z) = csum (sym_range k) f.
Proof. unfold sym_range. rewrite zr_rev. f_equal. f_equal. lia. Qed.

(** ** The harmonics: coefficient of t^m in (u t + z + w / t)^n / n! *)
Fixpoint T (u z w : C) (n : nat) (m : Z) : C :=
  match n with
  | O => if Z.eqb m 0 then 1 else 0
  | S k => (u * T u z w k (m - 1) + z * T u z w k m + w * T u z w k (m + 1)) / nC (S k)
  end.
Lemma T_S u z w n m : nC (S n) * T u z w (S n) m = u * T u z w n (m - 1) + z * T u z w n m + w * T u z w n (m + 1).
Proof. cbn [T]. field. apply nC_nz. Qed.
Lemma T_support u z w n m : (Z.of_nat n < Z.abs m)%Z -> T u z w n m = 0.
Proof.
  revert m. induction n as [|n IH]; intros m H; cbn [T].
  - destruct (Z.eqb_spec m 0); [lia|reflexivity].
  - rewrite !IH by lia. field. apply nC_nz.
Qed.
Lemma T_swap u z w n m : T u z w n (- m) = T w z u n m.
Proof.
  revert m. induction n as [|n IH]; intros m; cbn [T].
  - destruct (Z.eqb_spec (- m) 0), (Z.eqb_spec m 0); auto; lia.
  - replace (- m - 1)%Z with (- (m + 1))%Z by lia. replace (- m + 1)%Z with (- (m - 1))%Z by lia. rewrite !IH. f_equal. ring.
Qed.
Fixpoint cpow (a : C) (n : nat) : C := match n with O => 1 | S k => a * cpow a k end.
Lemma T_scale k u z w n m : T (k * u) (k * z) (k * w) n m = cpow k n * T u z w n m.
Proof.
  revert m. induction n as [|n IH]; intros m; cbn [T cpow]; [ring|]. rewrite !IH. field. apply nC_nz.
Qed.
Lemma T_conj u z w n m : Cconj (T u z w n m) = T (Cconj u) (Cconj z) (Cconj w) n m.
Proof.
  revert m. induction n as [|n IH]; intros m; cbn [T].
  - destruct (Z.eqb m 0); unfold Cconj, RtoC; cbn [fst snd]; rewrite Ropp_0; reflexivity.
  - unfold Cdiv. rewrite !Cconj_mult, !Cconj_plus, !Cconj_mult, !IH. f_equal.
    unfold nC. rewrite <- RtoC_inv by (apply not_0_INR; auto). apply Cconj_R.
Qed.

Section Add.
Variables u z w u' z' w' : C.
Let T1 := T u z w.
Let T2 := T u' z' w'.
Definition E (k j : nat) (m : Z) : C := csum (sym_range k) (fun l => T1 k l * T2 j (m - l)).
Lemma E_wide N k j m : (k <= N)%nat -> E k j m = csum (sym_range N) (fun l => T1 k l * T2 j (m - l)).
Proof. intros H. unfold E. symmetry. apply sym_widen; auto. intros l Hl. unfold T1. rewrite T_support by auto. ring. Qed.
Lemma E_left k j m : nC (S k) * E (S k) j m = u * E k j (m - 1) + z * E k j m + w * E k j (m + 1).
Proof.
  assert (A : E k j (m - 1) = csum (sym_range (S k)) (fun l => T1 k (l - 1) * T2 j (m - l))).
  { transitivity (csum (sym_range (S k)) (fun l => (fun l' => T1 k l' * T2 j (m - 1 - l')) (l + -1)%Z)).
    2: { apply csum_ext. intros l _. f_equal; f_equal; lia. }
    unfold sym_range. rewrite (zr_shift (-1) _ _ (fun l' => T1 k l' * T2 j (m - 1 - l'))). unfold E. unfold sym_range. symmetry. apply zr_widen; try lia.
    intros l Hl. unfold T1. rewrite T_support by lia. ring. }
  assert (B : E k j (m + 1) = csum (sym_range (S k)) (fun l => T1 k (l + 1) * T2 j (m - l))).
  { transitivity (csum (sym_range (S k)) (fun l => (fun l' => T1 k l' * T2 j (m + 1 - l')) (l + 1)%Z)).
    2: { apply csum_ext. intros l _. f_equal; f_equal; lia. }
    unfold sym_range. rewrite (zr_shift (1) _ _ (fun l' => T1 k l' * T2 j (m + 1 - l'))). unfold E. unfold sym_range. symmetry. apply zr_widen; try lia.
    intros l Hl. unfold T1. rewrite T_support by lia. ring. }
  rewrite A, B, (E_wide (S k) k j m) by lia. unfold E. rewrite <- !csum_scal, <- !csum_plus. apply csum_ext. intros l _.
  unfold T1. rewrite Cmult_assoc, T_S. ring.
Qed.
Lemma E_right k j m : nC (S j) * E k (S j) m = u' * E k j (m - 1) + z' * E k j m + w' * E k j (m + 1).
Proof.
  unfold E. rewrite <- !csum_scal, <- !csum_plus. apply csum_ext. intros l _.
  replace (nC (S j) * (T1 k l * T2 (S j) (m - l))) with (T1 k l * (nC (S j) * T2 (S j) (m - l))) by ring.
  unfold T2. rewrite T_S. replace (m - 1 - l)%Z with (m - l - 1)%Z by lia. replace (m + 1 - l)%Z with (m - l + 1)%Z by lia. ring.
Qed.
Lemma weighted n (a : nat -> C) :
  csum (seq 0 (n + 1)) (fun k => nC (S k) * a (S k)) + csum (seq 0 (n + 1)) (fun k => nC (S (n - k)) * a k) = nC (S n) * csum (seq 0 (S (n + 1))) a.
Proof.
  assert (A : csum (seq 0 (n + 1)) (fun k => nC (S k) * a (S k)) = csum (seq 0 (S (n + 1))) (fun k => nC k * a k)).
  { cbn [seq csum]. rewrite csum_seq_shift, nC_0. ring. }
  assert (B : csum (seq 0 (n + 1)) (fun k => nC (S (n - k)) * a k) = csum (seq 0 (S (n + 1))) (fun k => nC (S n - k) * a k)).
  { rewrite csum_seq_S. replace (S n - (0 + (n + 1)))%nat with 0%nat by lia. rewrite nC_0, Cmult_0_l, Cplus_0_r.
    apply csum_ext. intros k Hk. apply in_seq in Hk. replace (S n - k)%nat with (S (n - k)) by lia. reflexivity. }
  rewrite A, B, <- csum_plus, <- csum_scal. apply csum_ext. intros k Hk. apply in_seq in Hk.
  rewrite <- Cmult_plus_distr_r, <- nC_add. f_equal. f_equal. lia.
Qed.
(** The addition theorem. *)
Theorem T_add n m : T (u + u') (z + z') (w + w') n m = csum (seq 0 (n + 1)) (fun k => E k (n - k) m).
Proof.
  revert m. induction n as [|n IH]; intros m.
  - cbn. destruct m; cbn; ring.
  - apply (Ceq_reg_l (nC (S n))); [apply nC_nz|]. rewrite T_S, !IH.
    replace (S n + 1)%nat with (S (n + 1)) by lia. rewrite <- (weighted n (fun k => E k (S n - k) m)).
    rewrite <- !csum_scal, <- !csum_plus. apply csum_ext. intros k Hk. apply in_seq in Hk.
    replace (S n - S k)%nat with (n - k)%nat by lia. replace (S n - k)%nat with (S (n - k)) by lia.
    rewrite E_left, E_right. ring.
Qed.
End Add.
