(** * The norm of a convolution of two rows of coefficients. *)
From Coq Require Import ZArith List Reals Lia Lra Bool.
From Coquelicot Require Import Coquelicot.
From Verif Require Import ModelLegendre ModelLegApi ModelExp SpecLegendre ProofsLegendre ProofsLegCheck ProofsHarm ProofsHarm2 ProofsHarm3 ProofsAcc1 ProofsAcc2.
Import ListNotations.
Local Open Scope R_scope.

(** inverse factorial on all integers *)
Definition invf (a : Z) : R := if Z.ltb a 0 then 0 else / INR (fact (Z.to_nat a)).
Lemma invf_pred a : invf (a - 1) = IZR a * invf a.
Proof.
  unfold invf. destruct (Z.ltb_spec (a - 1) 0), (Z.ltb_spec a 0); try lia; try ring.
  - replace a with 0%Z by lia. ring.
  - replace (Z.to_nat a) with (S (Z.to_nat (a - 1))) by lia. rewrite factS. replace (INR (S (Z.to_nat (a - 1)))) with (IZR a); [field; split; [apply fact_nz|]|].
    + apply not_0_IZR. lia.
    + rewrite INR_IZR_INZ. f_equal. lia.
Qed.
Definition W (n : nat) (m : Z) : R := invf (Z.of_nat n - m) * invf (Z.of_nat n + m).
Lemma W_in n m : (Z.abs m <= Z.of_nat n)%Z -> W n m = / cw n m.
Proof. intros L. unfold W, invf, cw. destruct (Z.ltb_spec (Z.of_nat n - m) 0), (Z.ltb_spec (Z.of_nat n + m) 0); try lia. field. split; apply fact_nz. Qed.
Lemma W_out n m : (Z.of_nat n < Z.abs m)%Z -> W n m = 0.
Proof. intros L. unfold W, invf. destruct (Z.ltb_spec (Z.of_nat n - m) 0), (Z.ltb_spec (Z.of_nat n + m) 0); try lia; ring. Qed.
Lemma W_pos n m : 0 <= W n m.
Proof.
  destruct (Z_lt_le_dec (Z.of_nat n) (Z.abs m)) as [L|L]; [rewrite W_out by auto; lra|]. rewrite W_in by auto. apply Rlt_le, Rinv_0_lt_compat, cw_pos.
Qed.
Lemma W_rec n m : INR (2 * n + 2) * INR (2 * n + 1) * W (S n) m = W n (m - 1) + 2 * W n m + W n (m + 1).
Proof.
  unfold W. replace (Z.of_nat n - (m - 1))%Z with (Z.of_nat (S n) - m)%Z by lia. replace (Z.of_nat n + (m + 1))%Z with (Z.of_nat (S n) + m)%Z by lia.
  replace (Z.of_nat n + (m - 1))%Z with (Z.of_nat (S n) + m - 1 - 1)%Z by lia. replace (Z.of_nat n - (m + 1))%Z with (Z.of_nat (S n) - m - 1 - 1)%Z by lia.
  replace (Z.of_nat n + m)%Z with (Z.of_nat (S n) + m - 1)%Z by lia. replace (Z.of_nat n - m)%Z with (Z.of_nat (S n) - m - 1)%Z by lia.
  rewrite !invf_pred. rewrite !INR_IZR_INZ. replace (Z.of_nat (2 * n + 2)) with (2 * Z.of_nat n + 2)%Z by lia. replace (Z.of_nat (2 * n + 1)) with (2 * Z.of_nat n + 1)%Z by lia.
  rewrite Nat2Z.inj_succ, !minus_IZR, !plus_IZR, !mult_IZR. unfold Z.succ. rewrite !plus_IZR. ring.
Qed.
Notation V := (T (RtoC 1) (RtoC 1 + RtoC 1)%C (RtoC 1)).
Lemma V_W n m : V n m = RtoC (INR (fact (2 * n)) / INR (fact n) * W n m).
Proof.
  revert m. induction n as [|n IH]; intros m.
  - cbn [T]. destruct (Z.eqb_spec m 0) as [->|N]; [|rewrite W_out by lia; rewrite Rmult_0_r; reflexivity]. rewrite W_in by (cbn; lia). unfold cw. cbn. f_equal. field.
  - apply (Ceq_reg_l (nC (S n))); [apply nC_nz|]. rewrite T_S, !IH. unfold nC. rewrite !Cmult_1_l. rewrite <- RtoC_plus, <- !RtoC_mult, <- !RtoC_plus. f_equal.
    replace (2 * S n)%nat with (S (S (2 * n))) by lia. rewrite !factS.
    transitivity (INR (fact (2 * n)) / INR (fact n) * (W n (m - 1) + 2 * W n m + W n (m + 1))); [ring|]. rewrite <- W_rec.
    replace (S (S (2 * n))) with (2 * n + 2)%nat by lia. replace (S (2 * n)) with (2 * n + 1)%nat by lia. field. split; [apply fact_nz|apply not_0_INR; lia].
Qed.
Lemma E_same u z w k j m : (RtoC (INR (fact k) * INR (fact j)) * E u z w u z w k j m = RtoC (INR (fact (k + j))) * T u z w (k + j) m)%C.
Proof.
  revert m. induction k as [|k IH]; intros m.
  - unfold E. change (sym_range 0) with [0%Z]. cbn [csum]. rewrite Z.sub_0_r. cbn [T Z.eqb fact plus]. change (INR 1) with 1. rewrite Rmult_1_l. change (0 + j)%nat with j. ring.
  - change (S k + j)%nat with (S (k + j)). rewrite !factS.
    assert (EL := E_left u z w u z w k j m). assert (TS := T_S u z w (k + j) m). unfold nC in EL, TS. set (a := INR (S k)) in *. set (b := INR (S (k + j))) in *.
    transitivity (RtoC (INR (fact k) * INR (fact j)) * (RtoC a * E u z w u z w (S k) j m))%C; [rewrite !RtoC_mult; ring|]. rewrite EL.
    transitivity (RtoC (INR (fact (k + j))) * (RtoC b * T u z w (S (k + j)) m))%C; [|rewrite RtoC_mult; ring]. rewrite TS.
    transitivity (u * (RtoC (INR (fact k) * INR (fact j)) * E u z w u z w k j (m - 1)) + z * (RtoC (INR (fact k) * INR (fact j)) * E u z w u z w k j m) + w * (RtoC (INR (fact k) * INR (fact j)) * E u z w u z w k j (m + 1)))%C; [ring|]. rewrite !IH. ring.
Qed.
Definition bn (n k : nat) : R := INR (fact (2 * (n + k))) / (INR (fact (2 * n)) * INR (fact (2 * k))).
Lemma bn_pos n k : 0 < bn n k.
Proof. apply Rdiv_lt_0_compat; [|apply Rmult_lt_0_compat]; apply fact_pos. Qed.
Lemma W_conv n k M : rsum (sym_range n) (fun l => W n l * W k (M - l)) = bn n k * W (n + k) M.
Proof.
  assert (A := E_same (RtoC 1) (RtoC 1 + RtoC 1)%C (RtoC 1) n k M). unfold E in A. rewrite (csum_ext _ _ (fun l => RtoC (INR (fact (2 * n)) / INR (fact n) * (INR (fact (2 * k)) / INR (fact k)) * (W n l * W k (M - l))))) in A.
  2:{ intros l _. rewrite !V_W, <- RtoC_mult. f_equal. ring. }
  rewrite csum_R, V_W, rsum_scal, <- !RtoC_mult in A. apply RtoC_inj in A. set (S := rsum _ _) in *. unfold bn.
  assert (P := fact_nz n). assert (P2 := fact_nz k). assert (P3 := fact_nz (2 * n)). assert (P4 := fact_nz (2 * k)). assert (P5 := fact_nz (n + k)).
  apply (Rmult_eq_reg_l (INR (fact (2 * n)) * INR (fact (2 * k)))); [|apply Rmult_integral_contrapositive; auto].
  transitivity (INR (fact n) * INR (fact k) * (INR (fact (2 * n)) / INR (fact n) * (INR (fact (2 * k)) / INR (fact k)) * S)); [field; auto|]. rewrite A. field. auto.
Qed.
Definition star (n : nat) (f g : Z -> C) (M : Z) : C := csum (sym_range n) (fun l => (f l * g (M - l)%Z)%C).
Definition supp (k : nat) (g : Z -> C) : Prop := forall l, (Z.of_nat k < Z.abs l)%Z -> g l = RtoC 0.
Lemma star_supp n k f g : supp k g -> supp (n + k) (star n f g).
Proof. intros G M L. apply csum_zero. intros l Hl. apply sym_in in Hl. rewrite G by lia. ring. Qed.
Lemma rshift n k M (f : Z -> R) : (Z.abs M <= Z.of_nat n)%Z -> (forall m, (Z.of_nat k < Z.abs m)%Z -> f m = 0) -> rsum (sym_range (n + k)) (fun m => f (m - M)%Z) = rsum (sym_range k) f.
Proof.
  intros L F. rewrite !rsum_fst. f_equal. unfold sym_range. rewrite (csum_ext _ _ (fun m => RtoC (f (m + - M)%Z))) by reflexivity. rewrite (zr_shift (- M) _ _ (fun m => RtoC (f m))).
  apply zr_widen; try lia. intros l Hl. rewrite F by lia. reflexivity.
Qed.
Lemma nrm_star n k f g : supp k g -> nrm (n + k) (star n f g) <= bn n k * (nrm n f * nrm k g).
Proof.
  intros G. set (q := fun k (g : Z -> C) m => cw k m * (Cmod (g m) * Cmod (g m))).
  assert (Q0 : forall k g m, 0 <= q k g m) by (intros; apply Rmult_le_pos; [apply Rlt_le, cw_pos|apply Rle_0_sqr]).
  assert (A : forall M, In M (sym_range (n + k)) -> cw (n + k) M * (Cmod (star n f g M) * Cmod (star n f g M)) <= bn n k * rsum (sym_range n) (fun l => q n f l * q k g (M - l)%Z)).
  { intros M HM. apply sym_in in HM. set (a := fun l => sqrt (q n f l * q k g (M - l)%Z)). set (b := fun l => sqrt (W n l * W k (M - l)%Z)).
    assert (S1 : Cmod (star n f g M) <= rsum (sym_range n) (fun l => a l * b l)).
    { apply Rle_trans with (1 := Cmod_csum _ _). apply rsum_le. intros l Hl. apply sym_in in Hl. rewrite Cmod_mult. unfold a, b.
      destruct (Z_lt_le_dec (Z.of_nat k) (Z.abs (M - l))) as [O|I].
      - rewrite (G _ O), Cmod_0, Rmult_0_r. apply Rmult_le_pos; apply sqrt_pos.
      - rewrite <- sqrt_mult by (apply Rmult_le_pos; auto using W_pos). apply Req_le. symmetry. apply sqrt_lem_1.
        + apply Rmult_le_pos; apply Rmult_le_pos; auto using W_pos.
        + apply Rmult_le_pos; apply Cmod_ge_0.
        + rewrite !W_in by lia. unfold q. field. split; apply Rgt_not_eq, cw_pos. }
    assert (S2 : Cmod (star n f g M) * Cmod (star n f g M) <= rsum (sym_range n) (fun l => a l * a l) * rsum (sym_range n) (fun l => b l * b l)).
    { apply Rle_trans with (2 := cauchy _ _ _). apply Rmult_le_compat; auto using Cmod_ge_0. }
    rewrite (rsum_ext _ (fun l => a l * a l) (fun l => q n f l * q k g (M - l)%Z)) in S2 by (intros; apply sqrt_sqrt, Rmult_le_pos; auto).
    rewrite (rsum_ext _ (fun l => b l * b l) (fun l => W n l * W k (M - l)%Z)) in S2 by (intros; apply sqrt_sqrt, Rmult_le_pos; auto using W_pos).
    rewrite W_conv in S2. rewrite W_in in S2 by lia.
    apply Rle_trans with (cw (n + k) M * (rsum (sym_range n) (fun l => q n f l * q k g (M - l)%Z) * (bn n k * / cw (n + k) M))); [apply Rmult_le_compat_l; auto; apply Rlt_le, cw_pos|].
    apply Req_le. field. apply Rgt_not_eq, cw_pos. }
  unfold nrm at 1. apply Rle_trans with (1 := rsum_le _ _ _ A). rewrite rsum_scal. apply Rmult_le_compat_l; [apply Rlt_le, bn_pos|]. apply Req_le.
  rewrite rsum_swap. unfold nrm. fold (q n f). rewrite Rmult_comm, <- rsum_scal. apply rsum_ext. intros l Hl. apply sym_in in Hl. rewrite rsum_scal, Rmult_comm. f_equal.
  change (rsum (sym_range (n + k)) (fun a => q k g (a - l)%Z) = rsum (sym_range k) (q k g)). apply rshift; [lia|]. intros m Hm. unfold q. rewrite G by auto. rewrite Cmod_0. ring.
Qed.
(** the coefficient against powers *)
Lemma bn_pow n k a b : 0 <= a -> 0 <= b -> bn n k * (a ^ (2 * n) * b ^ (2 * k)) <= (a + b) ^ (2 * (n + k)).
Proof.
  intros A B. rewrite binomial. set (N := (2 * (n + k))%nat). set (t := fun i => Binomial.C N i * a ^ i * b ^ (N - i)).
  assert (P : forall i, 0 <= t i). { intros i. unfold t. apply Rmult_le_pos; [apply Rmult_le_pos|]; try (apply pow_le; auto). unfold Binomial.C. apply Rlt_le, Rdiv_lt_0_compat; [|apply Rmult_lt_0_compat]; apply fact_pos. }
  assert (Q : forall m i, (i <= m)%nat -> t i <= sum_f_R0 t m).
  { induction m as [|m IH]; intros i Li; [replace i with 0%nat by lia; cbn; lra|]. rewrite tech5. destruct (Nat.eq_dec i (S m)) as [->|Ne].
    - assert (0 <= sum_f_R0 t m) by (apply cond_pos_sum; auto). lra.
    - assert (S1 := IH i ltac:(lia)). assert (S2 := P (S m)). lra. }
  apply Rle_trans with (2 := Q N (2 * n)%nat ltac:(unfold N; lia)). apply Req_le. unfold t, bn, Binomial.C, N. replace (2 * (n + k) - 2 * n)%nat with (2 * k)%nat by lia. ring.
Qed.
Lemma star_bound n k f g a b : supp k g -> 0 <= a -> 0 <= b -> nrm n f <= a ^ (2 * n) -> nrm k g <= b ^ (2 * k) -> sqrt (nrm (n + k) (star n f g)) <= (a + b) ^ (n + k).
Proof.
  intros G A B F1 G1. rewrite <- (sqrt_Rsqr ((a + b) ^ (n + k))) by (apply pow_le; lra). apply sqrt_le_1_alt. apply Rle_trans with (1 := nrm_star n k f g G).
  apply Rle_trans with (bn n k * (a ^ (2 * n) * b ^ (2 * k))).
  - apply Rmult_le_compat_l; [apply Rlt_le, bn_pos|]. apply Rmult_le_compat; auto using nrm_pos.
  - apply Rle_trans with (1 := bn_pow n k a b A B). apply Req_le. unfold Rsqr. rewrite <- pow_add. f_equal. lia.
Qed.
