(** Round to nearest even with 53 digits: square roots of rounded squares. *)
From Coq Require Import ZArith Reals Lia Lra.
From Flocq Require Import Core.
From Verif Require Import ModelFloat SpecFloat ProofsFloat.
Local Open Scope R_scope.

Definition double (x : R) : Prop := generic_format radix2 (FLX_exp 53) x.
Notation ulp53 := (ulp radix2 (FLX_exp 53)).
Notation succ53 := (succ radix2 (FLX_exp 53)).
Notation pred53 := (pred radix2 (FLX_exp 53)).
#[global] Instance prec53 : Prec_gt_0 53. Proof. reflexivity. Qed.
#[global] Instance valid53 : Valid_exp (FLX_exp 53). Proof. apply FLX_exp_valid, prec53. Qed.
#[global] Instance mono53 : Monotone_exp (FLX_exp 53). Proof. apply FLX_exp_monotone. Qed.

Lemma flx_double x : double (flx x). Proof. apply generic_format_round; [apply valid53|apply valid_rnd_N]. Qed.
Lemma flx_id x : double x -> flx x = x. Proof. intros D. apply round_generic; [apply valid_rnd_N|exact D]. Qed.
Lemma flx_le x y : x <= y -> flx x <= flx y. Proof. apply round_le; [apply valid53|apply valid_rnd_N]. Qed.
Lemma double_0 : double 0. Proof. apply generic_format_0. Qed.
Lemma double_bpow e : double (bpow radix2 e). Proof. apply generic_format_bpow. unfold FLX_exp. lia. Qed.
Lemma double_1 : double 1. Proof. exact (double_bpow 0). Qed.
Lemma double_opp x : double x -> double (- x). Proof. apply generic_format_opp. Qed.
Lemma flx_0 : flx 0 = 0. Proof. apply flx_id, double_0. Qed.
Lemma flx_1 : flx 1 = 1. Proof. apply flx_id, double_1. Qed.
Lemma flx_opp x : flx (- x) = - flx x.
Proof. unfold flx. rewrite round_NE_opp. reflexivity. Qed.
Lemma flx_m1 : flx (-1) = -1.
Proof. replace (-1) with (- (1)) by lra. rewrite flx_opp, flx_1. reflexivity. Qed.
Lemma u53 : bpow radix2 (-53) = / 9007199254740992. Proof. reflexivity. Qed.
Lemma flx_bounds x : 0 <= x -> x * (1 - / 9007199254740992) <= flx x <= x * (1 + / 9007199254740992).
Proof. intros P. assert (E := flx_error x). rewrite u53, (Rabs_pos_eq x P) in E. apply Rabs_le_inv in E. lra. Qed.
Lemma flx_nonneg x : 0 <= x -> 0 <= flx x. Proof. intros P. assert (Q := flx_bounds x P). lra. Qed.
Lemma flx_pos x : 0 < x -> 0 < flx x. Proof. intros P. assert (Q := flx_bounds x (Rlt_le _ _ P)). lra. Qed.
Lemma flx_pos_iff x : 0 < flx x <-> 0 < x.
Proof. split; [|apply flx_pos]. intros P. destruct (Rle_or_lt x 0) as [L|L]; auto. apply flx_le in L. rewrite flx_0 in L. lra. Qed.
Lemma flx_zero_iff x : flx x = 0 <-> x = 0.
Proof.
  split; [|intros ->; apply flx_0]. intros E. destruct (Rtotal_order x 0) as [L|[L|L]]; auto.
  - assert (P := flx_pos (- x) ltac:(lra)). rewrite flx_opp in P. lra.
  - assert (P := flx_pos x L). lra.
Qed.
Lemma ulp_at x e : bpow radix2 (e - 1) <= Rabs x < bpow radix2 e -> ulp53 x = bpow radix2 (e - 53).
Proof.
  intros B. assert (N : x <> 0). { intros ->. rewrite Rabs_R0 in B. assert (P := bpow_gt_0 radix2 (e - 1)). lra. }
  rewrite ulp_neq_0 by exact N. unfold cexp. rewrite (mag_unique radix2 x e B). reflexivity.
Qed.
(** rounding to nearest is a true inverse of squaring *)
Lemma sqrt_of_square z : double z -> 0 < z -> flx (sqrt (flx (z * z))) = z.
Proof.
  intros D P. destruct (mag radix2 z) as (e & Be). specialize (Be ltac:(lra)). rewrite Rabs_pos_eq in Be by lra.
  set (h := bpow radix2 (e - 53)). assert (Hh : 0 < h) by apply bpow_gt_0.
  assert (Uz : ulp53 z = h) by (apply ulp_at; rewrite Rabs_pos_eq; lra).
  assert (B1 : bpow radix2 (e - 1) = 4503599627370496 * h).
  { unfold h. replace (e - 1)%Z with (52 + (e - 53))%Z by lia. rewrite bpow_plus. f_equal. }
  destruct (Req_dec z (bpow radix2 (e - 1))) as [Ez|Ez].
  { rewrite Ez, <- bpow_plus. rewrite (flx_id _ (double_bpow _)).
    rewrite bpow_plus, sqrt_square by apply bpow_ge_0. apply flx_id, double_bpow. }
  set (Q := h * h). assert (HQ : 0 < Q) by (apply Rmult_lt_0_compat; lra).
  assert (L1 : 4503599627370496 * Q <= z * h). { unfold Q. rewrite <- Rmult_assoc. apply Rmult_le_compat_r; lra. }
  (* the rounding error of the square *)
  assert (S : exists k, Rabs (flx (z * z) - z * z) <= k * Q /\ k * Q + Q / 4 < z * h).
  { assert (E := error_le_half_ulp radix2 (FLX_exp 53) (fun x => negb (Z.even x)) (z * z)).
    change (round radix2 (FLX_exp 53) (Znearest (fun x => negb (Z.even x))) (z * z)) with (flx (z * z)) in E.
    assert (Z0 : 0 < z * z) by (apply Rmult_lt_0_compat; lra).
    destruct (Rlt_or_le (z * z) (bpow radix2 (2 * e - 1))) as [C|C].
    - exists 2251799813685248. rewrite (ulp_at (z * z) (2 * e - 1)) in E.
      + replace (2 * e - 1 - 53)%Z with (52 + ((e - 53) + (e - 53)))%Z in E by lia. rewrite bpow_plus, (bpow_plus radix2 (e - 53)) in E.
        fold h Q in E. change (bpow radix2 52) with 4503599627370496 in E. split; lra.
      + rewrite Rabs_pos_eq by lra. split; [|exact C]. replace (2 * e - 1 - 1)%Z with ((e - 1) + (e - 1))%Z by lia. rewrite bpow_plus.
        apply Rmult_le_compat; try lra; apply bpow_ge_0.
    - exists 4503599627370496. rewrite (ulp_at (z * z) (2 * e)) in E.
      + replace (2 * e - 53)%Z with (53 + ((e - 53) + (e - 53)))%Z in E by lia. rewrite bpow_plus, (bpow_plus radix2 (e - 53)) in E.
        fold h Q in E. change (bpow radix2 53) with 9007199254740992 in E. split; [lra|].
        destruct (Rlt_or_le (4503599627370496 * Q + Q / 4) (z * h)) as [G|G]; auto. exfalso.
        assert (Zh : z <= (4503599627370496 + / 4) * h). { apply Rmult_le_reg_r with h; auto. unfold Q in G. lra. }
        assert (Zz : z * z <= ((4503599627370496 + / 4) * h) * ((4503599627370496 + / 4) * h)) by (apply Rmult_le_compat; lra).
        replace (2 * e - 1)%Z with (105 + ((e - 53) + (e - 53)))%Z in C by lia. rewrite bpow_plus, (bpow_plus radix2 (e - 53)) in C. fold h Q in C.
        replace (bpow radix2 105) with (IZR (2 ^ 105)) in C by reflexivity.
        replace ((4503599627370496 + / 4) * h * ((4503599627370496 + / 4) * h)) with ((4503599627370496 + / 4) * (4503599627370496 + / 4) * Q) in Zz by (unfold Q; ring).
        assert (W : IZR (2 ^ 105) * Q <= (4503599627370496 + / 4) * (4503599627370496 + / 4) * Q) by lra.
        apply Rmult_le_reg_r in W; [|exact HQ]. revert W. change (2 ^ 105)%Z with 40564819207303340847894502572032%Z. lra.
      + rewrite Rabs_pos_eq by lra. split; [exact C|]. replace (2 * e)%Z with (e + e)%Z by lia. rewrite bpow_plus. apply Rmult_le_0_lt_compat; lra. }
  destruct S as (k & S1 & S2). apply Rabs_le_inv in S1.
  assert (Hq : (z - h / 2) * (z - h / 2) = z * z - z * h + Q / 4) by (unfold Q; field).
  assert (Hq' : (z + h / 2) * (z + h / 2) = z * z + z * h + Q / 4) by (unfold Q; field).
  assert (Hz : h < z) by lra.
  apply Rle_antisym.
  - apply round_N_le_midp; [apply valid53|exact D|]. rewrite succ_eq_pos by lra. rewrite Uz. replace ((z + (z + h)) / 2) with (z + h / 2) by field.
    rewrite <- (sqrt_square (z + h / 2)) by lra. apply sqrt_lt_1_alt. split; [apply flx_nonneg; apply Rmult_le_pos; lra|]. rewrite Hq'. lra.
  - apply round_N_ge_midp; [apply valid53|exact D|]. rewrite pred_eq_pos by lra. unfold pred_pos.
    assert (Mz : mag radix2 z = e :> Z) by (apply mag_unique; rewrite Rabs_pos_eq; lra). rewrite Mz. rewrite Req_bool_false by exact Ez. rewrite Uz.
    replace ((z + (z - h)) / 2) with (z - h / 2) by field.
    rewrite <- (sqrt_square (z - h / 2)) by lra. apply sqrt_lt_1_alt. split; [apply Rmult_le_pos; lra|]. rewrite Hq. lra.
Qed.
(** adding something tiny changes nothing *)
Lemma flx_absorb s t : double s -> 0 < s -> 0 <= t -> t * 36028797018963968 < s * 2 -> flx (t + s) = s.
Proof.
  intros D P T L. apply Rle_antisym.
  - apply round_N_le_midp; [apply valid53|exact D|]. rewrite succ_eq_pos by lra.
    assert (U := ulp_FLX_ge radix2 53 s). rewrite Rabs_pos_eq in U by lra. change (bpow radix2 (- (53))) with (/ 9007199254740992) in U. lra.
  - rewrite <- (flx_id s D) at 1. apply flx_le. lra.
Qed.
