(** * Accuracy of kernels and matrices computed in floating point (C80). *)
From Coq Require Import ZArith QArith Reals List Arith Bool Permutation Lia Lra.
From Flocq Require Import Core Relative.
From Verif Require Import ModelOctree ModelFmm LibSum SpecBit ProofsRnd ModelAssemble SpecRndDirect ProofsRndDirect ModelRules ModelFloat SpecFloat ProofsFloat.
From Verif Require ModelKernel.
Import ListNotations.
Local Open Scope R_scope.

(** Single layer: relative error of at most ten roundings for any two distinct points, however close. *)
Theorem C80_single_layer_is_accurate : forall u F x n y, relative u F -> apart 3 x y ->
  let r := sqrt ((x 0%nat - y 0%nat) ^ 2 + (x 1%nat - y 1%nat) ^ 2 + (x 2%nat - y 2%nat) ^ 2) in
  Rabs (fpoint_kernel 3 dirichlet_matrix x n y - / (4 * PI * r)) <= gam u 10 * / (4 * PI * r).
Proof.
  intros u F x n y HF Ap r. assert (Pr := r_pos u F HF 3 x y Ap). assert (Pp := PI_RGT_0). change (sqrt (dist2 3 x y)) with r in Pr.
  assert (P1 : 0 < 4 * PI * r) by (apply Rmult_lt_0_compat; lra).
  destruct (near_apx u F HF _ _ _ (n_d u F HF 3 x y Ap eq_refl)) as (_ & _ & Q). change (sqrt (dist2 3 x y)) with r in Q. rewrite (Rabs_pos_eq (/ (4 * PI * r))) in Q by (left; apply Rinv_0_lt_compat; auto). rewrite v_gam, Rmult_0_r, Rplus_0_r in Q. exact Q.
Qed.
(** The vector D: every component to 25 roundings, so in direction and size. *)
Theorem C80_double_layer_is_accurate : forall u F x y k, relative u F -> apart 3 x y ->
  let r := sqrt ((x 0%nat - y 0%nat) ^ 2 + (x 1%nat - y 1%nat) ^ 2 + (x 2%nat - y 2%nat) ^ 2) in
  Rabs (fkernel_D 3 (fdifference x y) k - - (x k - y k) / (4 * PI * r ^ 3)) <= gam u 25 * (Rabs (x k - y k) / (4 * PI * r ^ 3)).
Proof.
  intros u F x y k HF Ap r. assert (Pr := r_pos u F HF 3 x y Ap). assert (Pp := PI_RGT_0). change (sqrt (dist2 3 x y)) with r in Pr.
  assert (P3 : 0 < 4 * PI * r ^ 3) by (apply Rmult_lt_0_compat; [lra|apply pow_lt; auto]).
  destruct (near_apx u F HF _ _ _ (n_D u F HF 3 x y Ap k eq_refl)) as (_ & _ & Q). change (sqrt (dist2 3 x y)) with r in Q. rewrite v_gam, Rmult_0_r, Rplus_0_r in Q.
  replace (Rabs (x k - y k) / (4 * PI * r ^ 3)) with (Rabs (- (x k - y k) / (4 * PI * r ^ 3))); [exact Q|].
  unfold Rdiv. rewrite Rabs_mult, Rabs_Ropp, (Rabs_pos_eq (/ _)) by (left; apply Rinv_0_lt_compat; auto). reflexivity.
Qed.
(** The normal derivative D * n: accurate with respect to |n| / (4 pi r^2) (its terms may cancel). *)
Theorem C80_normal_derivative : forall u F x n y, relative u F -> apart 3 x y ->
  let r2 := (x 0%nat - y 0%nat) ^ 2 + (x 1%nat - y 1%nat) ^ 2 + (x 2%nat - y 2%nat) ^ 2 in
  Rabs (fpoint_kernel 3 neumann_matrix x n y - point_kernel 3 neumann_matrix x n y) <= gam u 28 * size_kernel 3 neumann_matrix x n y /\
  size_kernel 3 neumann_matrix x n y <= sqrt (n 0%nat ^ 2 + n 1%nat ^ 2 + n 2%nat ^ 2) / (4 * PI * r2).
Proof.
  intros u F x n y HF Ap r2. split.
  - destruct (kernel_apx u F HF 3 neumann_matrix x n y (or_intror eq_refl) Ap) as (_ & _ & Q). rewrite v_gam, Rmult_0_r, Rplus_0_r in Q. exact Q.
  - assert (Pr := r_pos u F HF 3 x y Ap). assert (Pp := PI_RGT_0). unfold size_kernel. cbv zeta. cbn [Nat.eqb]. change ((x 0%nat - y 0%nat) ^ 2 + (x 1%nat - y 1%nat) ^ 2 + (x 2%nat - y 2%nat) ^ 2) with (dist2 3 x y). change r2 with (dist2 3 x y). cbv zeta. set (r := sqrt (dist2 3 x y)) in *.
    assert (E : dist2 3 x y = r * r). { unfold r. rewrite sqrt_sqrt; auto. left. apply (dist2_pos u F HF 3); auto. }
    rewrite E. set (a := fun k => Rabs (x k - y k)). set (b := fun k => Rabs (n k)).
    assert (CS : a 0%nat * b 0%nat + a 1%nat * b 1%nat + a 2%nat * b 2%nat <= r * sqrt (n 0%nat ^ 2 + n 1%nat ^ 2 + n 2%nat ^ 2)).
    { assert (A2 : forall k, a k * a k = (x k - y k) ^ 2) by (intros k; unfold a; rewrite <- Rabs_mult, Rabs_pos_eq; [ring|replace ((x k - y k) * (x k - y k)) with ((x k - y k) ^ 2) by ring; apply pow2_ge_0]).
      assert (B2 : forall k, b k * b k = n k ^ 2) by (intros k; unfold b; rewrite <- Rabs_mult, Rabs_pos_eq; [ring|replace (n k * n k) with (n k ^ 2) by ring; apply pow2_ge_0]).
      unfold r. rewrite <- sqrt_mult_alt by (left; apply (dist2_pos u F HF 3); auto). apply Rsqr_incr_0_var; [|apply sqrt_pos]. rewrite Rsqr_sqrt.
      2:{ apply Rmult_le_pos; [left; apply (dist2_pos u F HF 3); auto|]. repeat apply Rplus_le_le_0_compat; apply pow2_ge_0. }
      unfold dist2. cbn [Nat.eqb]. rewrite <- !A2, <- !B2. unfold Rsqr. generalize (a 0%nat) (a 1%nat) (a 2%nat) (b 0%nat) (b 1%nat) (b 2%nat). intros a0 a1 a2 b0 b1 b2.
      assert (L1 := pow2_ge_0 (a0 * b1 - a1 * b0)). assert (L2 := pow2_ge_0 (a0 * b2 - a2 * b0)). assert (L3 := pow2_ge_0 (a1 * b2 - a2 * b1)).
      apply Rminus_le. replace (_ - _) with (- ((a0 * b1 - a1 * b0) ^ 2 + (a0 * b2 - a2 * b0) ^ 2 + (a1 * b2 - a2 * b1) ^ 2)) by ring. lra. }
    set (s := sqrt (n 0%nat ^ 2 + n 1%nat ^ 2 + n 2%nat ^ 2)) in *. unfold a, b in CS.
    assert (P3 : 0 < 4 * PI * r ^ 3) by (apply Rmult_lt_0_compat; [lra|apply pow_lt; auto]).
    replace (s / (4 * PI * (r * r))) with (r * s / (4 * PI * r ^ 3)) by (field; lra). unfold Rdiv. apply Rmult_le_compat_r; auto. left. apply Rinv_0_lt_compat. auto.
Qed.
(** The stored matrix, computed from the points, normals, shape values and JxW: every entry is accurate with respect to
    the quadrature sums of the sizes of the kernel. *)
Theorem C80_stored_entry : forall u F dim m I node P S owned N i d, dim = 2%nat \/ dim = 3%nat -> relative u F -> (o_nqc I <= N)%nat -> (forall idx, (sp_n S idx <= N)%nat) -> points_apart dim I node P S ->
  (i < o_nd I)%nat -> owned i = true ->
  Rabs (fstored dim m I node P S owned i d - stored dim m I node P S owned i d) <= gam u (30 + N + occurrences I d) * size_entry dim m I node P S owned i d.
Proof.
  intros u F dim m I node P S owned N i d Hd HF N1 N2 HP Hi Ho. destruct (f_entry u F HF dim Hd m I node P S owned N (conj N1 N2) HP i d Hi Ho) as (_ & _ & Q).
  rewrite v_gam, Rmult_0_r, Rplus_0_r in Q. exact Q.
Qed.
(** ... and so are its products, in any column order. *)
Theorem C80_product : forall u F dim m I node P S owned N M cols w i, dim = 2%nat \/ dim = 3%nat -> relative u F -> (o_nqc I <= N)%nat -> (forall idx, (sp_n S idx <= N)%nat) -> points_apart dim I node P S ->
  (i < o_nd I)%nat -> owned i = true -> Permutation cols (seq 0 (o_nd I)) -> (forall d, (d < o_nd I)%nat -> (occurrences I d <= M)%nat) ->
  Rabs (fstored_vmult dim m I node P S owned cols w i - stored_vmult dim m I node P S owned w i) <=
  gam u (31 + N + M + o_nd I) * suml (seq 0 (o_nd I)) (fun d => size_entry dim m I node P S owned i d * Rabs (w d)).
Proof.
  intros u F dim m I node P S owned N M cols w i Hdim HF N1 N2 HP Hi Ho Hc HM.
  assert (HI : forall d, In d cols -> (occurrences I d <= M)%nat) by (intros d Hd; apply (Permutation_in d Hc) in Hd; apply in_seq in Hd; apply HM; lia).
  destruct (f_product u F HF dim Hdim m I node P S owned N (conj N1 N2) HP i cols M w Hi Ho HI) as (_ & _ & Q). rewrite v_gam, Rmult_0_r, Rplus_0_r in Q.
  rewrite (Permutation_length Hc), seq_length in Q.
  assert (E1 : row_product (H := exact_arith) I (regular_kern dim m node P) (rule_at dim m node S) owned cols w i = stored_vmult dim m I node P S owned w i).
  { unfold row_product, stored_vmult, direct_vmult. cbn [aadd amul exact_arith]. rewrite !fold_left_plus. f_equal. apply suml_perm. auto. }
  assert (E2 : row_product (H := exact_arith) I (size_kern dim m node P) (size_rule dim m node S) owned cols (fun d => Rabs (w d)) i = suml (seq 0 (o_nd I)) (fun d => size_entry dim m I node P S owned i d * Rabs (w d))).
  { unfold row_product, size_entry. cbn [aadd amul exact_arith]. rewrite fold_left_plus, Rplus_0_l. apply suml_perm. auto. }
  rewrite E1, E2 in Q. exact Q.
Qed.
(** Binary64 is such an arithmetic as long as no result is below 2^-1022 in size (or overflows). *)
Theorem C80_double_precision : relative (bpow radix2 (-53)) unlimited_double /\ (forall x, bpow radix2 (-1022) <= Rabs x -> dbl x = flx x) /\ dbl 0 = flx 0.
Proof.
  split; [apply flx_relative|]. split; [apply dbl_flx|]. unfold dbl, flx. rewrite !round_0; auto; apply valid_rnd_N.
Qed.
(** n roundings cost a relative error of at most n u / (1 - n u) *)
Theorem C80_rounding_factor : forall u n, 0 <= u < 1 -> INR n * u < 1 -> 0 <= gam u n <= INR n * u / (1 - INR n * u).
Proof.
  intros u n Hu Hn. assert (B : 1 - INR n * u <= (1 - u) ^ n).
  { clear Hn. induction n as [|n IH]; [simpl; lra|]. rewrite S_INR. simpl pow. assert (Pn := pos_INR n). assert (0 <= INR n * u * u) by (repeat apply Rmult_le_pos; lra).
    eapply Rle_trans; [|apply Rmult_le_compat_l; [lra|exact IH]]. lra. }
  assert (L : (1 - u) ^ n <= 1) by (assert (Q : (1 - u) ^ n <= 1 ^ n) by (apply pow_incr; lra); rewrite pow1 in Q; exact Q).
  unfold gam. rewrite pow_inv. split.
  - assert (Q : / 1 <= / (1 - u) ^ n) by (apply Rinv_le_contravar; lra). rewrite Rinv_1 in Q. lra.
  - assert (Q : / (1 - u) ^ n <= / (1 - INR n * u)) by (apply Rinv_le_contravar; lra). replace (INR n * u / (1 - INR n * u)) with (/ (1 - INR n * u) - 1) by (field; lra). lra.
Qed.
(** The sum D * n itself need not have a relative accuracy: a point in the plane of the node may get a normal
    derivative that is not zero. *)
Definition tilted (F0 : flops) : flops := {| f_arith := {| aadd := @aadd (@f_arith F0); amul := @amul (@f_arith F0); adiv := fun x y => if Req_EM_T x 3 then @adiv (@f_arith F0) x y * (1 + / 4) else @adiv (@f_arith F0) x y; api := @api (@f_arith F0) |};
  fsub := @fsub F0; fsqrt := @fsqrt F0; flog := @flog F0 |}.
Theorem C80_normal_derivative_is_relatively_accurate_refuted : exists u F x n y, relative u F /\ apart 3 x y /\
  point_kernel 3 neumann_matrix x n y = 0 /\ fpoint_kernel (F := F) 3 neumann_matrix x n y <> 0.
Proof.
  exists (/ 4), (tilted exact_flops), (fun k => match k with 0%nat => 1 | 1%nat => 3 | _ => 0 end), (fun k => match k with 0%nat => 3 | 1%nat => -1 | _ => 0 end), (fun _ => 0).
  assert (Z : forall a b, Rabs (a - a) <= / 4 * Rabs b) by (intros a b; replace (a - a) with 0 by ring; rewrite Rabs_R0; assert (Q := Rabs_pos b); lra).
  assert (Ap : apart 3 (fun k => match k with 0%nat => 1 | 1%nat => 3 | _ => 0 end) (fun _ => 0)) by (left; lra).
  split; [|split; [exact Ap|split]].
  - unfold relative. cbn [tilted exact_flops f_arith aadd amul adiv api exact_arith fsub fsqrt flog]. split; [lra|]. split; [intros; apply Z|]. split; [intros; apply Z|]. split; [intros; apply Z|].
    split; [|split; [intros; replace (sqrt x - sqrt x) with 0 by ring; rewrite Rabs_R0; assert (Q := sqrt_pos x); lra|split; [intros; apply Z|replace (PI - PI) with 0 by ring; rewrite Rabs_R0; assert (Q := PI_RGT_0); lra]]].
    intros x y _. destruct (Req_EM_T x 3); [|apply Z]. replace (x / y * (1 + / 4) - x / y) with (/ 4 * (x / y)) by ring. rewrite Rabs_mult, (Rabs_pos_eq (/ 4)) by lra. lra.
  - unfold point_kernel, dotn, kernel_D. cbn [Nat.eqb seq fold_left]. unfold ModelKernel.kernels3_D, difference. cbv zeta. unfold Rdiv. ring.
  - unfold fpoint_kernel, fdot, fkernel_D. cbv zeta. cbn [Nat.eqb]. set (V := fdifference _ _). set (t := fnorm 3 V).
    assert (V0 : V 0%nat = 1) by (unfold V, fdifference; cbn; ring). assert (V1 : V 1%nat = 3) by (unfold V, fdifference; cbn; ring). assert (V2 : V 2%nat = 0) by (unfold V, fdifference; cbn; ring).
    assert (T : 0 < t). { unfold t, fnorm, fsquare. cbv zeta. cbn [Nat.eqb tilted exact_flops f_arith aadd amul exact_arith fsqrt]. rewrite V0, V1, V2. apply sqrt_lt_R0. lra. }
    cbn [tilted exact_flops f_arith aadd amul adiv api exact_arith]. rewrite V0, V1, V2.
    destruct (Req_EM_T 1 3); [lra|]. destruct (Req_EM_T 3 3); [|congruence]. destruct (Req_EM_T 0 3); [lra|].
    set (s := -4 * PI * (t * t) * t). assert (S0 : s <> 0). { unfold s. assert (Pp := PI_RGT_0). assert (X : 0 < PI * (t * t * t)) by (apply Rmult_lt_0_compat; [exact Pp|apply Rmult_lt_0_compat; [apply Rmult_lt_0_compat|]; exact T]). intro; lra. }
    replace (1 / s * 3 + 3 / s * (1 + / 4) * -1 + 0 / s * 0) with (- (3 / 4) * / s) by (field; auto). assert (Q := Rinv_neq_0_compat s S0). intros E. apply Rmult_integral in E. lra.
Qed.
(** 2D: D to 18 roundings. *)
Theorem C80_double_layer_in_2D : forall u F x y k, relative u F -> apart 2 x y ->
  let r := sqrt ((x 0%nat - y 0%nat) ^ 2 + (x 1%nat - y 1%nat) ^ 2) in
  Rabs (fkernel_D 2 (fdifference x y) k - - (x k - y k) / (2 * PI * r ^ 2)) <= gam u 18 * (Rabs (x k - y k) / (2 * PI * r ^ 2)).
Proof.
  intros u F x y k HF Ap r. assert (Pr := r_pos u F HF 2 x y Ap). assert (Pp := PI_RGT_0).
  assert (Er : sqrt (dist2 2 x y) = r) by (unfold r, dist2; cbn [Nat.eqb]; f_equal; ring). rewrite Er in Pr.
  assert (P3 : 0 < 2 * PI * r ^ 2) by (apply Rmult_lt_0_compat; [lra|apply pow_lt; auto]).
  destruct (near_apx u F HF _ _ _ (n_D2 u F HF 2 x y Ap k ltac:(discriminate))) as (_ & _ & Q). rewrite Er, v_gam, Rmult_0_r, Rplus_0_r in Q.
  replace (Rabs (x k - y k) / (2 * PI * r ^ 2)) with (Rabs (- (x k - y k) / (2 * PI * r ^ 2))); [exact Q|].
  unfold Rdiv. rewrite Rabs_mult, Rabs_Ropp, (Rabs_pos_eq (/ _)) by (left; apply Rinv_0_lt_compat; auto). reflexivity.
Qed.
(** 2D: the logarithm has an absolute accuracy only where it is small. *)
Theorem C80_single_layer_in_2D : forall u F x n y, relative u F -> apart 2 x y ->
  let r := sqrt ((x 0%nat - y 0%nat) ^ 2 + (x 1%nat - y 1%nat) ^ 2) in
  Rabs (fpoint_kernel 2 dirichlet_matrix x n y - - ln r / (2 * PI)) <= gam u 10 * ((Rabs (ln r) + 1) / (2 * PI)).
Proof.
  intros u F x n y HF Ap r. assert (Er : sqrt (dist2 2 x y) = r) by (unfold r, dist2; cbn [Nat.eqb]; f_equal; ring).
  destruct (a_d2 u F HF 2 x y Ap ltac:(discriminate)) as (_ & _ & Q). rewrite Er, v_gam, Rmult_0_r, Rplus_0_r in Q. exact Q.
Qed.
(** In double precision the point (1, 2^-40) gets the single layer 0 at the origin, which is not its value. *)
Lemma flx_bpow e : flx (bpow radix2 e) = bpow radix2 e.
Proof. unfold flx. apply round_generic; [apply valid_rnd_N|]. apply generic_format_bpow. unfold FLX_exp. lia. Qed.
Lemma flx_one : flx 1 = 1. Proof. exact (flx_bpow 0). Qed.
Lemma flx_zero : flx 0 = 0. Proof. unfold flx. apply round_0. apply valid_rnd_N. Qed.
Lemma flx_near_one e : (e <= -54)%Z -> flx (1 + bpow radix2 e) = 1.
Proof.
  intros He. unfold flx, round, F2R, scaled_mantissa, cexp, FLX_exp. set (x := 1 + bpow radix2 e).
  assert (B : 0 < bpow radix2 e) by apply bpow_gt_0. assert (B54 : bpow radix2 e <= bpow radix2 (-54)) by (apply bpow_le; lia).
  assert (S54 : bpow radix2 (-54) = bpow radix2 (-52) * / 4) by (change (-54)%Z with (-52 + -2)%Z; rewrite bpow_plus; f_equal; cbn; lra).
  assert (P52 : 0 < bpow radix2 (-52) <= 1) by (split; [apply bpow_gt_0|change 1 with (bpow radix2 0); apply bpow_le; lia]).
  assert (Mg : mag radix2 x = 1%Z :> Z).
  { apply mag_unique. change (bpow radix2 (1 - 1)) with 1. change (bpow radix2 1) with 2. rewrite Rabs_pos_eq by (unfold x; lra). unfold x. lra. }
  rewrite Mg. change (1 - 53)%Z with (-52)%Z. change (- (-52))%Z with 52%Z.
  assert (E52 : bpow radix2 (-52) * bpow radix2 52 = 1) by (rewrite <- bpow_plus; reflexivity).
  assert (Z0 : ZnearestE (x * bpow radix2 52) = (2 ^ 52)%Z).
  { apply Znearest_imp. change (IZR (2 ^ 52)) with (bpow radix2 52). replace (x * bpow radix2 52 - bpow radix2 52) with (bpow radix2 e * bpow radix2 52) by (unfold x; ring).
    assert (P : 0 < bpow radix2 52) by apply bpow_gt_0. rewrite Rabs_pos_eq by (left; apply Rmult_lt_0_compat; auto).
    eapply Rle_lt_trans; [apply Rmult_le_compat_r; [lra|exact B54]|]. rewrite S54. replace (bpow radix2 (-52) * / 4 * bpow radix2 52) with (/ 4 * (bpow radix2 (-52) * bpow radix2 52)) by ring. rewrite E52. lra. }
  rewrite Z0. unfold Defs.F2R. cbn [Defs.Fnum Defs.Fexp]. change (IZR (2 ^ 52)) with (bpow radix2 52). rewrite Rmult_comm. exact E52.
Qed.
Theorem C80_single_layer_in_2D_is_relatively_accurate_refuted : exists x n y, apart 2 x y /\
  fpoint_kernel (F := unlimited_double) 2 dirichlet_matrix x n y = 0 /\ point_kernel 2 dirichlet_matrix x n y <> 0.
Proof.
  exists (fun k => match k with 0%nat => 1 | 1%nat => bpow radix2 (-40) | _ => 0 end), (fun _ => 0), (fun _ => 0).
  assert (Pp := PI_RGT_0). split; [left; lra|]. split.
  - unfold fpoint_kernel, fkernel_d, fnorm, fsquare, fdifference. cbv zeta. cbn [Nat.eqb unlimited_double f_arith aadd amul adiv api fsub fsqrt flog].
    rewrite !Rminus_0_r, flx_one, flx_bpow, Rmult_1_r, flx_one, <- bpow_plus, flx_bpow. change (-40 + -40)%Z with (-80)%Z. rewrite flx_near_one by lia.
    rewrite sqrt_1, flx_one, ln_1, flx_zero. unfold Rdiv. rewrite Ropp_0, Rmult_0_l. exact flx_zero.
  - unfold point_kernel, kernel_s. cbn [Nat.eqb]. unfold ModelKernel.kernels2_d. cbv zeta. rewrite exact_norm2. unfold dist2. cbn [Nat.eqb].
    set (e := bpow radix2 (-40)). assert (Pe : 0 < e) by apply bpow_gt_0. replace ((1 - 0) ^ 2 + (e - 0) ^ 2 + 0) with (1 + e * e) by ring.
    assert (P1 : 0 < e * e) by (apply Rmult_lt_0_compat; auto). assert (S1 : 1 < sqrt (1 + e * e)) by (rewrite <- sqrt_1 at 1; apply sqrt_lt_1; lra).
    assert (L : 0 < ln (sqrt (1 + e * e))) by (rewrite <- ln_1; apply ln_increasing; lra).
    assert (I2 : 0 < / (2 * PI)) by (apply Rinv_0_lt_compat; lra). unfold Rdiv. intros E. apply Rmult_integral in E. lra.
Qed.
(** an example: two cells, four nodes on the x axis, points away from them *)
Definition ex_P : regular_points := {| rp_at := fun q k => match k with 1%nat => 1 | _ => 0 end; rp_normal := fun _ k => match k with 1%nat => 1 | _ => 0 end; rp_shape := fun _ _ => 1; rp_jxw := fun _ => 1 |}.
Definition ex_S : singular_points := {| sp_n := fun _ => 1%nat; sp_at := fun _ _ _ k => match k with 0%nat => 0 | _ => 1 end; sp_normal := fun _ _ _ k => match k with 1%nat => 1 | _ => 0 end; sp_shape := fun _ _ _ => 1; sp_jxw := fun _ _ _ => 1 |}.
Definition ex_node (i k : nat) : R := match k with 0%nat => INR i | _ => 0 end.
Definition ex_I : oin := {| o_N := 1; o_max := 1; o_nd := 4; o_pos := fun _ => mkpt 0%Q 0%Q 0%Q; o_nc := 2; o_nqc := 1; o_qpos := fun _ => mkpt 0%Q 0%Q 0%Q;
  o_dbl := fun d => [d]; o_cdofs := fun c => match c with 0%nat => [0%nat; 1%nat] | _ => [2%nat; 3%nat] end; o_rnd := fun x => x; o_old := fun _ => [] |}.
Example C80_nonvacuous : relative (bpow radix2 (-53)) unlimited_double /\ (o_nqc ex_I <= 1)%nat /\ (forall idx, (sp_n ex_S idx <= 1)%nat) /\ points_apart 2 ex_I ex_node ex_P ex_S /\ points_apart 3 ex_I ex_node ex_P ex_S /\
  (forall d, (d < o_nd ex_I)%nat -> (occurrences ex_I d <= 1)%nat) /\ 0 < size_entry 3 dirichlet_matrix ex_I ex_node ex_P ex_S (fun _ => true) 0 2 /\ 0 < size_entry 2 dirichlet_matrix ex_I ex_node ex_P ex_S (fun _ => true) 0 2.
Proof.
  split; [apply flx_relative|]. split; [cbn; lia|]. split; [intros; cbn; lia|].
  assert (PA : forall dim, points_apart dim ex_I ex_node ex_P ex_S).
  { intros dim. split; [intros i c q _ _ _ _|intros i c idx q _ _ _ _]; right; left; cbn; lra. }
  split; [apply PA|]. split; [apply PA|]. split; [intros d Hd; cbn in Hd; destruct d as [|[|[|[|d]]]]; [cbn; lia..|lia]|].
  assert (E : forall K S, @entry exact_arith (@assemble_adds exact_arith ex_I K S (fun _ => true)) 0 2 = 0 + @local_row exact_arith ex_I K S 0 1 0).
  { intros K S. rewrite entry_rows by (cbn; auto with arith). reflexivity. }
  assert (Pp := PI_RGT_0). unfold size_entry. rewrite !E. split.
  - change (@local_row exact_arith ex_I (size_kern 3 dirichlet_matrix ex_node ex_P) (size_rule 3 dirichlet_matrix ex_node ex_S) 0 1 0) with (0 + size_kernel 3 dirichlet_matrix (rp_at ex_P 1) (rp_normal ex_P 1) (ex_node 0) * Rabs 1 * Rabs 1).
    rewrite Rabs_R1. unfold size_kernel. cbv zeta. cbn [Nat.eqb ex_P rp_at ex_node INR]. replace ((0 - 0) ^ 2 + (1 - 0) ^ 2 + (0 - 0) ^ 2) with 1 by ring. rewrite sqrt_1.
    assert (0 < / (4 * PI * 1)) by (apply Rinv_0_lt_compat; lra). lra.
  - change (@local_row exact_arith ex_I (size_kern 2 dirichlet_matrix ex_node ex_P) (size_rule 2 dirichlet_matrix ex_node ex_S) 0 1 0) with (0 + size_kernel 2 dirichlet_matrix (rp_at ex_P 1) (rp_normal ex_P 1) (ex_node 0) * Rabs 1 * Rabs 1).
    rewrite Rabs_R1. unfold size_kernel. cbv zeta. cbn [Nat.eqb ex_P rp_at ex_node INR]. replace ((0 - 0) ^ 2 + (1 - 0) ^ 2) with 1 by ring. rewrite sqrt_1, ln_1, Rabs_R0.
    assert (0 < / (2 * PI)) by (apply Rinv_0_lt_compat; lra). unfold Rdiv. lra.
Qed.
