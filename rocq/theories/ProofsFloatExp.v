(** The expansions in double precision. *)
From Coq Require Import ZArith Reals List Lia Lra Bool.
From Flocq Require Import Core.
From Verif Require Import ModelLegendre ModelLegTable ModelLegApi ModelFmm ModelFloat SpecFloat ProofsFloat LibFlx ModelFloatExp SpecFloatExp.
From Verif Require ModelExp.
Import ListNotations.
Local Open Scope R_scope.
Import ModelExp(pt(..), cx, cy, cz, tri, nm_pairs).

Section Double.
  Variable M : fmath.
  Hypothesis HM : double_math M.
  Let ops : fm_ops M = unlimited_double := proj1 HM.
  Lemma e_add x y : @aadd (@f_arith (fm_ops M)) x y = flx (x + y). Proof. rewrite ops. reflexivity. Qed.
  Lemma e_mul x y : @amul (@f_arith (fm_ops M)) x y = flx (x * y). Proof. rewrite ops. reflexivity. Qed.
  Lemma e_div x y : @adiv (@f_arith (fm_ops M)) x y = flx (x / y). Proof. rewrite ops. reflexivity. Qed.
  Lemma e_sub x y : @fsub (fm_ops M) x y = flx (x - y). Proof. rewrite ops. reflexivity. Qed.
  Lemma e_sqrt x : @fsqrt (fm_ops M) x = flx (sqrt x). Proof. rewrite ops. reflexivity. Qed.
  Lemma fdiv_some a b : b <> 0 -> fdiv M a b = Some (flx (a / b)).
  Proof. intros N. unfold fdiv. destruct (Req_EM_T b 0); [lra|]. rewrite e_div. reflexivity. Qed.
  Lemma froot_some a : 0 <= a -> froot M a = Some (flx (sqrt a)).
  Proof. intros P. unfold froot. destruct (Rlt_dec a 0); [lra|]. rewrite e_sqrt. reflexivity. Qed.

  (** ** Directions *)
  Notation uu := (/ 9007199254740992).
  Definition sq3 (d : pt) : R := flx (flx (flx (cx d * cx d) + flx (cy d * cy d)) + flx (cz d * cz d)).
  Lemma sq_nn x : 0 <= x * x. Proof. change (0 <= Rsqr x). apply Rle_0_sqr. Qed.
  Lemma fsq x : 0 <= flx (x * x). Proof. apply flx_nonneg, sq_nn. Qed.
  Lemma sqrt_sq_abs z : double z -> flx (sqrt (flx (z * z))) = Rabs z.
  Proof.
    intros D. destruct (Rtotal_order z 0) as [L|[L|L]].
    - rewrite Rabs_left by auto. replace (z * z) with (- z * - z) by ring. apply sqrt_of_square; [apply double_opp, D|lra].
    - subst z. rewrite Rmult_0_l, flx_0, sqrt_0, flx_0, Rabs_R0. reflexivity.
    - rewrite Rabs_pos_eq by lra. apply sqrt_of_square; auto.
  Qed.
  Lemma sq3_ge d : flx (cz d * cz d) <= sq3 d.
  Proof.
    rewrite <- (flx_id (flx (cz d * cz d)) (flx_double _)) at 1. apply flx_le.
    assert (A := flx_nonneg _ (Rplus_le_le_0_compat _ _ (fsq (cx d)) (fsq (cy d)))). lra.
  Qed.
  Lemma sq3_lower d : (cx d ^ 2 + cy d ^ 2 + cz d ^ 2) * (1 - uu) ^ 3 <= sq3 d.
  Proof.
    assert (X := flx_bounds _ (sq_nn (cx d))). assert (Y := flx_bounds _ (sq_nn (cy d))). assert (Z := flx_bounds _ (sq_nn (cz d))).
    assert (A := flx_bounds _ (Rplus_le_le_0_compat _ _ (fsq (cx d)) (fsq (cy d)))).
    assert (A0 := flx_nonneg _ (Rplus_le_le_0_compat _ _ (fsq (cx d)) (fsq (cy d)))).
    assert (B := flx_bounds _ (Rplus_le_le_0_compat _ _ A0 (fsq (cz d)))). fold (sq3 d) in B.
    assert (X0 := sq_nn (cx d)). assert (Y0 := sq_nn (cy d)). assert (Z0 := sq_nn (cz d)). lra.
  Qed.
  Lemma nonzero_sq d : nonzero d -> 0 < cx d ^ 2 + cy d ^ 2 + cz d ^ 2.
  Proof.
    intros N. assert (X := sq_nn (cx d)). assert (Y := sq_nn (cy d)). assert (Z := sq_nn (cz d)).
    destruct (Req_dec (cx d) 0) as [E1|E1]; [|assert (P := Rsqr_pos_lt _ E1); unfold Rsqr in P; nra].
    destruct (Req_dec (cy d) 0) as [E2|E2]; [|assert (P := Rsqr_pos_lt _ E2); unfold Rsqr in P; nra].
    destruct (Req_dec (cz d) 0) as [E3|E3]; [|assert (P := Rsqr_pos_lt _ E3); unfold Rsqr in P; nra].
    exfalso. apply N. destruct d. cbn in *. subst. reflexivity.
  Qed.
  Lemma sq3_pos d : nonzero d -> 0 < sq3 d.
  Proof. intros N. assert (P := nonzero_sq d N). assert (L := sq3_lower d). assert (0 < (1 - uu) ^ 3) by (apply pow_lt; lra). nra. Qed.
  Lemma fsquare3_eq d : fsquare3 M d = sq3 d.
  Proof. unfold fsquare3, sq3. rewrite !e_add, !e_mul. reflexivity. Qed.
  Lemma frho_eq d : nonzero d -> frho M d = Some (flx (sqrt (sq3 d))).
  Proof. intros N. unfold frho. rewrite fsquare3_eq. apply froot_some. left. apply sq3_pos, N. Qed.
  Lemma rho_pos d : nonzero d -> 0 < flx (sqrt (sq3 d)).
  Proof. intros N. apply flx_pos, sqrt_lt_R0, sq3_pos, N. Qed.
  Lemma rho_ge d : double (cz d) -> Rabs (cz d) <= flx (sqrt (sq3 d)).
  Proof. intros D. rewrite <- (sqrt_sq_abs (cz d) D). apply flx_le, sqrt_le_1_alt, sq3_ge. Qed.
  Definition cosd (d : pt) : R := flx (cz d / flx (sqrt (sq3 d))).
  Lemma cos_eq d : nonzero d -> forall c, computed_cosine M d c <-> c = cosd d.
  Proof.
    intros N c. unfold computed_cosine. rewrite (frho_eq d N). assert (P := rho_pos d N). split.
    - intros (rho & E & F). injection E as <-. rewrite fdiv_some in F by lra. injection F as <-. reflexivity.
    - intros ->. eexists. split; [reflexivity|]. apply fdiv_some. lra.
  Qed.
  Lemma cos_range d : nonzero d -> double (cz d) -> -1 <= cosd d <= 1.
  Proof.
    intros N D. assert (P := rho_pos d N). assert (G := rho_ge d D). set (rho := flx (sqrt (sq3 d))) in *.
    assert (B : -1 <= cz d / rho <= 1).
    { assert (A := Rabs_le_inv _ _ G). split; apply Rmult_le_reg_r with rho; auto; unfold Rdiv; rewrite Rmult_assoc, Rinv_l by lra; lra. }
    unfold cosd. fold rho. split.
    - rewrite <- flx_m1. apply flx_le. apply B.
    - rewrite <- flx_1. apply flx_le. apply B.
  Qed.
  Lemma cos_near d : double (cz d) -> cz d <> 0 -> 36028797018963968 * axis2 d <= height2 d -> cosd d = 1 \/ cosd d = -1.
  Proof.
    intros D N C. unfold axis2, height2 in C.
    assert (X := flx_bounds _ (sq_nn (cx d))). assert (Y := flx_bounds _ (sq_nn (cy d))). assert (Z := flx_bounds _ (sq_nn (cz d))).
    assert (A := flx_bounds _ (Rplus_le_le_0_compat _ _ (fsq (cx d)) (fsq (cy d)))).
    assert (X0 := sq_nn (cx d)). assert (Y0 := sq_nn (cy d)).
    assert (Z0 : 0 < cz d * cz d) by (assert (P := Rsqr_pos_lt _ N); exact P).
    assert (S : sq3 d = flx (cz d * cz d)).
    { unfold sq3. apply flx_absorb; [apply flx_double|apply flx_pos; exact Z0|apply flx_nonneg; assert (F := fsq (cx d)); assert (G := fsq (cy d)); lra|]. lra. }
    unfold cosd. rewrite S, (sqrt_sq_abs _ D). destruct (Rle_or_lt 0 (cz d)) as [P|P].
    - left. rewrite Rabs_pos_eq by auto. unfold Rdiv. rewrite Rinv_r by auto. apply flx_1.
    - right. rewrite Rabs_left by auto. replace (cz d / - cz d) with (-1) by (field; auto). apply flx_m1.
  Qed.
  Lemma cos_off d : nonzero d -> height2 d <= 1125899906842624 * axis2 d -> -1 < cosd d < 1.
  Proof.
    intros N C. unfold axis2, height2 in C. assert (P := rho_pos d N). assert (S := sq3_lower d). assert (S0 := sq3_pos d N).
    assert (Rb := flx_bounds _ (sqrt_pos (sq3 d))). set (rho := flx (sqrt (sq3 d))) in *.
    assert (Q : (1 - uu) * sqrt (sq3 d) <= rho) by lra.
    assert (R2 : (1 - uu) ^ 5 * (cx d ^ 2 + cy d ^ 2 + cz d ^ 2) <= rho * rho).
    { assert (T : ((1 - uu) * sqrt (sq3 d)) * ((1 - uu) * sqrt (sq3 d)) <= rho * rho).
      { assert (0 <= sqrt (sq3 d)) by apply sqrt_pos. apply Rmult_le_compat; nra. }
      replace ((1 - uu) * sqrt (sq3 d) * ((1 - uu) * sqrt (sq3 d))) with ((1 - uu) ^ 2 * (sqrt (sq3 d) * sqrt (sq3 d))) in T by ring.
      rewrite sqrt_sqrt in T by lra. eapply Rle_trans; [|exact T].
      replace ((1 - uu) ^ 5 * (cx d ^ 2 + cy d ^ 2 + cz d ^ 2)) with ((1 - uu) ^ 2 * ((cx d ^ 2 + cy d ^ 2 + cz d ^ 2) * (1 - uu) ^ 3)) by ring.
      apply Rmult_le_compat_l; [apply pow_le; lra|exact S]. }
    assert (K : cz d * cz d * ((1 + uu) * (1 + uu)) < rho * rho).
    { assert (Z0 := sq_nn (cz d)). assert (Pz := nonzero_sq d N).
      destruct (Req_dec (cz d) 0) as [E|E].
      - rewrite E, !Rmult_0_l. apply Rmult_lt_0_compat; auto.
      - assert (Zp : 0 < cz d * cz d) by exact (Rsqr_pos_lt _ E).
        eapply Rlt_le_trans; [|exact R2]. 
        assert (V : (1 + / 1125899906842624) * (cz d * cz d) <= cx d ^ 2 + cy d ^ 2 + cz d ^ 2) by lra.
        assert (W : (1 + uu) * (1 + uu) < (1 - uu) ^ 5 * (1 + / 1125899906842624)) by lra.
        assert (V' : (1 - uu) ^ 5 * ((1 + / 1125899906842624) * (cz d * cz d)) <= (1 - uu) ^ 5 * (cx d ^ 2 + cy d ^ 2 + cz d ^ 2)) by (apply Rmult_le_compat_l; [apply pow_le; lra|exact V]).
        assert (W' : cz d * cz d * ((1 + uu) * (1 + uu)) < cz d * cz d * ((1 - uu) ^ 5 * (1 + / 1125899906842624))) by (apply Rmult_lt_compat_l; assumption). lra. }
    assert (K' : Rabs (cz d) * (1 + uu) < rho).
    { apply Rsqr_incrst_0; [|apply Rmult_le_pos; [apply Rabs_pos|lra]|lra]. unfold Rsqr.
      replace (Rabs (cz d) * (1 + uu) * (Rabs (cz d) * (1 + uu))) with (Rabs (cz d) * Rabs (cz d) * ((1 + uu) * (1 + uu))) by ring.
      rewrite <- Rabs_mult, (Rabs_pos_eq _ (sq_nn (cz d))). exact K. }
    assert (G : Rabs (cosd d) < 1).
    { unfold cosd. fold rho. assert (E := flx_error (cz d / rho)). rewrite u53 in E.
      assert (A : Rabs (cz d / rho) * (1 + uu) < 1).
      { unfold Rdiv. rewrite Rabs_mult, Rabs_inv, (Rabs_pos_eq rho) by lra. apply Rmult_lt_reg_r with rho; auto.
        replace (Rabs (cz d) * / rho * (1 + uu) * rho) with (Rabs (cz d) * (1 + uu)) by (field; lra). lra. }
      assert (T := Rabs_triang_inv (flx (cz d / rho)) (cz d / rho)). lra. }
    apply Rabs_def2 in G. lra.
  Qed.
End Double.
