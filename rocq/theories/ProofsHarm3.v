(** * Harmonics at a point of space, and the code's spherical coordinates. *)
From Coq Require Import ZArith List Reals Lia Lra Bool.
From Coquelicot Require Import Coquelicot.
From Verif Require Import ModelLegendre ModelLegApi ModelExp SpecLegendre ProofsLegendre ProofsLegCheck PropLegendre ProofsHarm ProofsHarm2.
Import ListNotations.
Local Open Scope R_scope.

(** ** atan2 *)
Lemma atan2_polar x y : x = sqrt (x * x + y * y) * cos (atan2 y x) /\ y = sqrt (x * x + y * y) * sin (atan2 y x).
Proof.
  assert (K : forall x y, x <> 0 -> sqrt (x * x + y * y) = Rabs x * sqrt (1 + (y / x) ^ 2)).
  { clear. intros x y Hx. replace (x * x + y * y) with (x * x * (1 + (y / x) ^ 2)) by (field; auto).
    rewrite sqrt_mult_alt by apply Rle_0_sqr. f_equal. apply (sqrt_Rsqr_abs x). }
  assert (S0 : forall t, 0 < sqrt (1 + t ^ 2)). { intros t. apply sqrt_lt_R0. assert (0 <= t ^ 2) by apply pow2_ge_0. lra. }
  unfold atan2. destruct (Rlt_dec 0 x) as [Hx|Hx].
  - rewrite K by lra. rewrite Rabs_pos_eq by lra. rewrite cos_atan, sin_atan. assert (Q := S0 (y / x)). unfold Rsqr in *.
    replace (y / x * (y / x)) with ((y / x) ^ 2) by ring. split; field; repeat split; lra.
  - destruct (Rlt_dec x 0) as [Hx'|Hx'].
    + rewrite K by lra. rewrite (Rabs_left x) by lra. assert (Q := S0 (y / x)).
      assert (C : forall t, cos (t + PI) = - cos t /\ sin (t + PI) = - sin t) by (intros t; split; [apply neg_cos|apply neg_sin]).
      assert (D : forall t, cos (t - PI) = - cos t /\ sin (t - PI) = - sin t).
      { intros t. destruct (C (t - PI)) as [C1 C2]. replace (t - PI + PI) with t in * by ring. lra. }
      destruct (Rle_dec 0 y); [destruct (C (atan (y / x))) as [-> ->]|destruct (D (atan (y / x))) as [-> ->]];
        rewrite cos_atan, sin_atan; unfold Rsqr in *; replace (y / x * (y / x)) with ((y / x) ^ 2) by ring; split; field; repeat split; lra.
    + assert (x = 0) by lra. subst x. replace (0 * 0 + y * y) with (y * y) by ring. rewrite (sqrt_Rsqr_abs y : sqrt (y * y) = Rabs y).
      destruct (Rlt_dec 0 y).
      * rewrite cos_PI2, sin_PI2, Rabs_pos_eq by lra. lra.
      * destruct (Rlt_dec y 0).
        -- rewrite cos_neg, sin_neg, cos_PI2, sin_PI2, Rabs_left by lra. lra.
        -- assert (y = 0) by lra. subst. rewrite Rabs_R0. lra.
Qed.

(** ** cis *)
Lemma cis_add a b : cis (a + b) = (cis a * cis b)%C.
Proof. unfold cis, Cmult. cbn [fst snd]. rewrite cos_plus, sin_plus. f_equal; ring. Qed.
Lemma cis_0 : cis 0 = 1%C.
Proof. unfold cis. rewrite cos_0, sin_0. reflexivity. Qed.
Lemma cis_conj a : Cconj (cis a) = cis (- a).
Proof. unfold cis, Cconj. cbn [fst snd]. rewrite cos_neg, sin_neg. reflexivity. Qed.

(** ** Harmonics at a point *)
Definition padd3 (a b : pt) : pt := Pt (cx a + cx b) (cy a + cy b) (cz a + cz b).
Definition pneg (a : pt) : pt := Pt (- cx a) (- cy a) (- cz a).
Definition uP (d : pt) : C := (cx d / 2, cy d / 2).
Definition wP (d : pt) : C := (- cx d / 2, cy d / 2).
Definition zP (d : pt) : C := RtoC (cz d).
Definition H (d : pt) (n : nat) (m : Z) : C := T (uP d) (zP d) (wP d) n m.
Lemma Ceq (a b : C) : fst a = fst b -> snd a = snd b -> a = b.
Proof. destruct a, b; simpl; intros; subst; reflexivity. Qed.
Lemma H_add d d' n m :
  H (padd3 d d') n m = csum (seq 0 (n + 1)) (fun k => csum (sym_range k) (fun l => (H d k l * H d' (n - k) (m - l))%C)).
Proof.
  unfold H. replace (uP (padd3 d d')) with (uP d + uP d')%C. 2: { apply Ceq; unfold uP, padd3; simpl; lra. }
  replace (zP (padd3 d d')) with (zP d + zP d')%C. 2: { unfold zP, padd3; simpl. rewrite RtoC_plus. reflexivity. }
  replace (wP (padd3 d d')) with (wP d + wP d')%C. 2: { apply Ceq; unfold wP, padd3; simpl; lra. }
  rewrite T_add. reflexivity.
Qed.
Lemma H_support d n m : (Z.of_nat n < Z.abs m)%Z -> H d n m = 0%C.
Proof. apply T_support. Qed.
Lemma cpow_m1 n : cpow (RtoC (-1)) n = RtoC ((-1) ^ n).
Proof. induction n as [|n IH]; [reflexivity|]. cbn [cpow pow]. rewrite IH, RtoC_mult. reflexivity. Qed.
Lemma H_neg d n m : H (pneg d) n m = (RtoC ((-1) ^ n) * H d n m)%C.
Proof.
  unfold H. rewrite <- cpow_m1, <- T_scale. f_equal; apply Ceq; unfold uP, wP, zP, pneg, Cmult, RtoC; simpl; lra.
Qed.
Lemma T_flip (u z w : C) n m : T (Copp u) z (Copp w) n m = (RtoC (sgz m) * T u z w n m)%C.
Proof.
  revert m. induction n as [|n IH]; intros m; cbn [T].
  - destruct (Z.eqb_spec m 0) as [->|]; [|ring]. unfold sgz. simpl. ring.
  - rewrite !IH. destruct (sgz_step m) as [-> ->]. rewrite RtoC_opp. field. apply nC_nz.
Qed.
Lemma H_conj d n m : Cconj (H d n m) = (RtoC (sgz m) * H d n (- m))%C.
Proof.
  unfold H. rewrite T_conj, T_swap, <- T_flip. f_equal; apply Ceq; unfold uP, wP, zP, Cconj, Copp, RtoC; simpl; lra.
Qed.

(** ** Spherical coordinates *)
Definition rho_ (d : pt) : R := sqrt (square d).
Definition cos_ (d : pt) : R := cz d / rho_ d.
Definition sin_ (d : pt) : R := sqrt (1 - cos_ d * cos_ d).
Definition beta_ (d : pt) : R := atan2 (cy d) (cx d).
Lemma spher_some d : rho_ d <> 0 -> spher d = Some (rho_ d, cos_ d, beta_ d).
Proof. intros N. unfold spher, rdiv. fold (rho_ d). destruct (Req_EM_T (rho_ d) 0); [contradiction|]. reflexivity. Qed.
Lemma spher_none d : rho_ d = 0 -> spher d = None.
Proof. intros N. unfold spher, rdiv. fold (rho_ d). destruct (Req_EM_T (rho_ d) 0); [reflexivity|contradiction]. Qed.
Lemma square_nonneg d : 0 <= square d.
Proof. unfold square. assert (A := Rle_0_sqr (cx d)). assert (B := Rle_0_sqr (cy d)). assert (C := Rle_0_sqr (cz d)). unfold Rsqr in *. lra. Qed.
Lemma rho_sq d : rho_ d * rho_ d = square d.
Proof. apply sqrt_sqrt, square_nonneg. Qed.
Lemma rho_pos d : rho_ d <> 0 -> 0 < rho_ d.
Proof. intros N. assert (P := sqrt_pos (square d)). fold (rho_ d) in P. lra. Qed.
Lemma cos_range d : rho_ d <> 0 -> -1 <= cos_ d <= 1.
Proof.
  intros N. assert (P := rho_pos d N). assert (Q : cos_ d * cos_ d <= 1).
  { unfold cos_. apply (Rmult_le_reg_r (rho_ d * rho_ d)); [apply Rmult_lt_0_compat; auto|].
    replace (cz d / rho_ d * (cz d / rho_ d) * (rho_ d * rho_ d)) with (cz d * cz d) by (field; auto). rewrite rho_sq. unfold square.
    assert (A := Rle_0_sqr (cx d)). assert (B := Rle_0_sqr (cy d)). unfold Rsqr in *. lra. }
  split; apply Rnot_lt_le; intros L.
  - assert (1 < cos_ d * cos_ d); [|lra]. replace (cos_ d * cos_ d) with ((- cos_ d) * (- cos_ d)) by ring. rewrite <- (Rmult_1_l 1). apply Rmult_le_0_lt_compat; lra.
  - assert (1 < cos_ d * cos_ d); [|lra]. rewrite <- (Rmult_1_l 1). apply Rmult_le_0_lt_compat; lra.
Qed.
Lemma sin_sq d : rho_ d <> 0 -> sin_ d * sin_ d = 1 - cos_ d * cos_ d.
Proof. intros N. apply sqrt_sqrt, w_nonneg, cos_range, N. Qed.
Lemma polar d : rho_ d <> 0 ->
  cx d = rho_ d * sin_ d * cos (beta_ d) /\ cy d = rho_ d * sin_ d * sin (beta_ d) /\ cz d = rho_ d * cos_ d.
Proof.
  intros N. assert (P := rho_pos d N).
  assert (E : rho_ d * sin_ d = sqrt (cx d * cx d + cy d * cy d)).
  { symmetry. apply sqrt_lem_1.
    - assert (A := Rle_0_sqr (cx d)). assert (B := Rle_0_sqr (cy d)). unfold Rsqr in *. lra.
    - apply Rmult_le_pos; [lra|apply sqrt_pos].
    - transitivity (rho_ d * rho_ d * (sin_ d * sin_ d)); [ring|]. rewrite sin_sq by auto.
      replace (rho_ d * rho_ d * (1 - cos_ d * cos_ d)) with (rho_ d * rho_ d - cz d * cz d) by (unfold cos_; field; auto).
      rewrite rho_sq. unfold square. ring. }
  rewrite E. destruct (atan2_polar (cx d) (cy d)) as [A B]. split; [|split]; auto. unfold cos_. field. auto.
Qed.
Lemma H_spher d n m : rho_ d <> 0 -> H d n m = (RtoC (rho_ d ^ n * tt (cos_ d) (sin_ d) n m) * cis (IZR m * beta_ d))%C.
Proof.
  intros N. destruct (polar d N) as (X & Y & Z). unfold H.
  assert (U : uP d = (RtoC (rho_ d * (sin_ d / 2)) * cis (beta_ d))%C).
  { apply Ceq; unfold uP, cis, Cmult, RtoC; simpl; [rewrite X at 1|rewrite Y at 1]; field. }
  assert (V : wP d = (RtoC (- (rho_ d * (sin_ d / 2))) * cis (- beta_ d))%C).
  { apply Ceq; unfold wP, cis, Cmult, RtoC; simpl; rewrite ?cos_neg, ?sin_neg; [rewrite X at 1|rewrite Y at 1]; field. }
  assert (Wz : zP d = RtoC (rho_ d * cos_ d)) by (unfold zP; rewrite <- Z; reflexivity).
  rewrite U, V, Wz. clear U V Wz X Y Z. revert m. induction n as [|n IH]; intros m; cbn [T tt pow].
  - destruct (Z.eqb_spec m 0) as [->|]; [rewrite Rmult_0_l, cis_0, Rmult_1_r; ring|rewrite Rmult_0_r; ring].
  - rewrite !IH.
    replace (cis (IZR (m - 1) * beta_ d)) with (cis (IZR m * beta_ d) * cis (- beta_ d))%C by (rewrite <- cis_add, minus_IZR; f_equal; ring).
    replace (cis (IZR (m + 1) * beta_ d)) with (cis (IZR m * beta_ d) * cis (beta_ d))%C by (rewrite <- cis_add, plus_IZR; f_equal; ring).
    assert (I : (cis (beta_ d) * cis (- beta_ d) = 1)%C) by (rewrite <- cis_add, Rplus_opp_r; apply cis_0).
    set (a := tt (cos_ d) (sin_ d) n (m - 1)). set (b := tt (cos_ d) (sin_ d) n m). set (e := tt (cos_ d) (sin_ d) n (m + 1)).
    transitivity ((RtoC (rho_ d ^ n * a * (rho_ d * (sin_ d / 2))) * (cis (beta_ d) * cis (- beta_ d)) + RtoC (rho_ d ^ n * b * (rho_ d * cos_ d)) + RtoC (- (rho_ d ^ n * e * (rho_ d * (sin_ d / 2)))) * (cis (beta_ d) * cis (- beta_ d))) * cis (IZR m * beta_ d) / nC (S n))%C.
    { rewrite !RtoC_mult, !RtoC_opp, !RtoC_mult. field. apply nC_nz. }
    rewrite I, !Cmult_1_r, <- !RtoC_plus. unfold nC. unfold Cdiv. rewrite <- RtoC_inv by (apply not_0_INR; lia).
    rewrite (Cmult_comm (Cmult _ _)), Cmult_assoc, <- RtoC_mult. f_equal. f_equal. field. apply not_0_INR. lia.
Qed.

(** ** The code's A_n^m and normalised harmonics *)
Definition aa (n m : nat) : R := (-1) ^ n / sqrt (INR (fact (n - m)) * INR (fact (n + m))).
Lemma down_product_ok f k : down_product f k = f * INR (fact k).
Proof.
  revert f. induction k as [|k IH]; intros f; [simpl; ring|]. cbn [down_product]. rewrite IH, factS. ring.
Qed.
Lemma A_ok n m : (m <= n <= 20)%nat -> A_n_m n m = Some (aa n m).
Proof.
  intros L. unfold A_n_m, aa. destruct (Nat.ltb_spec n 21); [|lia]. destruct (Nat.ltb_spec m 21); [|lia]. destruct (Nat.leb_spec m n); [|lia].
  cbn [andb]. rewrite !down_product_ok, !Rmult_1_l. reflexivity.
Qed.
Lemma fact_pos n : 0 < INR (fact n).
Proof. apply lt_0_INR, lt_O_fact. Qed.
Lemma m1_sq n : (-1) ^ n * (-1) ^ n = 1.
Proof. rewrite <- Rpow_mult_distr. replace (-1 * -1) with 1 by ring. apply pow1. Qed.
Lemma m1_nz n : (-1) ^ n <> 0. Proof. apply pow_nonzero. lra. Qed.
Lemma aa_nz n m : aa n m <> 0.
Proof.
  unfold aa. apply Rmult_integral_contrapositive. split; [apply m1_nz|]. apply Rinv_neq_0_compat.
  assert (0 < sqrt (INR (fact (n - m)) * INR (fact (n + m)))); [|lra]. apply sqrt_lt_R0. apply Rmult_lt_0_compat; apply fact_pos.
Qed.
(** sigma j = (-1)^j for j >= 0 and 1 for j < 0 *)
Definition sigma (j : Z) : R := if Z.leb 0 j then sgz j else 1.
Lemma sgz_sq j : sgz j * sgz j = 1. Proof. apply m1_sq. Qed.
Lemma sigma_sq j : sigma j * sigma j = 1.
Proof. unfold sigma. destruct (Z.leb 0 j); [apply sgz_sq|ring]. Qed.
Lemma sigma_neg m : sigma (- Z.of_nat m) = 1.
Proof. unfold sigma. destruct (Z.leb_spec 0 (- Z.of_nat m)); [|reflexivity]. assert (m = 0)%nat by lia. subst. reflexivity. Qed.
Lemma aa_Plm n m c : -1 <= c <= 1 -> aa n m * Plm n m c = (-1) ^ n * (-1) ^ m * tt c (sqrt (1 - c * c)) n (Z.of_nat m).
Proof.
  intros R. assert (W := w_nonneg c R). rewrite tt_rod by (apply sqrt_sqrt; auto). unfold Plm. rewrite rod_ok.
  replace (1 - c ^ 2) with (1 - c * c) by ring.
  set (f1 := INR (fact (n - m))). set (f2 := INR (fact (n + m))). assert (F1 : 0 < f1) by apply fact_pos. assert (F2 : 0 < f2) by apply fact_pos.
  assert (Q : sqrt (f1 / f2) = sqrt (f1 * f2) / f2).
  { apply sqrt_lem_1; [apply Rlt_le, Rdiv_lt_0_compat; auto| |].
    - apply Rmult_le_pos; [apply sqrt_pos|apply Rlt_le, Rinv_0_lt_compat; auto].
    - transitivity (sqrt (f1 * f2) * sqrt (f1 * f2) / (f2 * f2)); [field; lra|]. rewrite sqrt_sqrt; [field; lra|]. apply Rlt_le, Rmult_lt_0_compat; auto. }
  rewrite Q. unfold aa. fold f1 f2. assert (S : 0 < sqrt (f1 * f2)) by (apply sqrt_lt_R0, Rmult_lt_0_compat; auto).
  assert (P2 : 2 ^ n <> 0) by (apply pow_nonzero; lra). assert (F3 := fact_nz n). field. repeat split; auto; lra.
Qed.
Lemma aa_H d n (m : Z) : rho_ d <> 0 ->
  (RtoC (aa n (absn m) * (Plm n (absn m) (cos_ d) * rho_ d ^ n)) * cis (IZR m * beta_ d) = RtoC ((-1) ^ n * sigma m) * H d n m)%C.
Proof.
  intros N. rewrite H_spher by auto. rewrite Cmult_assoc, <- RtoC_mult. f_equal. f_equal.
  transitivity (aa n (absn m) * Plm n (absn m) (cos_ d) * rho_ d ^ n); [ring|]. rewrite aa_Plm by (apply cos_range; auto). fold (sin_ d).
  unfold absn. destruct (Z.leb_spec 0 m).
  - replace (Z.of_nat (Z.abs_nat m)) with m by lia. unfold sigma. destruct (Z.leb_spec 0 m); [|lia]. unfold sgz. ring.
  - replace (Z.of_nat (Z.abs_nat m)) with (- m)%Z by lia. rewrite tt_sym. unfold sigma. destruct (Z.leb_spec 0 m); [lia|].
    transitivity ((-1) ^ n * (sgz m * sgz m) * tt (cos_ d) (sin_ d) n m * rho_ d ^ n); [unfold sgz; ring|]. rewrite sgz_sq. ring.
Qed.
(** cos(k pi/2) for the even exponents of the code *)
Lemma re_pow_i_even k : re_pow_i (2 * k) = sgz k.
Proof.
  assert (K : forall n : nat, cos (INR n * PI) = (-1) ^ n).
  { induction n as [|n IH]; [simpl; rewrite Rmult_0_l; apply cos_0|]. rewrite S_INR. replace ((INR n + 1) * PI) with (INR n * PI + PI) by ring. rewrite neg_cos, IH. simpl. ring. }
  unfold re_pow_i, sgz. rewrite mult_IZR. replace (2 * IZR k * (PI / 2)) with (IZR k * PI) by field.
  destruct (Z.leb_spec 0 k).
  - replace k with (Z.of_nat (Z.abs_nat k)) at 1 by lia. rewrite <- INR_IZR_INZ. apply K.
  - replace k with (- Z.of_nat (Z.abs_nat k))%Z at 1 by lia. rewrite opp_IZR, Ropp_mult_distr_l_reverse, cos_neg, <- INR_IZR_INZ. apply K.
Qed.
Lemma sgz_add a b : sgz (a + b) = sgz a * sgz b.
Proof.
  assert (K : forall z, sgz z = if Z.even z then 1 else -1).
  { intros z. unfold sgz. rewrite <- sgn_pow. unfold sgn. replace (Nat.even (Z.abs_nat z)) with (Z.even z); [destruct (Z.even z); reflexivity|].
    assert (A : Z.even z = Z.even (Z.abs z)) by (destruct z; reflexivity). rewrite A, <- (Zabs2Nat.id_abs z).
    generalize (Z.abs_nat z). clear. intros n. destruct (Nat.even n) eqn:E.
    - apply Nat.even_spec in E as [k ->]. rewrite Nat2Z.inj_mul. apply Z.even_mul.
    - assert (O : Nat.odd n = true) by (unfold Nat.odd; rewrite E; reflexivity). apply Nat.odd_spec in O as [k ->]. rewrite Nat2Z.inj_add, Nat2Z.inj_mul, Z.even_add, Z.even_mul. reflexivity. }
  rewrite !K, Z.even_add. destruct (Z.even a), (Z.even b); simpl; ring.
Qed.
Lemma sgz_neg a : sgz (- a) = sgz a. Proof. unfold sgz. f_equal. lia. Qed.
Lemma sigma_add a b : re_pow_i (Z.abs (a + b) - Z.abs a - Z.abs b) * (sigma a * sigma b) = sigma (a + b).
Proof.
  unfold sigma. destruct (Z.leb_spec 0 a), (Z.leb_spec 0 b), (Z.leb_spec 0 (a + b)); try lia.
  - replace (Z.abs (a + b) - Z.abs a - Z.abs b)%Z with (2 * 0)%Z by lia. rewrite re_pow_i_even, sgz_add. unfold sgz at 1. simpl. ring.
  - replace (Z.abs (a + b) - Z.abs a - Z.abs b)%Z with (2 * b)%Z by lia. rewrite re_pow_i_even, sgz_add. ring.
  - replace (Z.abs (a + b) - Z.abs a - Z.abs b)%Z with (2 * - a)%Z by lia. rewrite re_pow_i_even, sgz_neg, Rmult_1_r. apply sgz_sq.
  - replace (Z.abs (a + b) - Z.abs a - Z.abs b)%Z with (2 * a)%Z by lia. rewrite re_pow_i_even, sgz_add. ring.
  - replace (Z.abs (a + b) - Z.abs a - Z.abs b)%Z with (2 * - b)%Z by lia. rewrite re_pow_i_even, sgz_neg. rewrite Rmult_1_l. apply sgz_sq.
  - replace (Z.abs (a + b) - Z.abs a - Z.abs b)%Z with (2 * 0)%Z by lia. rewrite re_pow_i_even. unfold sgz. simpl. ring.
Qed.
