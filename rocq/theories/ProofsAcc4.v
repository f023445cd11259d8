(** * The expansion of 1/|x - y| in the kernels B_n, with its remainder. *)
From Coq Require Import ZArith List Reals Lia Lra Bool.
From Coquelicot Require Import Coquelicot.
From Verif Require Import ModelLegendre ModelLegApi ModelExp SpecLegendre ProofsLegendre ProofsLegCheck ProofsHarm ProofsHarm2 ProofsHarm3 ProofsAcc1 ProofsAcc2.
Import ListNotations.
Local Open Scope R_scope.

Lemma rsum_seq_S a n f : rsum (seq a (S n)) f = rsum (seq a n) f + f (a + n)%nat.
Proof. rewrite seq_S, rsum_app. cbn [rsum]. ring. Qed.
Lemma rsum_sum n f : rsum (seq 0 (n + 1)) f = sum_f_R0 f n.
Proof. induction n as [|n IH]; [cbn; ring|]. replace (S n + 1)%nat with (S (n + 1)) by lia. rewrite rsum_seq_S, IH, tech5. f_equal. f_equal. lia. Qed.

Lemma psp (a b : nat -> R) (t x y : R) : is_pseries a t x -> is_pseries b t y -> is_pseries (fun n => a n + b n) t (x + y).
Proof. exact (is_pseries_plus a b t x y). Qed.
Lemma pss (k : R) (a : nat -> R) (t x : R) : is_pseries a t x -> is_pseries (fun n => k * a n) t (k * x).
Proof. exact (is_pseries_scal k a t x (Rmult_comm _ _)). Qed.
(** A sequence satisfying Bonnet's recurrence is the Taylor series of (r^2 - 2 s t + q t^2)^(-1/2). *)
Section Generating.
Variables (r s q k : R) (b : nat -> R).
Hypothesis r_pos : 0 < r.
Hypothesis k_pos : 0 <= k < r.
Hypothesis q_k : q = k * k.
Hypothesis s_k : Rabs s <= r * k.
Hypothesis b_0 : b 0%nat = / r.
Hypothesis b_1 : r * r * b 1%nat = s * b 0%nat.
Hypothesis b_SS : forall n, INR (n + 2) * (r * r) * b (S (S n)) = INR (2 * n + 3) * s * b (S n) - INR (n + 1) * q * b n.
Hypothesis b_bound : forall n, Rabs (b n) <= k ^ n / r ^ (n + 1).
Definition Qp (t : R) : R := r * r - 2 * t * s + t * t * q.
Lemma Qp_pos t : 0 <= t <= 1 -> 0 < Qp t.
Proof.
  intros L. apply Rlt_le_trans with ((r - t * k) * (r - t * k)).
  - assert (t * k <= 1 * k) by (apply Rmult_le_compat_r; lra). apply Rmult_lt_0_compat; lra.
  - unfold Qp. subst q. assert (s <= r * k) by (apply Rle_trans with (1 := Rle_abs _); auto). assert (t * s <= t * (r * k)) by (apply Rmult_le_compat_l; lra). lra.
Qed.
Lemma b_radius t : Rabs t <= 1 -> Rbar_lt (Rabs t) (CV_radius b).
Proof.
  intros L. apply Rbar_lt_le_trans with (Finite (2 * r / (r + k))).
  - apply Rle_lt_trans with 1; auto. apply Rmult_lt_reg_r with (r + k); [lra|]. unfold Rdiv. rewrite Rmult_assoc, Rinv_l by lra. lra.
  - destruct (CV_radius_bounded b) as [U _]. apply U. exists (/ r). intros n. rewrite Rabs_mult.
    set (rho := 2 * r / (r + k)). assert (R0 : 0 <= rho) by (apply Rdiv_le_0_compat; lra). rewrite (Rabs_pos_eq (rho ^ n)) by (apply pow_le; auto).
    apply Rle_trans with (k ^ n / r ^ (n + 1) * rho ^ n); [apply Rmult_le_compat_r; auto; apply pow_le; auto|].
    replace (k ^ n / r ^ (n + 1) * rho ^ n) with (/ r * (k * rho / r) ^ n).
    2:{ unfold Rdiv. rewrite !Rpow_mult_distr, pow_add, pow_inv. field. split; [lra|apply pow_nonzero; lra]. }
    rewrite <- (Rmult_1_r (/ r)) at 2. apply Rmult_le_compat_l; [apply Rlt_le, Rinv_0_lt_compat; auto|].
    assert (0 <= k * rho / r <= 1).
    { split; [apply Rdiv_le_0_compat; auto; apply Rmult_le_pos; lra|]. unfold rho. replace (k * (2 * r / (r + k)) / r) with (2 * k / (r + k)) by (field; lra).
      apply Rmult_le_reg_r with (r + k); [lra|]. unfold Rdiv. rewrite Rmult_assoc, Rinv_l by lra. lra. }
    rewrite <- (pow1 n). apply pow_incr. auto.
Qed.
Lemma b_in t : Rabs t <= 1 -> ex_pseries b t.
Proof. intros L. apply CV_disk_correct, CV_disk_inside, b_radius; auto. Qed.
Lemma d_in t : Rabs t <= 1 -> ex_pseries (PS_derive b) t.
Proof. intros L. apply CV_disk_correct, CV_disk_inside. rewrite CV_radius_derive. apply b_radius; auto. Qed.
Lemma b_ode t : Rabs t <= 1 -> Qp t * PSeries (PS_derive b) t = (s - t * q) * PSeries b t.
Proof.
  intros L. assert (Ib := b_in t L). assert (Id := d_in t L).
  assert (I1 := ex_pseries_incr_1 _ _ Id : ex_pseries (PS_incr_1 (PS_derive b)) t). assert (I2 := ex_pseries_incr_1 _ _ I1 : ex_pseries (PS_incr_1 (PS_incr_1 (PS_derive b))) t).
  assert (J1 := ex_pseries_incr_1 _ _ Ib : ex_pseries (PS_incr_1 b) t).
  set (c := fun n => r * r * PS_derive b n + (- (2 * s)) * PS_incr_1 (PS_derive b) n + q * PS_incr_1 (PS_incr_1 (PS_derive b)) n + (- s) * b n + q * PS_incr_1 b n).
  assert (Z : forall n, c n = 0).
  { intros n. unfold c, PS_derive. destruct n as [|[|n]]; cbn [PS_incr_1].
    - change zero with 0. simpl INR. transitivity (r * r * b 1%nat - s * b 0%nat); [ring|rewrite b_1; ring].
    - change zero with 0. assert (E := b_SS 0%nat). simpl INR in *. cbn [Nat.add Nat.mul] in E. simpl INR in E. lra.
    - assert (E := b_SS (S n)). replace (S n + 2)%nat with (S (S (S n))) in E by lia. replace (2 * S n + 3)%nat with (S (S n) + S (S n) + 1)%nat in E by lia. replace (S n + 1)%nat with (S (S n)) in E by lia.
      rewrite !plus_INR in E. change (INR 1) with 1 in E. rewrite (S_INR (S n)) in *.
      transitivity (INR (S (S (S n))) * (r * r) * b (S (S (S n))) - ((INR (S n) + 1 + (INR (S n) + 1) + 1) * s * b (S (S n)) - (INR (S n) + 1) * q * b (S n))); [|rewrite E; ring]. ring. }
  assert (P : is_pseries c t (r * r * PSeries (PS_derive b) t + (- (2 * s)) * (t * PSeries (PS_derive b) t) + q * (t * (t * PSeries (PS_derive b) t)) + (- s) * PSeries b t + q * (t * PSeries b t))).
  { unfold c. rewrite <- !PSeries_incr_1.
    apply psp; [apply psp; [apply psp; [apply psp|]|]|]; apply pss; apply PSeries_correct; assumption. }
  assert (E0 : PSeries c t = 0). { rewrite (PSeries_ext c (fun _ => 0)) by auto. apply PSeries_const_0. }
  apply is_pseries_unique in P. rewrite E0 in P. unfold Qp. lra.
Qed.
Lemma generating : is_series b (/ sqrt (Qp 1)).
Proof.
  assert (D : forall t, 0 <= t <= 1 -> is_derive (fun t => PSeries b t * sqrt (Qp t)) t 0).
  { intros t L. assert (La : Rabs t <= 1) by (rewrite Rabs_pos_eq; lra). assert (Pq := Qp_pos t L).
    assert (D1 := is_derive_PSeries b t (b_radius t La)).
    assert (D2 : is_derive Qp t (- 2 * s + 2 * t * q)) by (unfold Qp; auto_derive; [auto|ring]).
    assert (D3 : is_derive (fun t => sqrt (Qp t)) t ((- 2 * s + 2 * t * q) / (2 * sqrt (Qp t)))) by (apply is_derive_sqrt; auto).
    assert (Sp := sqrt_lt_R0 _ Pq).
    assert (D4 := is_derive_mult _ _ _ _ _ D1 D3 Rmult_comm). eapply is_derive_ext'; [|reflexivity| exact D4] || idtac.
    replace 0 with (plus (mult (PSeries (PS_derive b) t) (sqrt (Qp t))) (mult (PSeries b t) ((- 2 * s + 2 * t * q) / (2 * sqrt (Qp t))))); [exact D4|].
    change (PSeries (PS_derive b) t * sqrt (Qp t) + PSeries b t * ((- 2 * s + 2 * t * q) / (2 * sqrt (Qp t))) = 0).
    assert (O := b_ode t La). apply (Rmult_eq_reg_r (sqrt (Qp t))); [|lra].
    transitivity (PSeries (PS_derive b) t * (sqrt (Qp t) * sqrt (Qp t)) - PSeries b t * (s - t * q)); [field; lra|]. rewrite sqrt_sqrt by lra. lra. }
  assert (E : PSeries b 0 * sqrt (Qp 0) = PSeries b 1 * sqrt (Qp 1)) by (apply (eq_is_derive (fun t => PSeries b t * sqrt (Qp t)) 0 1); [exact D|lra]).
  assert (Q0 : sqrt (Qp 0) = r) by (unfold Qp; replace (r * r - 2 * 0 * s + 0 * 0 * q) with (r * r) by ring; apply sqrt_square; lra).
  rewrite PSeries_0, Q0, b_0, Rinv_l in E by lra. assert (P1 := sqrt_lt_R0 _ (Qp_pos 1 ltac:(lra))).
  assert (V : PSeries b 1 = / sqrt (Qp 1)) by (apply (Rmult_eq_reg_r (sqrt (Qp 1))); [|lra]; rewrite Rinv_l by lra; lra).
  rewrite <- V. assert (I := PSeries_correct b 1 (b_in 1 ltac:(rewrite Rabs_R1; lra))). unfold is_pseries in I.
  eapply is_series_ext; [|exact I]. intros n. cbv beta. rewrite pow_n_pow, pow1. apply Rmult_1_l.
Qed.
End Generating.
(** the coefficients of the expansion about the centre, for a source at y and a target at x *)
Definition nb (x y : pt) (n : nat) : R := RB n y x / rho_ x ^ (2 * n + 1).
Lemma nb_bound x y n : 0 < rho_ x -> Rabs (nb x y n) <= rho_ y ^ n / rho_ x ^ (n + 1).
Proof.
  intros P. unfold nb, Rdiv. rewrite Rabs_mult, (Rabs_pos_eq (/ _)) by (apply Rlt_le, Rinv_0_lt_compat, pow_lt; auto).
  apply Rle_trans with (rho_ y ^ n * rho_ x ^ n * / rho_ x ^ (2 * n + 1)); [apply Rmult_le_compat_r; [apply Rlt_le, Rinv_0_lt_compat, pow_lt; auto|apply RB_bound]|].
  apply Req_le. replace (2 * n + 1)%nat with (n + (n + 1))%nat by lia. rewrite (pow_add _ n (n + 1)). field. split; apply pow_nonzero; lra.
Qed.
Lemma newton x y : rho_ y < rho_ x -> is_series (nb x y) (/ rho_ (psub x y)).
Proof.
  intros L. assert (Y0 : 0 <= rho_ y) by apply sqrt_pos. assert (X0 : 0 < rho_ x) by lra.
  assert (E : rho_ (psub x y) = sqrt (Qp (rho_ x) (dot y x) (square y) 1)).
  { unfold rho_ at 1. f_equal. unfold Qp. rewrite rho_sq. unfold square, psub, dot. cbn [cx cy cz]. ring. }
  rewrite E. apply (generating (rho_ x) (dot y x) (square y) (rho_ y)); auto.
  - rewrite <- rho_sq. reflexivity.
  - rewrite <- RB_1. assert (A := RB_bound 1 y x). rewrite !pow_1 in A. lra.
  - unfold nb. rewrite RB_0. cbn. field. lra.
  - unfold nb. rewrite RB_0, RB_1. cbn. field. lra.
  - intros n. assert (A := RB_SS n y x). rewrite <- (rho_sq x) in A. replace (n + 2)%nat with (S (S n)) by lia. replace (n + 1)%nat with (S n) by lia. unfold nb.
    replace (2 * S (S n) + 1)%nat with (S (S (S (S (2 * n + 1))))) by lia. replace (2 * S n + 1)%nat with (S (S (2 * n + 1))) by lia. cbn [pow].
    assert (Z : rho_ x ^ (2 * n + 1) <> 0) by (apply pow_nonzero; lra).
    apply (Rmult_eq_reg_r (rho_ x * (rho_ x * rho_ x ^ (2 * n + 1)))); [|apply Rmult_integral_contrapositive; split; [lra|apply Rmult_integral_contrapositive; split; [lra|auto]]].
    transitivity (INR (S (S n)) * RB (S (S n)) y x); [field; split; [auto|lra]|]. rewrite A. field. split; [auto|lra].
  - intros n. apply nb_bound. auto.
Qed.
Lemma geom_tail (f : nat -> R) (l k r : R) p : is_series f l -> 0 <= k < r -> (forall n, (p < n)%nat -> Rabs (f n) <= k ^ n / r ^ (n + 1)) ->
  Rabs (l - rsum (seq 0 (p + 1)) f) <= (k / r) ^ (p + 1) / (r - k).
Proof.
  intros Sf K F. rewrite rsum_sum.
  assert (KE : plus (l - sum_f_R0 f p) (sum_n f (pred (p + 1))) = l).
  { rewrite sum_n_Reals. replace (pred (p + 1)) with p by lia. change (l - sum_f_R0 f p + sum_f_R0 f p = l). ring. }
  assert (S' : is_series f (plus (l - sum_f_R0 f p) (sum_n f (pred (p + 1))))) by (rewrite KE; exact Sf).
  assert (T := is_series_incr_n f (p + 1) (l - sum_f_R0 f p) ltac:(lia) S').
  rewrite <- (is_series_unique _ _ T). set (g := fun n => (k / r) ^ (p + 1) / r * (k / r) ^ n).
  assert (Q0 : 0 <= k / r) by (apply Rdiv_le_0_compat; lra). assert (Q1 : k / r < 1) by (apply Rmult_lt_reg_r with r; [lra|]; unfold Rdiv; rewrite Rmult_assoc, Rinv_l by lra; lra).
  assert (G : is_series g ((k / r) ^ (p + 1) / r * / (1 - k / r))).
  { apply (is_series_scal_l ((k / r) ^ (p + 1) / r) (fun n => (k / r) ^ n)). apply is_series_geom. rewrite Rabs_pos_eq; auto. }
  replace ((k / r) ^ (p + 1) / (r - k)) with ((k / r) ^ (p + 1) / r * / (1 - k / r)) by (field; lra).
  rewrite <- (is_series_unique _ _ G).
  assert (B : forall n, 0 <= Rabs (f (p + 1 + n)%nat) <= g n).
  { intros n. split; [apply Rabs_pos|]. apply Rle_trans with (1 := F (p + 1 + n)%nat ltac:(lia)). apply Req_le. unfold g, Rdiv. rewrite !Rpow_mult_distr, !pow_inv. replace (p + 1 + n + 1)%nat with (S ((p + 1) + n)) by lia. cbn [pow]. rewrite !pow_add. field. assert (forall j, r ^ j <> 0) by (intros; apply pow_nonzero; lra). repeat split; auto; lra. }
  apply Rle_trans with (Series (fun n => Rabs (f (p + 1 + n)%nat))).
  - apply Series_Rabs. apply (ex_series_le (fun n => Rabs (f (p + 1 + n)%nat) : R_CompleteNormedModule) g); [|eexists; exact G]. intros n. change (norm (Rabs (f (p + 1 + n)%nat))) with (Rabs (Rabs (f (p + 1 + n)%nat))). rewrite Rabs_Rabsolu. apply B.
  - apply Series_le; [exact B|eexists; exact G].
Qed.
Lemma newton_tail x y p : rho_ y < rho_ x -> Rabs (/ rho_ (psub x y) - rsum (seq 0 (p + 1)) (nb x y)) <= (rho_ y / rho_ x) ^ (p + 1) / (rho_ x - rho_ y).
Proof.
  intros L. assert (Y0 : 0 <= rho_ y) by apply sqrt_pos. apply geom_tail; [apply newton; auto|lra|]. intros n _. apply nb_bound. lra.
Qed.
Lemma geo_mono k r k' r' p : 0 <= k <= k' -> k' < r' -> r' <= r -> (k / r) ^ p / (r - k) <= (k' / r') ^ p / (r' - k').
Proof.
  intros K L R. unfold Rdiv. apply Rmult_le_compat.
  - apply pow_le. apply Rmult_le_pos; [lra|]. apply Rlt_le, Rinv_0_lt_compat. lra.
  - apply Rlt_le, Rinv_0_lt_compat. lra.
  - apply pow_incr. split; [apply Rmult_le_pos; [lra|apply Rlt_le, Rinv_0_lt_compat; lra]|]. apply Rmult_le_compat; try lra; [apply Rlt_le, Rinv_0_lt_compat; lra|apply Rinv_le_contravar; lra].
  - apply Rinv_le_contravar; lra.
Qed.
