(** * Remainder of the expansion of a dipole. *)
From Coq Require Import ZArith List Reals Lia Lra Bool.
From Coquelicot Require Import Coquelicot.
From Verif Require Import ModelLegendre ModelLegApi ModelExp SpecLegendre ProofsLegendre ProofsLegCheck PropLegendre ProofsHarm ProofsHarm2 ProofsHarm3 SpecExp ProofsExp ProofsExp2 ProofsExp3 ProofsExp4 ProofsAcc1 ProofsAcc2 ProofsAcc3 ProofsAcc4 ProofsAcc5.
Import ListNotations.
Local Open Scope R_scope.

(** ** Norms of vectors *)
Lemma dot_bound x y : Rabs (dot x y) <= rho_ x * rho_ y.
Proof. rewrite <- RB_1. assert (A := RB_bound 1 x y). rewrite !pow_1 in A. exact A. Qed.
Lemma rho_ge d : 0 <= rho_ d. Proof. apply sqrt_pos. Qed.
Lemma rho_add x y : rho_ (padd3 x y) <= rho_ x + rho_ y.
Proof.
  assert (A := rho_ge x). assert (B := rho_ge y). apply Rle_trans with (Rabs (rho_ (padd3 x y))); [apply Rle_abs|]. apply Rabs_le_sq; [lra|]. rewrite rho_sq.
  assert (D := Rle_trans _ _ _ (Rle_abs _) (dot_bound x y)). replace (square (padd3 x y)) with (square x + square y + 2 * dot x y) by (unfold square, padd3, dot; cbn; ring).
  rewrite <- !rho_sq. lra.
Qed.
Definition smul (t : R) (v : pt) : pt := Pt (t * cx v) (t * cy v) (t * cz v).
Lemma rho_smul t v : rho_ (smul t v) = Rabs t * rho_ v.
Proof. unfold rho_. replace (square (smul t v)) with (Rsqr t * square v) by (unfold square, smul, Rsqr; cbn; ring). rewrite sqrt_mult by (try apply Rle_0_sqr; apply square_nonneg). rewrite sqrt_Rsqr_abs. reflexivity. Qed.
Lemma along_add d v t : along d v t = padd3 d (smul t v). Proof. reflexivity. Qed.
Lemma rho_along d v t : rho_ (along d v t) <= rho_ d + Rabs t * rho_ v.
Proof. rewrite along_add, <- rho_smul. apply rho_add. Qed.
Lemma rho_neg d : rho_ (pneg d) = rho_ d.
Proof. unfold rho_. f_equal. unfold square, pneg. cbn. ring. Qed.
Lemma psub_add x y : psub x y = padd3 x (pneg y).
Proof. unfold psub, padd3, pneg. reflexivity. Qed.
Lemma rho_psub x y : rho_ (psub x y) <= rho_ x + rho_ y.
Proof. rewrite psub_add, <- (rho_neg y). apply rho_add. Qed.
Lemma rho_psub_ge x y : rho_ x - rho_ y <= rho_ (psub x y).
Proof. assert (A := rho_add (psub x y) y). replace (padd3 (psub x y) y) with x in A; [lra|]. destruct x, y. unfold padd3, psub. cbn. f_equal; ring. Qed.

(** ** Tails with a telescoping majorant *)
Lemma tail_bound (f : nat -> R) (l : R) (g : nat -> R) p : is_series f l -> (forall n, 0 <= g n) -> (forall n, (p <= n)%nat -> Rabs (f (S n)) <= g n - g (S n)) ->
  Rabs (l - rsum (seq 0 (p + 1)) f) <= g p.
Proof.
  intros Sf G F. rewrite rsum_sum.
  assert (A : forall j, Rabs (sum_f_R0 f (p + j) - sum_f_R0 f p) <= g p - g (p + j)%nat).
  { induction j as [|j IH].
    - rewrite Nat.add_0_r. unfold Rminus. rewrite !Rplus_opp_r, Rabs_R0. lra.
    - replace (p + S j)%nat with (S (p + j)) by lia. rewrite tech5. replace (sum_f_R0 f (p + j) + f (S (p + j)) - sum_f_R0 f p) with ((sum_f_R0 f (p + j) - sum_f_R0 f p) + f (S (p + j))) by ring.
      apply Rle_trans with (1 := Rabs_triang _ _). assert (B := F (p + j)%nat ltac:(lia)). lra. }
  assert (L1 : is_lim_seq (fun j => sum_f_R0 f (p + j) - sum_f_R0 f p) (l - sum_f_R0 f p)).
  { apply is_lim_seq_minus'; [|apply is_lim_seq_const]. apply is_lim_seq_ext with (fun j => sum_n f (j + p)).
    - intros j. rewrite sum_n_Reals. f_equal. lia.
    - apply (is_lim_seq_incr_n (sum_n f) p). exact Sf. }
  assert (L2 := is_lim_seq_abs _ _ L1). cbn in L2.
  assert (A' : forall j, Rabs (sum_f_R0 f (p + j) - sum_f_R0 f p) <= g p) by (intros j; assert (B := G (p + j)%nat); assert (B' := A j); lra).
  exact (is_lim_seq_le _ (fun _ => g p) _ (Finite (g p)) A' L2 (is_lim_seq_const (g p))).
Qed.
Definition G (p : nat) (k r : R) : R := (k / r) ^ p * (INR p + 1 - INR p * (k / r)) / ((r - k) * (r - k)).
Lemma G_pos p k r : 0 <= k < r -> 0 <= G p k r.
Proof.
  intros K. assert (Q0 : 0 <= k / r) by (apply Rdiv_le_0_compat; lra). assert (Q1 : k / r < 1) by (apply Rmult_lt_reg_r with r; [lra|]; unfold Rdiv; rewrite Rmult_assoc, Rinv_l by lra; lra).
  unfold G. apply Rdiv_le_0_compat; [|apply Rmult_lt_0_compat; lra]. apply Rmult_le_pos; [apply pow_le; auto|]. assert (0 <= INR p) by apply pos_INR.
  assert (INR p * (k / r) <= INR p * 1) by (apply Rmult_le_compat_l; lra). lra.
Qed.
Lemma G_step p k r : 0 <= k < r -> G p k r - G (S p) k r = INR (S p) * k ^ p / r ^ (p + 2).
Proof.
  intros K. unfold G. rewrite S_INR. cbn [pow]. unfold Rdiv. rewrite !Rpow_mult_distr, pow_inv. rewrite pow_add. cbn [pow]. field. assert (r ^ p <> 0) by (apply pow_nonzero; lra). repeat split; auto; lra.
Qed.
Lemma is_derive_bound (f : R -> R) (d M : R) : is_derive f 0 d -> locally 0 (fun t => Rabs (f t - f 0) <= Rabs t * M) -> Rabs d <= M.
Proof.
  intros D L. apply le_epsilon. intros e He. destruct D as [_ D]. specialize (D 0 (fun P H => H)). specialize (D (mkposreal e He)).
  destruct (filter_and _ _ L D) as [del Q]. set (t := del / 2). assert (T0 : 0 < t) by (unfold t; destruct del; cbn; lra).
  destruct (Q t) as [Q1 Q2]. { unfold ball. cbn. unfold AbsRing_ball, abs, minus, plus, opp. cbn. replace (t + - 0) with t by ring. rewrite Rabs_pos_eq by lra. unfold t. destruct del; cbn; lra. }
  unfold norm, minus, plus, opp, scal in Q2. cbn in Q2. unfold mult, abs in Q2. cbn in Q2. rewrite Ropp_0, Rplus_0_r in Q2. rewrite (Rabs_pos_eq t) in * by lra.
  apply Rmult_le_reg_l with t; auto. rewrite <- (Rabs_pos_eq t) at 1 by lra. rewrite <- Rabs_mult.
  replace (t * d) with ((f t - f 0) - (f t + - f 0 + - (t * d))) by ring. unfold Rminus at 1. apply Rle_trans with (1 := Rabs_triang _ _). rewrite Rabs_Ropp. unfold Rminus in *. lra.
Qed.
Lemma limit_bound (L : R -> R) (d k r : R) : k < r -> continuous L k -> (forall k', k < k' < r -> d <= L k') -> d <= L k.
Proof.
  intros K C B. apply le_epsilon. intros e He. destruct (C (ball (L k) (mkposreal e He)) (locally_ball _ _)) as [del Q].
  set (k' := k + Rmin (del / 2) ((r - k) / 2)). assert (M : 0 < Rmin (del / 2) ((r - k) / 2)) by (apply Rmin_glb_lt; destruct del; cbn; lra).
  assert (M1 := Rmin_l (del / 2) ((r - k) / 2)). assert (M2 := Rmin_r (del / 2) ((r - k) / 2)).
  assert (Bk := B k' ltac:(unfold k'; split; lra)). assert (Qk : ball (L k) e (L k')).
  { apply Q. unfold ball. cbn. unfold AbsRing_ball, abs, minus, plus, opp. cbn. replace (k' + - k) with (Rmin (del / 2) ((r - k) / 2)) by (unfold k'; ring). rewrite Rabs_pos_eq by lra. destruct del; cbn in *; lra. }
  unfold ball in Qk. cbn in Qk. unfold AbsRing_ball, abs, minus, plus, opp in Qk. cbn in Qk. apply Rabs_def2 in Qk. lra.
Qed.
(** ** The remainder of a dipole *)
Definition Rem (x y : pt) (p : nat) : R := / rho_ (psub x y) - rsum (seq 0 (p + 1)) (nb x y).
Definition dpot (d v : pt) : R := dot d v / rho_ d ^ 3.
Lemma d_inv_rho x y v : rho_ (psub x y) <> 0 -> is_derive (fun t => / rho_ (psub x (along y v t))) 0 (dpot (psub x y) v).
Proof.
  intros N. assert (E : forall t, psub x (along y v t) = along (psub x y) (pneg v) t) by (intros; unfold psub, along, pneg; cbn; f_equal; ring).
  apply (is_derive_ext (fun t => / rho_ (along (psub x y) (pneg v) t))); [intros; rewrite E; reflexivity|].
  assert (D := is_derive_inv _ 0 _ (d_rho (psub x y) (pneg v) N)). cbv beta in D. rewrite along_0 in D. eapply d_eq; [apply D; exact N|].
  unfold dpot. replace (dot (psub x y) (pneg v)) with (- dot (psub x y) v) by (unfold dot, pneg; cbn; ring). field. auto.
Qed.
Lemma d_rsum {A} (l : list A) (f : A -> R -> R) (g : A -> R) t : (forall a, In a l -> is_derive (f a) t (g a)) -> is_derive (fun s => rsum l (fun a => f a s)) t (rsum l g).
Proof.
  induction l as [|a l IH]; intros Q; cbn [rsum]; [apply (is_derive_const 0)|]. apply d_plus; [apply Q; left; auto|apply IH; intros; apply Q; right; auto].
Qed.
Lemma rsum_minus {A} (l : list A) f g : rsum l (fun a => f a - g a) = rsum l f - rsum l g.
Proof. induction l as [|a l IH]; cbn [rsum]; [ring|]. rewrite IH. ring. Qed.
Lemma Rem_lip x y v p t k : rho_ y + Rabs t * rho_ v <= k -> k < rho_ x -> Rabs (Rem x (along y v t) p - Rem x y p) <= Rabs t * (s2 * rho_ v * G p k (rho_ x)).
Proof.
  intros K1 K2. assert (Y0 := rho_ge y). assert (V0 := rho_ge v). assert (T0 := Rabs_pos t). assert (TV : 0 <= Rabs t * rho_ v) by (apply Rmult_le_pos; auto).
  assert (A1 := rho_along y v t).
  assert (S1 := newton x (along y v t) ltac:(lra)). assert (S2 := newton x y ltac:(lra)).
  assert (Sm := is_series_minus _ _ _ _ S1 S2). set (f := (fun n => nb x (along y v t) n - nb x y n) : nat -> R).
  assert (E : Rem x (along y v t) p - Rem x y p = minus (/ rho_ (psub x (along y v t))) (/ rho_ (psub x y)) - rsum (seq 0 (p + 1)) f).
  { unfold Rem, f. rewrite rsum_minus. unfold minus, plus, opp. cbn. ring. }
  rewrite E. set (g := fun n => Rabs t * (s2 * rho_ v * G n k (rho_ x))). change (Rabs t * (s2 * rho_ v * G p k (rho_ x))) with (g p). apply tail_bound; [exact Sm|..].
  - intros n. unfold g. assert (0 <= G n k (rho_ x)) by (apply G_pos; lra). assert (P := s2_pos). apply Rmult_le_pos; auto. apply Rmult_le_pos; auto. apply Rmult_le_pos; auto; lra.
  - intros n _. unfold g. replace (Rabs t * (s2 * rho_ v * G n k (rho_ x)) - Rabs t * (s2 * rho_ v * G (S n) k (rho_ x))) with (Rabs t * (s2 * rho_ v * (G n k (rho_ x) - G (S n) k (rho_ x)))) by ring. rewrite G_step by lra.
    change (f (S n)) with (nb x (along y v t) (S n) - nb x y (S n)).
    assert (BV := bounded_variation (fun s => nb x (along y v s) (S n)) (fun s => dnb x (along y v s) v (S n)) (s2 * rho_ v * (INR (S n) * k ^ n / rho_ x ^ (n + 2))) 0 t). cbv beta in BV. rewrite along_0, Rminus_0_r in BV. rewrite Rmult_comm. apply BV.
    intros s Hs. rewrite Rminus_0_r in Hs. split; [apply d_nb|]. apply Rle_trans with (1 := dnb_bound x (along y v s) v (S n) ltac:(lra)).
    apply Rmult_le_compat_l; [apply Rmult_le_pos; [apply Rlt_le, s2_pos|auto]|]. replace (S n + 1)%nat with (n + 2)%nat by lia. replace (S n - 1)%nat with n by lia. unfold Rdiv. apply Rmult_le_compat_r; [apply Rlt_le, Rinv_0_lt_compat, pow_lt; lra|].
    apply Rmult_le_compat_l; [apply pos_INR|]. apply pow_incr. split; [apply rho_ge|]. assert (A2 := rho_along y v s). assert (Rabs s * rho_ v <= Rabs t * rho_ v) by (apply Rmult_le_compat_r; auto). lra.
Qed.
Lemma G_cont p r k : 0 <= k < r -> continuous (fun k => G p k r) k.
Proof.
  intros K. apply (ex_derive_continuous (V := R_NormedModule)). unfold G. auto_derive. assert (0 < r - k) by lra. assert (r <> 0) by lra.
  assert ((r + - k) * (r + - k) <> 0) by (apply Rmult_integral_contrapositive; split; lra). intuition.
Qed.
Lemma d_Rem x y v p : rho_ y < rho_ x -> is_derive (fun t => Rem x (along y v t) p) 0 (dpot (psub x y) v - rsum (seq 0 (p + 1)) (dnb x y v)).
Proof.
  intros L. assert (N : rho_ (psub x y) <> 0) by (assert (A := rho_psub_ge x y); lra). unfold Rem. apply d_minus; [apply d_inv_rho; auto|].
  apply (d_rsum (seq 0 (p + 1)) (fun n s => nb x (along y v s) n)). intros n _. assert (D := d_nb x y v n 0). rewrite along_0 in D. exact D.
Qed.
Lemma dRem_bound x y v p : rho_ y < rho_ x -> Rabs (dpot (psub x y) v - rsum (seq 0 (p + 1)) (dnb x y v)) <= s2 * rho_ v * G p (rho_ y) (rho_ x).
Proof.
  intros L. assert (Y0 := rho_ge y). assert (V0 := rho_ge v).
  apply (limit_bound (fun k => s2 * rho_ v * G p k (rho_ x)) _ (rho_ y) (rho_ x)); auto.
  - apply (continuous_scal_r (V := R_NormedModule) (s2 * rho_ v) (fun k => G p k (rho_ x))). apply G_cont. lra.
  - intros k K. apply (is_derive_bound _ _ _ (d_Rem x y v p L)). rewrite along_0.
    assert (P : 0 < (k - rho_ y) / (rho_ v + 1)) by (apply Rdiv_lt_0_compat; lra). exists (mkposreal _ P). intros t Ht. unfold ball in Ht. cbn in Ht. unfold AbsRing_ball, abs, minus, plus, opp in Ht. cbn in Ht. rewrite Ropp_0, Rplus_0_r in Ht.
    apply Rem_lip; [|lra]. assert (Rabs t * rho_ v <= Rabs t * (rho_ v + 1)) by (apply Rmult_le_compat_l; [apply Rabs_pos|lra]).
    assert (Rabs t * (rho_ v + 1) <= (k - rho_ y) / (rho_ v + 1) * (rho_ v + 1)) by (apply Rmult_le_compat_r; lra). unfold Rdiv in H0. rewrite Rmult_assoc, Rinv_l in H0 by lra. lra.
Qed.
