(** * The value of a local expansion converted from a multipole expansion: truncated double series. *)
From Coq Require Import ZArith List Reals Lia Lra Bool.
From Coquelicot Require Import Coquelicot.
From Verif Require Import ModelLegendre ModelLegApi ModelExp SpecLegendre ProofsLegendre ProofsLegCheck PropLegendre ProofsHarm ProofsHarm2 ProofsHarm3 SpecExp ProofsExp ProofsExp2 ProofsExp3 ProofsExp4 ProofsAcc1 ProofsAcc2 ProofsAcc3 ProofsAcc4 ProofsAcc5 ProofsAcc6 ProofsAcc7 ProofsAcc8.
Import ListNotations.
Local Open Scope R_scope.

(** contribution of order n of the target and order k of the source *)
Definition tv (D x : pt) (mu : nat -> Z -> C) (n k : nat) : R := (-1) ^ k * tm D (n + k) (star n (H x n) (mu k)).
Lemma cshift n k M (f : Z -> C) : (Z.abs M <= Z.of_nat n)%Z -> (forall m, (Z.of_nat k < Z.abs m)%Z -> f m = RtoC 0) -> csum (sym_range (n + k)) (fun m => f (m - M)%Z) = csum (sym_range k) f.
Proof.
  intros L F. unfold sym_range. rewrite (csum_ext _ _ (fun m => f (m + - M)%Z)) by reflexivity. rewrite (zr_shift (- M)).
  apply zr_widen; try lia. intros l Hl. apply F. lia.
Qed.
Lemma ip_star N n k x D g : N = (n + k)%nat -> supp k g ->
  ip N (star n (H x n) g) (H D N) = csum (sym_range n) (fun l => csum (sym_range k) (fun j => (H x n l * (g j * (cC N (l + j)%Z * Cconj (H D N (l + j)%Z))))%C)).
Proof.
  intros -> G. unfold ip, star.
  rewrite (csum_ext (sym_range (n + k)) _ (fun m => csum (sym_range n) (fun l => (H x n l * (g (m - l)%Z * (cC (n + k) (l + (m - l))%Z * Cconj (H D (n + k) (l + (m - l))%Z))))%C))).
  - rewrite csum_swap. apply csum_ext. intros l Hl. apply sym_in in Hl.
    rewrite (cshift n k l (fun j => (H x n l * (g j * (cC (n + k) (l + j)%Z * Cconj (H D (n + k) (l + j)%Z))))%C)); [reflexivity|lia|].
    intros m Lm. rewrite G by auto. ring.
  - intros m _. rewrite Cmult_assoc, (Cmult_comm (cC (n + k) m)), <- Cmult_assoc, Cmult_comm, <- csum_scal. apply csum_ext. intros l _.
    replace (l + (m - l))%Z with m by lia. ring.
Qed.
Lemma Lc_full mu D x p : (forall k, supp k (mu k)) ->
  fst (csum (seq 0 (p + 1)) (fun n => csum (sym_range n) (fun l => (Lc mu D p n l * H x n l)%C))) = rsum (seq 0 (p + 1)) (fun n => rsum (seq 0 (p + 1)) (tv D x mu n)).
Proof.
  intros Su. rewrite fst_rsum. apply rsum_ext. intros n _.
  transitivity (fst (csum (seq 0 (p + 1)) (fun k => (RtoC ((-1) ^ k / rho_ D ^ (2 * (n + k) + 1)) * ip (n + k) (star n (H x n) (mu k)) (H D (n + k)))%C))).
  - f_equal. rewrite (csum_ext (sym_range n) _ (fun l => csum (seq 0 (p + 1)) (fun k => csum (sym_range k) (fun j => (RtoC ((-1) ^ k / rho_ D ^ (2 * (n + k) + 1)) * (H x n l * (mu k j * (cC (n + k) (l + j)%Z * Cconj (H D (n + k) (l + j)%Z)))))%C)))).
    + rewrite csum_swap. apply csum_ext. intros k _. rewrite (ip_star (n + k) n k x D (mu k) eq_refl (Su k)), <- csum_scal. apply csum_ext. intros l _. rewrite <- csum_scal. reflexivity.
    + intros l _. unfold Lc. rewrite Cmult_comm, <- csum_scal. apply csum_ext. intros k _.
      rewrite <- (sym_rev k (fun j => (RtoC ((-1) ^ k / rho_ D ^ (2 * (n + k) + 1)) * (mu k (- j)%Z * (cC (n + k) (l - j)%Z * Cconj (H D (n + k) (l - j)%Z))))%C)).
      rewrite <- csum_scal. apply csum_ext. intros j _. rewrite Z.opp_involutive. replace (l - - j)%Z with (l + j)%Z by lia. ring.
  - rewrite fst_rsum. apply rsum_ext. intros k _. rewrite fst_scal, ip_sym, fst_conj. unfold tv, tm. unfold Rdiv. ring.
Qed.
Lemma ip_ext n f g g' : (forall m, (Z.abs m <= Z.of_nat n)%Z -> g m = g' m) -> ip n f g = ip n f g'.
Proof. intros E. unfold ip. apply csum_ext. intros m Hm. apply sym_in in Hm. rewrite E by lia. reflexivity. Qed.
Lemma tm_ext x n g g' : (forall m, g m = g' m) -> tm x n g = tm x n g'.
Proof. intros E. unfold tm. rewrite (ip_ext n _ g g') by auto. reflexivity. Qed.
Lemma tm_scal x n a g : tm x n (fun m => RtoC a * g m)%C = a * tm x n g.
Proof.
  unfold tm, ip. rewrite (csum_ext _ _ (fun m => (RtoC a * (cC n m * (H x n m * Cconj (g m))))%C)).
  - rewrite csum_scal, fst_scal. unfold Rdiv. ring.
  - intros m _. rewrite Cconj_mult, Cconj_R. ring.
Qed.
Lemma tm_csum {A} x n (l : list A) g : tm x n (fun m => csum l (fun a => g a m)) = rsum l (fun a => tm x n (g a)).
Proof.
  unfold tm, ip. rewrite (csum_ext _ _ (fun m => csum l (fun a => (cC n m * (H x n m * Cconj (g a m)))%C))).
  - rewrite csum_swap, fst_rsum. unfold Rdiv. rewrite Rmult_comm, <- rsum_scal. apply rsum_ext. intros a _. ring.
  - intros m _. rewrite conj_csum, <- !csum_scal. reflexivity.
Qed.
(** the diagonals are the terms of a series about the source center *)
Lemma diag_tv D x mu N : diag (tv D x mu) N = tm D N (conv x (fun k l => RtoC ((-1) ^ k) * mu k l)%C N).
Proof.
  unfold diag, conv. rewrite tm_csum. apply rsum_ext. intros n Hn. apply in_seq in Hn. unfold tv. replace (n + (N - n))%nat with N by lia. rewrite <- tm_scal. apply tm_ext.
  intros m. unfold star. rewrite <- csum_scal. apply csum_ext. intros l _. ring.
Qed.
Lemma csum_dist_R {A} (l : list A) (w : A -> R) (f : A -> nat -> Z -> C) n x m k : star n (H x n) (fun j => csum l (fun a => RtoC (w a) * f a k j)%C) m = csum l (fun a => (RtoC (w a) * star n (H x n) (f a k) m)%C).
Proof.
  unfold star. rewrite (csum_ext (sym_range n) _ (fun j => csum l (fun a => (RtoC (w a) * (H x n j * f a k (m - j)%Z))%C))).
  - rewrite csum_swap. apply csum_ext. intros a _. apply csum_scal.
  - intros j _. rewrite <- csum_scal. apply csum_ext. intros a _. ring.
Qed.
Lemma tv_sum {A} (l : list A) (w : A -> R) (f : A -> nat -> Z -> C) D x n k :
  tv D x (fun k j => csum l (fun a => RtoC (w a) * f a k j)%C) n k = rsum l (fun a => w a * tv D x (f a) n k).
Proof.
  unfold tv. rewrite (tm_ext _ _ _ (fun m => csum l (fun a => (RtoC (w a) * star n (H x n) (f a k) m)%C))) by (intros; apply csum_dist_R).
  rewrite (tm_csum D (n + k) l (fun a m => (RtoC (w a) * star n (H x n) (f a k) m)%C)), <- rsum_scal. apply rsum_ext. intros a _. rewrite (tm_scal D (n + k) (w a) (star n (H x n) (f a k))). ring.
Qed.

(** ** A charge *)
Lemma diag_charge D x y N : diag (tv D x (H y)) N = nb D (psub x y) N.
Proof.
  rewrite diag_tv. rewrite <- tm_charge. apply tm_ext. intros m. rewrite psub_add, H_add. unfold conv. apply csum_ext. intros k _. apply csum_ext. intros l _. rewrite H_neg. reflexivity.
Qed.
Lemma tv_charge_bound D x y n k kap : 0 < rho_ D -> rho_ x + rho_ y <= kap -> Rabs (tv D x (H y) n k) <= kap ^ (n + k) / rho_ D ^ (n + k + 1).
Proof.
  intros RD Kp. unfold tv. rewrite Rabs_mult. rewrite pow_1_abs, Rmult_1_l.
  apply tm_bound; [auto|]. eapply Rle_trans; [apply (star_bound n k (H x n) (H y k) (rho_ x) (rho_ y))|].
  - apply H_supp. - apply rho_ge. - apply rho_ge.
  - rewrite nrm_H. right. unfold rho_. rewrite pow_mult. f_equal. symmetry. apply pow2_sqrt. unfold square; nra.
  - rewrite nrm_H. right. unfold rho_. rewrite pow_mult. f_equal. symmetry. apply pow2_sqrt. unfold square; nra.
  - apply pow_incr. split; [|auto]. assert (A := rho_ge x). assert (B := rho_ge y). lra.
Qed.
Lemma Gc_tail k r N p : 0 <= k < r -> (p < N)%nat -> k ^ N / r ^ (N + 1) = Gc (N - 1) k r - Gc N k r.
Proof. intros L Lp. destruct N as [|N]; [lia|]. replace (S N - 1)%nat with N by lia. rewrite Gc_step by auto. replace (S N + 1)%nat with (N + 2)%nat by lia. reflexivity. Qed.
Lemma charge_m2l D x y kap p : rho_ x + rho_ y <= kap -> kap < rho_ D ->
  Rabs (/ rho_ (psub D (psub x y)) - rsum (seq 0 (p + 1)) (fun n => rsum (seq 0 (p + 1)) (tv D x (H y) n))) <= INR (p + 1) * Gc p kap (rho_ D).
Proof.
  intros K1 K2. assert (Kp : 0 <= kap) by (assert (A := rho_ge x); assert (B := rho_ge y); lra). assert (Ks := rho_psub x y).
  apply (square_error (tv D x (H y)) _ (fun N => Gc N kap (rho_ D))).
  - intros n. apply Gc_pos. lra.
  - intros n k L. eapply Rle_trans; [apply (tv_charge_bound D x y n k kap); lra|]. right. apply (Gc_tail _ _ (n + k) p); [lra|auto].
  - rewrite (rsum_ext _ _ (nb D (psub x y))) by (intros; apply diag_charge). eapply Rle_trans; [apply newton_tail; lra|].
    apply geo_mono; try lra. split; [apply rho_ge|lra].
Qed.
(** ** A dipole *)
Lemma along_neg y v t : along (pneg y) (pneg v) t = pneg (along y v t).
Proof. unfold along, pneg. cbn. f_equal; ring. Qed.
Lemma dH_neg y v n m : dH (pneg y) (pneg v) n m = (RtoC ((-1) ^ n) * dH y v n m)%C.
Proof.
  apply (cder_unique (fun t => H (along (pneg y) (pneg v) t) n m) 0); [apply cder_H|].
  apply (cder_ext (fun t => RtoC ((-1) ^ n) * H (along y v t) n m)%C).
  - intros t. rewrite along_neg, H_neg. reflexivity.
  - apply cder_scal. apply cder_H.
Qed.
Lemma diag_dipole D x y v N : diag (tv D x (dH y v)) N = dnb D (psub x y) (pneg v) N.
Proof.
  rewrite diag_tv. unfold dnb. apply tm_ext. intros m. rewrite psub_add, dH_add. unfold conv. apply csum_ext. intros k _. apply csum_ext. intros l _. rewrite dH_neg. reflexivity.
Qed.
Lemma bn_dip n k : bn n (S k) * bn 1 k = INR (n + S k) * INR (2 * (n + S k) - 1) * bn n k.
Proof.
  unfold bn. replace (2 * (n + S k))%nat with (S (S (2 * (n + k)))) by lia. replace (2 * (1 + k))%nat with (2 * S k)%nat by lia.
  rewrite 2!factS. replace (S (S (2 * (n + k))) - 1)%nat with (S (2 * (n + k))) by lia.
  assert (E : INR (S (S (2 * (n + k)))) = 2 * INR (n + S k)) by (replace (S (S (2 * (n + k)))) with (2 * (n + S k))%nat by lia; rewrite mult_INR; reflexivity). rewrite E.
  change (INR (fact (2 * 1))) with (1 + 1). assert (A := fact_pos (2 * n)). assert (B := fact_pos (2 * S k)). assert (D := fact_pos (2 * k)). field. lra.
Qed.
Lemma nrm_dip x y v n k kap : rho_ x + rho_ y <= kap -> sqrt (nrm (n + S k) (star n (H x n) (dH y v (S k)))) <= s2 * INR (n + S k) * rho_ v * kap ^ (n + k).
Proof.
  intros Kp. assert (A := rho_ge x). assert (B := rho_ge y). assert (V := rho_ge v). assert (S0 := s2_pos). assert (SS : s2 * s2 = 2) by (apply sqrt_sqrt; lra).
  assert (Sq : forall d, square d = rho_ d * rho_ d) by (intros d; unfold rho_; rewrite sqrt_sqrt; [reflexivity|unfold square; nra]).
  assert (N0 := pos_INR (n + S k)).
  assert (Rh : 0 <= s2 * INR (n + S k) * rho_ v * kap ^ (n + k)) by (repeat apply Rmult_le_pos; try lra; apply pow_le; lra).
  rewrite <- (sqrt_square (s2 * INR (n + S k) * rho_ v * kap ^ (n + k))) by auto. apply sqrt_le_1_alt.
  eapply Rle_trans; [apply nrm_star; intros l; apply dH_support|]. rewrite nrm_H.
  eapply Rle_trans; [apply Rmult_le_compat_l; [apply Rlt_le, bn_pos|]; apply Rmult_le_compat_l; [apply pow_le; rewrite Sq; nra|]; apply nrm_dH|].
  rewrite !Sq. 
  replace (bn n (S k) * ((rho_ x * rho_ x) ^ n * (bn 1 k * (rho_ v * rho_ v * (rho_ y * rho_ y) ^ k)))) with ((bn n (S k) * bn 1 k) * (rho_ v * rho_ v) * ((rho_ x * rho_ x) ^ n * (rho_ y * rho_ y) ^ k)) by ring.
  rewrite bn_dip. assert (Bp := bn_pow n k (rho_ x) (rho_ y) A B).
  assert (P2 : forall a m, (a * a) ^ m = a ^ (2 * m)) by (intros a m; rewrite pow_mult; f_equal; ring). rewrite !P2.
  assert (M : INR (2 * (n + S k) - 1) <= 2 * INR (n + S k)) by (replace 2 with (INR 2) by reflexivity; rewrite <- mult_INR; apply le_INR; lia).
  assert (M0 := pos_INR (2 * (n + S k) - 1)).
  apply Rle_trans with (INR (n + S k) * (2 * INR (n + S k)) * (rho_ v * rho_ v) * kap ^ (2 * (n + k))).
  - replace (INR (n + S k) * INR (2 * (n + S k) - 1) * bn n k * (rho_ v * rho_ v) * (rho_ x ^ (2 * n) * rho_ y ^ (2 * k))) with (INR (n + S k) * INR (2 * (n + S k) - 1) * (rho_ v * rho_ v) * (bn n k * (rho_ x ^ (2 * n) * rho_ y ^ (2 * k)))) by ring.
    assert (V2 : 0 <= rho_ v * rho_ v) by nra.
    apply Rmult_le_compat.
    + repeat apply Rmult_le_pos; auto.
    + apply Rmult_le_pos; [apply Rlt_le, bn_pos|]. apply Rmult_le_pos; apply pow_le; auto.
    + apply Rmult_le_compat_r; auto. apply Rmult_le_compat_l; auto.
    + eapply Rle_trans; [exact Bp|]. apply pow_incr. lra.
  - right. rewrite <- P2, Rpow_mult_distr. rewrite <- SS. ring.
Qed.
Lemma nrm_0 n g : (forall m, g m = RtoC 0) -> nrm n g = 0.
Proof. intros Z. unfold nrm. apply rsum_zero. intros m _. rewrite Z, Cmod_0. ring. Qed.
Lemma tv_dipole_bound D x y v n k kap : 0 < rho_ D -> rho_ x + rho_ y <= kap -> (0 < n + k)%nat ->
  Rabs (tv D x (dH y v) n k) <= s2 * rho_ v * (INR (n + k) * kap ^ (n + k - 1) / rho_ D ^ (n + k + 1)).
Proof.
  intros RD Kp L. unfold tv. rewrite Rabs_mult, pow_1_abs, Rmult_1_l. assert (A := rho_ge x). assert (B := rho_ge y). assert (V := rho_ge v). assert (S0 := s2_pos). 
  replace (s2 * rho_ v * (INR (n + k) * kap ^ (n + k - 1) / rho_ D ^ (n + k + 1))) with ((s2 * INR (n + k) * rho_ v * kap ^ (n + k - 1)) / rho_ D ^ (n + k + 1)) by (field; apply pow_nonzero; lra).
  apply tm_bound; [auto|]. destruct k as [|k].
  - rewrite nrm_0; [rewrite sqrt_0; repeat apply Rmult_le_pos; try lra; [apply pos_INR|apply pow_le; lra]|]. intros m. unfold star. apply csum_zero. intros l _. change (dH y v 0 (m - l)) with (RtoC 0). ring.
  - replace (n + S k - 1)%nat with (n + k)%nat by lia. apply nrm_dip. auto.
Qed.
Lemma G_tail k r N p : 0 <= k < r -> (p < N)%nat -> INR N * k ^ (N - 1) / r ^ (N + 1) = G (N - 1) k r - G N k r.
Proof. intros L Lp. destruct N as [|N]; [lia|]. replace (S N - 1)%nat with N by lia. rewrite G_step by auto. replace (S N + 1)%nat with (N + 2)%nat by lia. reflexivity. Qed.
Lemma dipole_m2l D x y v kap p : rho_ x + rho_ y <= kap -> kap < rho_ D ->
  Rabs (dpot (psub D (psub x y)) (pneg v) - rsum (seq 0 (p + 1)) (fun n => rsum (seq 0 (p + 1)) (tv D x (dH y v) n))) <= INR (p + 1) * (s2 * rho_ v * G p kap (rho_ D)).
Proof.
  intros K1 K2. assert (Kp : 0 <= kap) by (assert (A := rho_ge x); assert (B := rho_ge y); lra). assert (Ks := rho_psub x y). assert (V := rho_ge v). assert (S0 := s2_pos).
  assert (SV : 0 <= s2 * rho_ v) by (apply Rmult_le_pos; lra).
  apply (square_error (tv D x (dH y v)) _ (fun N => s2 * rho_ v * G N kap (rho_ D))).
  - intros n. apply Rmult_le_pos; [auto|]. apply G_pos. lra.
  - intros n k L. eapply Rle_trans; [apply (tv_dipole_bound D x y v n k kap); try lra; lia|]. right. rewrite (G_tail _ _ (n + k) p) by (auto; lra). ring.
  - rewrite (rsum_ext _ _ (dnb D (psub x y) (pneg v))) by (intros; apply diag_dipole). eapply Rle_trans; [apply dRem_bound; lra|].
    rewrite rho_neg. apply Rmult_le_compat_l; [auto|]. apply G_mono; try lra. split; [apply rho_ge|lra].
Qed.
