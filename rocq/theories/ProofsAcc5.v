(** * Remainders of the expansions of charges and dipoles. *)
From Coq Require Import ZArith List Reals Lia Lra Bool.
From Coquelicot Require Import Coquelicot.
From Verif Require Import ModelLegendre ModelLegApi ModelExp SpecLegendre ProofsLegendre ProofsLegCheck PropLegendre ProofsHarm ProofsHarm2 ProofsHarm3 SpecExp ProofsExp ProofsExp2 ProofsExp3 ProofsExp4 ProofsAcc1 ProofsAcc2 ProofsAcc3 ProofsAcc4.
Import ListNotations.
Local Open Scope R_scope.

(** ** The derivative of a harmonic is a convolution *)
Lemma DT_along d v t n m : DT d v t n m = dH (along d v t) v n m.
Proof.
  unfold dH. revert m. induction n as [|n IH]; intros m; [reflexivity|]. cbn [DT]. rewrite along_0, !IH. reflexivity.
Qed.
Lemma dH_S d v n m : dH d v (S n) m = (uP v * H d n (m - 1) + zP v * H d n m + wP v * H d n (m + 1))%C.
Proof.
  unfold dH. revert m. induction n as [|n IH]; intros m.
  - cbn [DT]. rewrite along_0. change (nC 1) with (RtoC 1). field. apply C1_nz.
  - cbn [DT]. fold (DT d v 0 (S n) m). apply (Ceq_reg_l (nC (S (S n)))); [apply nC_nz|].
    change (DT d v 0 (S (S n)) m) with (/ nC (S (S n)) * ((uP v * H (along d v 0) (S n) (m - 1) + uP (along d v 0) * DT d v 0 (S n) (m - 1)) + (zP v * H (along d v 0) (S n) m + zP (along d v 0) * DT d v 0 (S n) m) + (wP v * H (along d v 0) (S n) (m + 1) + wP (along d v 0) * DT d v 0 (S n) (m + 1))))%C || idtac.
    rewrite along_0. 
    assert (Q := fun k : Z => T_S (uP d) (zP d) (wP d) n k). fold (H d) in Q.
    assert (I : forall k, DT d v 0 (S n) k = (uP v * H d n (k - 1) + zP v * H d n k + wP v * H d n (k + 1))%C) by exact IH.
    cbn [DT] in I. rewrite along_0 in I. rewrite !I.
    assert (Q1 := Q (m - 1)%Z). assert (Q2 := Q m). assert (Q3 := Q (m + 1)%Z). unfold H in *.
    replace (m - 1 - 1)%Z with (m - 2)%Z in * by lia. replace (m - 1 + 1)%Z with m in * by lia. replace (m + 1 - 1)%Z with m in * by lia. replace (m + 1 + 1)%Z with (m + 2)%Z in * by lia.
    rewrite (nC_S (S n)). set (a := nC (S n)) in *. rewrite Cmult_assoc, Cinv_r, Cmult_1_l by (unfold a; rewrite <- nC_S; apply nC_nz).
    set (h1 := T (uP d) (zP d) (wP d) (S n) (m - 1)) in *. set (h0 := T (uP d) (zP d) (wP d) (S n) m) in *. set (h2 := T (uP d) (zP d) (wP d) (S n) (m + 1)) in *.
    transitivity (uP v * (a * h1 + h1) + zP v * (a * h0 + h0) + wP v * (a * h2 + h2))%C; [|ring]. rewrite Q1, Q2, Q3. ring.
Qed.
Lemma H1 v : H v 1 1 = uP v /\ H v 1 0 = zP v /\ H v 1 (-1) = wP v.
Proof. unfold H. cbn [T]. change (nC 1) with (RtoC 1). cbn. repeat split; field; apply C1_nz. Qed.
Lemma dH_star d v n m : dH d v (S n) m = star 1 (H v 1) (H d n) m.
Proof.
  rewrite dH_S. unfold star. change (sym_range 1) with [(-1)%Z; 0%Z; 1%Z]. cbn [csum]. destruct (H1 v) as (E1 & E2 & E3). rewrite E1, E2, E3.
  replace (m - -1)%Z with (m + 1)%Z by lia. rewrite Z.sub_0_r. ring.
Qed.
Lemma H_supp d n : supp n (H d n). Proof. intros l. apply H_support. Qed.
Lemma nrm_ext n f g : (forall m, f m = g m) -> nrm n f = nrm n g.
Proof. intros E. apply rsum_ext. intros m _. rewrite E. reflexivity. Qed.
Lemma nrm_dH d v n : nrm (S n) (dH d v (S n)) <= bn 1 n * (square v * square d ^ n).
Proof.
  rewrite (nrm_ext _ _ _ (dH_star d v n)). apply Rle_trans with (1 := nrm_star 1 n _ _ (H_supp d n)). rewrite !nrm_H, pow_1. lra.
Qed.
Lemma bn_1 n : bn 1 n = INR (S n) * INR (2 * n + 1).
Proof.
  unfold bn. replace (2 * (1 + n))%nat with (S (S (2 * n))) by lia. rewrite !factS. replace (S (2 * n)) with (2 * n + 1)%nat by lia. replace (S (2 * n + 1)) with (2 * S n)%nat by lia.
  replace (fact (2 * 1)) with 2%nat by reflexivity. rewrite (mult_INR 2 (S n)). change (INR 2) with 2. field. apply fact_nz.
Qed.
Definition s2 : R := sqrt 2.
Lemma s2_pos : 0 < s2. Proof. apply sqrt_lt_R0. lra. Qed.
Lemma bn_1_le n : bn 1 n <= (s2 * INR (S n)) * (s2 * INR (S n)).
Proof.
  rewrite bn_1. replace (s2 * INR (S n) * (s2 * INR (S n))) with (s2 * s2 * (INR (S n) * INR (S n))) by ring. unfold s2. rewrite sqrt_sqrt by lra.
  rewrite plus_INR, mult_INR, S_INR. change (INR 2) with 2. change (INR 1) with 1. assert (0 <= INR n) by apply pos_INR. 
  replace (2 * ((INR n + 1) * (INR n + 1))) with ((INR n + 1) * (2 * INR n + 1) + (INR n + 1)) by ring. lra.
Qed.
Lemma sqrt_nrm_dH d v n : sqrt (nrm (S n) (dH d v (S n))) <= s2 * INR (S n) * rho_ v * rho_ d ^ n.
Proof.
  assert (P : 0 <= s2 * INR (S n) * rho_ v * rho_ d ^ n).
  { repeat apply Rmult_le_pos; try apply pow_le; try apply sqrt_pos. apply pos_INR. }
  rewrite <- (sqrt_Rsqr _ P). apply sqrt_le_1_alt. apply Rle_trans with (1 := nrm_dH d v n). rewrite <- !rho_sq.
  replace (Rsqr (s2 * INR (S n) * rho_ v * rho_ d ^ n)) with ((s2 * INR (S n) * (s2 * INR (S n))) * ((rho_ v * rho_ v) * (rho_ d ^ n * rho_ d ^ n))) by (unfold Rsqr; ring).
  rewrite Rpow_mult_distr. apply Rmult_le_compat_r; [|apply bn_1_le]. apply Rmult_le_pos; [apply Rle_0_sqr|]. apply Rle_0_sqr.
Qed.

(** ** Terms of the expansion *)
(** the value at x of the degree n part with moments mu *)
Definition tm (x : pt) (n : nat) (mu : Z -> C) : R := fst (ip n (H x n) mu) / rho_ x ^ (2 * n + 1).
Lemma ip_sym n f g : ip n g f = Cconj (ip n f g).
Proof. unfold ip. rewrite conj_csum. apply csum_ext. intros m _. rewrite !Cconj_mult. unfold cC. rewrite Cconj_R. replace (Cconj (Cconj (g m))) with (g m); [ring|]. unfold Cconj. cbn. apply Ceq; cbn; ring. Qed.
Lemma tm_charge x y n : tm x n (H y n) = nb x y n.
Proof. unfold tm, nb, RB, B. rewrite (ip_sym n (H y n) (H x n)). reflexivity. Qed.
Lemma tm_bound x n mu k : 0 < rho_ x -> sqrt (nrm n mu) <= k -> Rabs (tm x n mu) <= k / rho_ x ^ (n + 1).
Proof.
  intros P K. unfold tm, Rdiv. rewrite Rabs_mult, (Rabs_pos_eq (/ _)) by (apply Rlt_le, Rinv_0_lt_compat, pow_lt; auto).
  apply Rle_trans with (rho_ x ^ n * k * / rho_ x ^ (2 * n + 1)).
  - apply Rmult_le_compat_r; [apply Rlt_le, Rinv_0_lt_compat, pow_lt; auto|]. apply Rle_trans with (Cmod (ip n (H x n) mu)); [apply Rle_trans with (2 := Rmax_Cmod _); apply Rmax_l|].
    apply Rle_trans with (1 := ip_bound _ _ _). rewrite sqrt_nrm_H. apply Rmult_le_compat_l; auto. apply pow_le; lra.
  - apply Req_le. replace (2 * n + 1)%nat with (n + (n + 1))%nat by lia. rewrite (pow_add _ n (n + 1)). field. split; apply pow_nonzero; lra.
Qed.
Lemma cder_conj f t l : cder f t l -> cder (fun s => Cconj (f s)) t (Cconj l).
Proof. intros [A B]. split; [exact A|]. cbn. apply (is_derive_opp (K:=R_AbsRing) (V:=R_NormedModule)). exact B. Qed.
Lemma cder_ip n (f : Z -> C) (g : R -> Z -> C) t g' : (forall m, cder (fun s => g s m) t (g' m)) -> cder (fun s => ip n f (g s)) t (ip n f g').
Proof. intros G. unfold ip. apply cder_csum. intros m _. apply cder_scal, cder_scal, cder_conj, G. Qed.
Lemma d_tm x n (g : R -> Z -> C) t g' : (forall m, cder (fun s => g s m) t (g' m)) -> is_derive (fun s => tm x n (g s)) t (tm x n g').
Proof.
  intros G. unfold tm. apply (is_derive_ext (fun s => / rho_ x ^ (2 * n + 1) * fst (ip n (H x n) (g s)))); [intros; unfold Rdiv; apply Rmult_comm|].
  unfold Rdiv. rewrite Rmult_comm. apply (is_derive_scal (fun s => fst (ip n (H x n) (g s)))). apply (cder_ip n (H x n) g t g' G).
Qed.
Definition dnb (x y v : pt) (n : nat) : R := tm x n (dH y v n).
Lemma d_nb x y v n t : is_derive (fun s => nb x (along y v s) n) t (dnb x (along y v t) v n).
Proof.
  apply (is_derive_ext (fun s => tm x n (H (along y v s) n))); [intros; apply tm_charge|]. apply d_tm. intros m.
  eapply cder_eq; [apply cder_H|]. apply DT_along.
Qed.
Lemma dnb_0 x y v : dnb x y v 0 = 0.
Proof. unfold dnb, tm, ip. change (sym_range 0) with [0%Z]. cbn [csum]. unfold dH. cbn [DT]. unfold Rdiv. rewrite Cconj_R. cbn. ring. Qed.
Lemma dnb_bound x y v n : 0 < rho_ x -> Rabs (dnb x y v n) <= s2 * rho_ v * (INR n * rho_ y ^ (n - 1) / rho_ x ^ (n + 1)).
Proof.
  intros P. destruct n as [|n]; [rewrite dnb_0, Rabs_R0; cbn; unfold Rdiv; rewrite !Rmult_0_l, Rmult_0_r; lra|].
  apply Rle_trans with (1 := tm_bound x (S n) _ _ P (sqrt_nrm_dH y v n)). apply Req_le. replace (S n - 1)%nat with n by lia. unfold Rdiv. ring.
Qed.
