(** * Norms of coefficient rows, the Legendre kernel, and the norm of a convolution. *)
From Coq Require Import ZArith List Reals Lia Lra Bool.
From Coquelicot Require Import Coquelicot.
From Verif Require Import ModelLegendre ModelLegApi ModelExp SpecLegendre ProofsLegendre ProofsLegCheck ProofsHarm ProofsHarm2 ProofsHarm3 ProofsAcc1.
Import ListNotations.
Local Open Scope R_scope.

(** ** Real sums *)
Fixpoint rsum {A : Type} (l : list A) (f : A -> R) : R := match l with [] => 0 | a :: r => f a + rsum r f end.
Lemma rsum_ext {A} (l : list A) f g : (forall a, In a l -> f a = g a) -> rsum l f = rsum l g.
Proof. induction l as [|a l IH]; intros Q; [reflexivity|]. cbn [rsum]. rewrite (Q a) by (left; auto). rewrite IH by (intros; apply Q; right; auto). reflexivity. Qed.
Lemma rsum_le {A} (l : list A) f g : (forall a, In a l -> f a <= g a) -> rsum l f <= rsum l g.
Proof. induction l as [|a l IH]; intros Q; cbn [rsum]; [lra|]. apply Rplus_le_compat; [apply Q; left; auto|apply IH; intros; apply Q; right; auto]. Qed.
Lemma rsum_pos {A} (l : list A) f : (forall a, In a l -> 0 <= f a) -> 0 <= rsum l f.
Proof. induction l as [|a l IH]; intros Q; cbn [rsum]; [lra|]. apply Rplus_le_le_0_compat; [apply Q; left; auto|apply IH; intros; apply Q; right; auto]. Qed.
Lemma rsum_scal {A} (l : list A) k f : rsum l (fun a => k * f a) = k * rsum l f.
Proof. induction l as [|a l IH]; cbn [rsum]; [ring|]. rewrite IH. ring. Qed.
Lemma rsum_plus {A} (l : list A) f g : rsum l (fun a => f a + g a) = rsum l f + rsum l g.
Proof. induction l as [|a l IH]; cbn [rsum]; [ring|]. rewrite IH. ring. Qed.
Lemma rsum_app {A} (l l' : list A) f : rsum (l ++ l') f = rsum l f + rsum l' f.
Proof. induction l as [|a l IH]; cbn [rsum app]; [ring|]. rewrite IH. ring. Qed.
Lemma csum_R {A} (l : list A) f : csum l (fun a => RtoC (f a)) = RtoC (rsum l f).
Proof. induction l as [|a l IH]; cbn [rsum csum]; [reflexivity|]. rewrite IH, RtoC_plus. reflexivity. Qed.
Lemma rsum_fst {A} (l : list A) f : rsum l f = fst (csum l (fun a => RtoC (f a))).
Proof. rewrite csum_R. reflexivity. Qed.
Lemma rsum_swap {A B} (l : list A) (k : list B) f : rsum l (fun a => rsum k (f a)) = rsum k (fun b => rsum l (fun a => f a b)).
Proof.
  induction l as [|a l IH]; cbn [rsum].
  - symmetry. induction k as [|b k IH]; cbn [rsum]; [reflexivity|]. rewrite IH. ring.
  - rewrite IH, <- rsum_plus. reflexivity.
Qed.
Lemma Cmod_csum {A} (l : list A) f : Cmod (csum l f) <= rsum l (fun a => Cmod (f a)).
Proof. induction l as [|a l IH]; cbn [csum rsum]; [rewrite Cmod_0; lra|]. apply Rle_trans with (1 := Cmod_triangle _ _). lra. Qed.
Lemma fst_csum_abs {A} (l : list A) f : Rabs (fst (csum l f)) <= rsum l (fun a => Cmod (f a)).
Proof. apply Rle_trans with (2 := Cmod_csum l f). apply Rle_trans with (2 := Rmax_Cmod _). apply Rmax_l. Qed.
Lemma Rabs_le_sq a b : 0 <= b -> a * a <= b * b -> Rabs a <= b.
Proof. intros B L. rewrite <- (Rabs_pos_eq b B). apply Rsqr_le_abs_0. exact L. Qed.
Lemma cauchy {A} (l : list A) a b : rsum l (fun i => a i * b i) * rsum l (fun i => a i * b i) <= rsum l (fun i => a i * a i) * rsum l (fun i => b i * b i).
Proof.
  induction l as [|i l IH]; cbn [rsum]; [lra|]. set (S := rsum l (fun i => a i * b i)) in *. set (P := rsum l (fun i => a i * a i)) in *. set (Q := rsum l (fun i => b i * b i)) in *.
  assert (P0 : 0 <= P) by (apply rsum_pos; intros; apply Rle_0_sqr). assert (Q0 : 0 <= Q) by (apply rsum_pos; intros; apply Rle_0_sqr).
  assert (M : 2 * S * (a i * b i) <= P * (b i * b i) + Q * (a i * a i)).
  { apply Rle_trans with (1 := Rle_abs _). apply Rabs_le_sq.
    - apply Rplus_le_le_0_compat; apply Rmult_le_pos; auto; apply Rle_0_sqr.
    - assert (A0 := Rle_0_sqr (a i * b i)). unfold Rsqr in A0. assert (Sq := Rle_0_sqr (P * (b i * b i) - Q * (a i * a i))). unfold Rsqr in Sq.
      assert (S * S * ((a i * b i) * (a i * b i)) <= P * Q * ((a i * b i) * (a i * b i))) by (apply Rmult_le_compat_r; auto).
      replace (2 * S * (a i * b i) * (2 * S * (a i * b i))) with (4 * (S * S * ((a i * b i) * (a i * b i)))) by ring.
      replace ((P * (b i * b i) + Q * (a i * a i)) * (P * (b i * b i) + Q * (a i * a i))) with ((P * (b i * b i) - Q * (a i * a i)) * (P * (b i * b i) - Q * (a i * a i)) + 4 * (P * Q * ((a i * b i) * (a i * b i)))) by ring. lra. }
  replace ((a i * b i + S) * (a i * b i + S)) with (a i * b i * (a i * b i) + 2 * S * (a i * b i) + S * S) by ring.
  replace ((a i * a i + P) * (b i * b i + Q)) with (a i * b i * (a i * b i) + (P * (b i * b i) + Q * (a i * a i)) + P * Q) by ring. lra.
Qed.

(** ** Rows of coefficients *)
Definition ip (n : nat) (f g : Z -> C) : C := csum (sym_range n) (fun m => (cC n m * (f m * Cconj (g m)))%C).
Definition nrm (n : nat) (f : Z -> C) : R := rsum (sym_range n) (fun m => cw n m * (Cmod (f m) * Cmod (f m))).
Lemma nrm_pos n f : 0 <= nrm n f.
Proof. apply rsum_pos. intros m _. apply Rmult_le_pos; [apply Rlt_le, cw_pos|apply Rle_0_sqr]. Qed.
Lemma Cmod_conj (a : C) : Cmod (Cconj a) = Cmod a.
Proof. unfold Cmod, Cconj. cbn. f_equal. ring. Qed.
Lemma Cmod_sq (a : C) : (a * Cconj a)%C = RtoC (Cmod a * Cmod a).
Proof. unfold Cmod. rewrite sqrt_sqrt by (apply Rplus_le_le_0_compat; apply pow2_ge_0). apply Ceq; cbn; ring. Qed.
Lemma ip_self n f : ip n f f = RtoC (nrm n f).
Proof. unfold ip, nrm. rewrite <- csum_R. apply csum_ext. intros m _. rewrite Cmod_sq. unfold cC. rewrite <- RtoC_mult. reflexivity. Qed.
Lemma ip_bound n f g : Cmod (ip n f g) <= sqrt (nrm n f) * sqrt (nrm n g).
Proof.
  apply Rle_trans with (1 := Cmod_csum _ _).
  rewrite (rsum_ext _ _ (fun m => (sqrt (cw n m) * Cmod (f m)) * (sqrt (cw n m) * Cmod (g m)))).
  2:{ intros m _. unfold cC. rewrite !Cmod_mult, Cmod_conj, Cmod_R, Rabs_pos_eq by (apply Rlt_le, cw_pos).
      transitivity ((sqrt (cw n m) * sqrt (cw n m)) * (Cmod (f m) * Cmod (g m))); [|ring]. rewrite sqrt_sqrt by (apply Rlt_le, cw_pos). reflexivity. }
  apply Rle_trans with (1 := Rle_abs _). rewrite <- sqrt_mult by apply nrm_pos. rewrite <- sqrt_Rsqr_abs. apply sqrt_le_1_alt. unfold Rsqr.
  apply Rle_trans with (1 := cauchy _ _ _). apply Req_le. unfold nrm.
  assert (E : forall h : Z -> C, rsum (sym_range n) (fun i => sqrt (cw n i) * Cmod (h i) * (sqrt (cw n i) * Cmod (h i))) = rsum (sym_range n) (fun m => cw n m * (Cmod (h m) * Cmod (h m)))).
  { intros h. apply rsum_ext. intros m _. transitivity ((sqrt (cw n m) * sqrt (cw n m)) * (Cmod (h m) * Cmod (h m))); [ring|]. rewrite sqrt_sqrt by (apply Rlt_le, cw_pos). reflexivity. }
  rewrite !E. reflexivity.
Qed.

(** ** The kernel B_n(x,y) = |x|^n |y|^n P_n(cos) *)
Definition B (n : nat) (x y : pt) : C := ip n (H x n) (H y n).
Lemma B_bil n x y : B n x y = bil (uP x) (zP x) (wP x) (Cconj (uP y)) (Cconj (zP y)) (Cconj (wP y)) n.
Proof. unfold B, ip, bil. apply csum_ext. intros m _. unfold H. rewrite T_conj. reflexivity. Qed.
Lemma rr_H x : rr (uP x) (zP x) (wP x) = RtoC (square x).
Proof. unfold rr, uP, zP, wP, square. apply Ceq; cbn; field. Qed.
Lemma rr_Hc x : rr (Cconj (uP x)) (Cconj (zP x)) (Cconj (wP x)) = RtoC (square x).
Proof. unfold rr, uP, zP, wP, square. apply Ceq; cbn; field. Qed.
Lemma sig_H x y : sig (uP x) (zP x) (wP x) (Cconj (uP y)) (Cconj (zP y)) (Cconj (wP y)) = RtoC (dot x y).
Proof. unfold sig, uP, zP, wP, dot. apply Ceq; cbn; field. Qed.
Definition RB (n : nat) (x y : pt) : R := fst (B n x y).
Lemma B_0 x y : B 0 x y = RtoC 1. Proof. rewrite B_bil. apply bil_0. Qed.
Lemma B_1 x y : B 1 x y = RtoC (dot x y). Proof. rewrite B_bil, bil_1. apply sig_H. Qed.
Lemma B_SS n x y : (nC (S (S n)) * B (S (S n)) x y = nC (2 * n + 3) * RtoC (dot x y) * B (S n) x y - nC (S n) * RtoC (square x * square y) * B n x y)%C.
Proof. rewrite !B_bil, bonnet, sig_H, rr_H, rr_Hc, RtoC_mult. reflexivity. Qed.
Lemma B_real n x y : B n x y = RtoC (RB n x y) /\ B (S n) x y = RtoC (RB (S n) x y).
Proof.
  induction n as [|n [I1 I2]]; [unfold RB; rewrite B_0, B_1; auto|]. split; auto. unfold RB. assert (E := B_SS n x y). rewrite I1, I2 in E.
  assert (E2 : B (S (S n)) x y = RtoC ((INR (2 * n + 3) * dot x y * RB (S n) x y - INR (S n) * (square x * square y) * RB n x y) / INR (S (S n)))).
  { apply (Ceq_reg_l (nC (S (S n)))); [apply nC_nz|]. rewrite E. unfold nC. rewrite <- !RtoC_mult, <- RtoC_minus. f_equal. field. apply not_0_INR. lia. }
  rewrite E2. reflexivity.
Qed.
Lemma B_RB n x y : B n x y = RtoC (RB n x y). Proof. apply B_real. Qed.
Lemma RB_0 x y : RB 0 x y = 1. Proof. unfold RB. rewrite B_0. reflexivity. Qed.
Lemma RB_1 x y : RB 1 x y = dot x y. Proof. unfold RB. rewrite B_1. reflexivity. Qed.
Lemma RB_SS n x y : INR (S (S n)) * RB (S (S n)) x y = INR (2 * n + 3) * dot x y * RB (S n) x y - INR (S n) * (square x * square y) * RB n x y.
Proof. assert (E := B_SS n x y). rewrite !B_RB in E. unfold nC in E. rewrite <- !RtoC_mult, <- RtoC_minus in E. apply RtoC_inj in E. exact E. Qed.
Lemma dot_self x : dot x x = square x. Proof. unfold dot, square. ring. Qed.
Lemma RB_self n x : RB n x x = square x ^ n /\ RB (S n) x x = square x ^ S n.
Proof.
  induction n as [|n [I1 I2]]; [rewrite RB_0, RB_1, dot_self; cbn; split; ring|]. split; auto. assert (E := RB_SS n x x). rewrite I1, I2, dot_self in E.
  apply (Rmult_eq_reg_l (INR (S (S n)))); [|apply not_0_INR; lia]. rewrite E. replace (2 * n + 3)%nat with (S n + S (S n))%nat by lia. rewrite plus_INR. cbn [pow]. ring.
Qed.
Lemma nrm_H n x : nrm n (H x n) = square x ^ n.
Proof. assert (E := ip_self n (H x n)). change (ip n (H x n) (H x n)) with (B n x x) in E. rewrite B_RB in E. apply RtoC_inj in E. rewrite <- E. apply RB_self. Qed.
Lemma sqrt_nrm_H n x : sqrt (nrm n (H x n)) = rho_ x ^ n.
Proof. rewrite nrm_H, <- rho_sq. rewrite Rpow_mult_distr. apply sqrt_square. apply pow_le, sqrt_pos. Qed.
Lemma RB_bound n x y : Rabs (RB n x y) <= rho_ x ^ n * rho_ y ^ n.
Proof. rewrite <- Cmod_R, <- B_RB. rewrite <- !sqrt_nrm_H. apply ip_bound. Qed.
