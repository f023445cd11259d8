(** * Singular kernel integrals: polar decomposition of the reference cell, Laurent coefficients.

    Models source/singular_kernel_integral.cc: SingularKernelIntegral<3>::evaluate_VkNj_integrals (40-625),
    evaluate_WkNj_integrals (638-1217), evaluate_free_term_b (1231-1547).

    Doubles are real numbers; a division by zero is None.  Not modelled: FEValues and Mapping of deal.II,
    which enter as the data they return (positions X, jacobian, jacobian_grad, shape values; see
    SpecSing); the 1D triangulations of the code are single segments [theta_0, theta_1] and [0, 1] with
    affine maps, so their quadrature points and JxW are the affine images of those of QGauss (quad). *)
From Coq Require Import ZArith List Reals Lia Lra Bool.
From Verif Require Import ModelLegendre ModelLegApi ModelExp.
Import ListNotations.
Local Open Scope R_scope.

(** Point<2>: the singular point eta and the vertices csi_0, csi_1 *)
Record pt2 := P2 { px : R; py : R }.

(** ** The switch on the faces, lines 217-256 (again 816-855, 1387-1427): csi_0, csi_1, coeff *)
Definition csi_0 (eta : pt2) (f : nat) : pt2 :=
  match f with
  | 0%nat => P2 (0 - px eta) (1 - py eta)
  | 1%nat => P2 (1 - px eta) (0 - py eta)
  | 2%nat => P2 (0 - px eta) (0 - py eta)
  | 3%nat => P2 (1 - px eta) (1 - py eta)
  | _ => P2 (0 - px eta) (0 - py eta)
  end.
Definition csi_1 (eta : pt2) (f : nat) : pt2 :=
  match f with
  | 0%nat => P2 (0 - px eta) (0 - py eta)
  | 1%nat => P2 (1 - px eta) (1 - py eta)
  | 2%nat => P2 (1 - px eta) (0 - py eta)
  | 3%nat => P2 (0 - px eta) (1 - py eta)
  | _ => P2 (0 - px eta) (0 - py eta)
  end.
Definition face_coeff (eta : pt2) (f : nat) : R :=
  if Nat.ltb f 2 then px (csi_0 eta f) else py (csi_1 eta f).
Definition is0 (x : R) : bool := if Req_EM_T x 0 then true else false.
(** lines 258-261 (again 857-860, 1429-1432): the face holding the singularity is skipped *)
Definition face_skipped (eta : pt2) (f : nat) : bool :=
  (is0 (px (csi_0 eta f)) && is0 (px (csi_1 eta f))) || (is0 (py (csi_0 eta f)) && is0 (py (csi_1 eta f))).
(** lines 267-272 (again 866-871, 1438-1443): atan2 moved to [0, 2 pi) *)
Definition angle (c : pt2) : R := let t := atan2 (py c) (px c) in if Rlt_dec t 0 then t + 2 * PI else t.
(** lines 267-277 (again 866-876, 1438-1448): the interval [theta_0, theta_1] of a face, None when it is skipped *)
Definition face_interval (eta : pt2) (f : nat) : option (R * R) :=
  if face_skipped eta f then None
  else let t0 := angle (csi_0 eta f) in let t1 := angle (csi_1 eta f) in
       Some (if Rlt_dec t1 t0 then t0 - 2 * PI else t0, t1).
(** lines 393-401 (again 992-1000): the radius at which the ray of angle t leaves the cell through face f *)
Definition q_rho (eta : pt2) (f : nat) (t : R) : option R :=
  let a := if Nat.ltb f 2 then 0 else 1 in
  let b := if Nat.ltb f 2 then 1 else 0 in
  rdiv (face_coeff eta f) (a * sin t + b * cos t).
(** lines 410-412 and 526-528 (again 1009-1011, 1121-1123): the point of the reference cell in polar coordinates *)
Definition uv_point (eta : pt2) (rho t : R) : pt2 := P2 (rho * cos t + px eta) (rho * sin t + py eta).

(** ** Geometry at the singular point.  Tensor<1,3> is a function of the component 0, 1, 2; jac i j is
    eta_jacobian[i][j] and jgrad i j k is eta_jacobian_grad[i][j][k]. *)
Definition vec := nat -> R.
Definition vdot (a b : vec) : R := a 0%nat * b 0%nat + a 1%nat * b 1%nat + a 2%nat * b 2%nat.
Definition vnorm (a : vec) : R := sqrt (vdot a a).
Definition vadd (a b : vec) : vec := fun i => a i + b i.
Definition vsub (a b : vec) : vec := fun i => a i - b i.
Definition vscale (c : R) (a : vec) : vec := fun i => c * a i.

(** eta_Jxn, lines 151-157 and 748-754 *)
Definition eta_Jxn (jac : nat -> nat -> R) : vec := fun i =>
  match i with
  | 0%nat => jac 1%nat 0%nat * jac 2%nat 1%nat - jac 1%nat 1%nat * jac 2%nat 0%nat
  | 1%nat => jac 0%nat 1%nat * jac 2%nat 0%nat - jac 0%nat 0%nat * jac 2%nat 1%nat
  | _ => jac 0%nat 0%nat * jac 1%nat 1%nat - jac 0%nat 1%nat * jac 1%nat 0%nat
  end.
(** eta_g, lines 1324-1330 *)
Definition eta_g (jac : nat -> nat -> R) : vec := fun i =>
  match i with
  | 0%nat => jac 1%nat 0%nat * jac 2%nat 1%nat - jac 1%nat 1%nat * jac 2%nat 0%nat
  | 1%nat => jac 2%nat 0%nat * jac 0%nat 1%nat - jac 2%nat 1%nat * jac 0%nat 0%nat
  | _ => jac 0%nat 0%nat * jac 1%nat 1%nat - jac 0%nat 1%nat * jac 1%nat 0%nat
  end.
(** d_eta_Jxn_du, lines 160-172 (again 757-769, 1343-1355) *)
Definition d_eta_Jxn_du (jac : nat -> nat -> R) (g : nat -> nat -> nat -> R) : vec := fun i =>
  match i with
  | 0%nat => g 1%nat 0%nat 0%nat * jac 2%nat 1%nat + jac 1%nat 0%nat * g 2%nat 1%nat 0%nat
             - g 1%nat 1%nat 0%nat * jac 2%nat 0%nat - jac 1%nat 1%nat * g 2%nat 0%nat 0%nat
  | 1%nat => g 0%nat 1%nat 0%nat * jac 2%nat 0%nat + jac 0%nat 1%nat * g 2%nat 0%nat 0%nat
             - g 0%nat 0%nat 0%nat * jac 2%nat 1%nat - jac 0%nat 0%nat * g 2%nat 1%nat 0%nat
  | _ => g 0%nat 0%nat 0%nat * jac 1%nat 1%nat + jac 0%nat 0%nat * g 1%nat 1%nat 0%nat
         - g 0%nat 1%nat 0%nat * jac 1%nat 0%nat - jac 0%nat 1%nat * g 1%nat 0%nat 0%nat
  end.
(** d_eta_Jxn_dv, lines 175-187 (again 772-784, 1358-1370) *)
Definition d_eta_Jxn_dv (jac : nat -> nat -> R) (g : nat -> nat -> nat -> R) : vec := fun i =>
  match i with
  | 0%nat => g 1%nat 0%nat 1%nat * jac 2%nat 1%nat + jac 1%nat 0%nat * g 2%nat 1%nat 1%nat
             - g 1%nat 1%nat 1%nat * jac 2%nat 0%nat - jac 1%nat 1%nat * g 2%nat 0%nat 1%nat
  | 1%nat => g 0%nat 1%nat 1%nat * jac 2%nat 0%nat + jac 0%nat 1%nat * g 2%nat 0%nat 1%nat
             - g 0%nat 0%nat 1%nat * jac 2%nat 1%nat - jac 0%nat 0%nat * g 2%nat 1%nat 1%nat
  | _ => g 0%nat 0%nat 1%nat * jac 1%nat 1%nat + jac 0%nat 0%nat * g 1%nat 1%nat 1%nat
         - g 0%nat 1%nat 1%nat * jac 1%nat 0%nat - jac 0%nat 1%nat * g 1%nat 0%nat 1%nat
  end.

(** What FEValues returns at eta: jacobian(0), jacobian_grad(0) of the mapping; shape_value(ii, 0) and
    shape_grad(ii, 0) of one shape function on the reference cell (lines 134-147, 729-744, 1317-1319) *)
Record eta_data := EtaData { d_jac : nat -> nat -> R; d_grad : nat -> nat -> nat -> R; d_N : R; d_dN : nat -> R }.

(** ** Theta dependent coefficients, lines 442-468 (again 1043-1070) *)
Definition coef_A (d : eta_data) (t : R) : vec := fun i => d_jac d i 0%nat * cos t + d_jac d i 1%nat * sin t.
Definition coef_B (d : eta_data) (t : R) : vec := fun i =>
  d_grad d i 0%nat 0%nat * (cos t) ^ 2 / 2 + d_grad d i 0%nat 1%nat * cos t * sin t + d_grad d i 1%nat 1%nat * (sin t) ^ 2 / 2.
Definition q_A (d : eta_data) (t : R) : R := vnorm (coef_A d t).
Definition q_C (d : eta_data) (t : R) : R := vdot (coef_A d t) (coef_B d t).
Definition Jk0 (d : eta_data) : vec := eta_Jxn (d_jac d).
Definition Jk1 (d : eta_data) (t : R) : vec :=
  vadd (vscale (cos t) (d_eta_Jxn_du (d_jac d) (d_grad d))) (vscale (sin t) (d_eta_Jxn_dv (d_jac d) (d_grad d))).
Definition N0 (d : eta_data) : R := d_N d.
Definition N1 (d : eta_data) (t : R) : R := d_dN d 0%nat * cos t + d_dN d 1%nat * sin t.
Definition beta (d : eta_data) (t : R) : R := 1 / q_A d t.                       (* line 476 *)
Definition gamma (d : eta_data) (t : R) : R := - q_C d t / q_A d t ^ 4.          (* line 477 *)

(** ** Hypersingular kernel: F_2, F_1 (lines 482-489) and the integrands (lines 566-573) *)
Definition V_F2 (d : eta_data) (t : R) : vec := fun i => Jk0 d i / q_A d t ^ 3 * N0 d.
Definition V_F1 (d : eta_data) (t : R) : vec := fun i =>
  (-3 * q_C d t * Jk0 d i / q_A d t ^ 5
   - 3 * coef_A d t i / q_A d t ^ 5 * (vdot (Jk0 d) (coef_B d t) + vdot (Jk1 d t) (coef_A d t))
   + Jk1 d t i / q_A d t ^ 3) * N0 d
  + Jk0 d i / q_A d t ^ 3 * N1 d t.
(** fun, lines 566-570: R from the singularity to the quadrature point, n its normal, N the shape value *)
Definition V_fun (R_ n : vec) (N : R) : vec := let r := vnorm R_ in fun i =>
  -1 / r ^ 3 * (3 * (R_ i / r) * (vdot R_ n / r) - n i) * N.
(** arg, lines 571-573; the same expression in evaluate_WkNj_integrals, lines 1164-1166 *)
Definition sing_arg (fn F2 F1 : vec) (rho JxW : R) : vec := fun i => fn i * rho * JxW - F2 i / rho ^ 2 - F1 i / rho.
(** the contributions of one theta quadrature point to I_2 and I_1, lines 497-500 *)
Definition V_I2_term (d : eta_data) (t rhohat : R) : vec := fun i => - V_F2 d t i * (gamma d t / beta d t ^ 2 + 1 / rhohat).
Definition V_I1_term (d : eta_data) (t rhohat : R) : vec := fun i => V_F1 d t i * ln (Rabs (rhohat / beta d t)).

(** ** Strongly singular kernel: F_2 = 0 and F_1 (lines 1084-1085; J0 line 803), fun (lines 1161-1163) *)
Definition W_F2 (d : eta_data) (t : R) : vec := fun _ => 0.
Definition W_F1 (d : eta_data) (t : R) : vec := fun i => coef_A d t i * vnorm (eta_Jxn (d_jac d)) / q_A d t ^ 3 * N0 d.
Definition W_fun (R_ : vec) (N : R) : vec := fun i => 1 / vnorm R_ ^ 3 * R_ i * N.
Definition W_I1_term (d : eta_data) (t rhohat : R) : vec := fun i => W_F1 d t i * ln (Rabs (rhohat / beta d t)).   (* 1094-1095 *)

(** ** The free term, lines 1333-1334 and 1518-1541: integrand in theta *)
Definition r_rho (d : eta_data) (t : R) : vec := fun i => d_jac d i 0%nat * cos t + d_jac d i 1%nat * sin t.
Definition r_rhorho (d : eta_data) (t : R) : vec := fun i =>
  d_grad d i 0%nat 0%nat * (cos t) ^ 2 + 2 * d_grad d i 0%nat 1%nat * cos t * sin t + d_grad d i 1%nat 1%nat * (sin t) ^ 2.
Definition b_term (d : eta_data) (t : R) : vec :=
  let g := eta_g (d_jac d) in
  let tmp := g 0%nat / vnorm g * r_rhorho d t 0%nat + g 1%nat / vnorm g * r_rhorho d t 1%nat + g 2%nat / vnorm g * r_rhorho d t 2%nat in
  fun i => tmp * r_rho d t i * vnorm g / vnorm (r_rho d t) ^ 5.
