(** * BoundaryConditions::compute_errors (source/boundary_conditions.cc 345-542).

    Process 0 computes everything from gathered copies of the vectors; the vectors are global functions here.
    VectorTools::integrate_difference(..., L2_norm) is deal.II's: per cell the square root of the quadrature of
    the squared difference (the norm of the vector difference for the vector-valued handler).  The output to
    files (505-540) is not modelled. *)
From Coq Require Import List Arith Bool Reals.
From Verif Require Import ModelBem.
Import ListNotations.
Local Open Scope nat_scope.

Section Errors.
  Context {P : Type}.                          (* points *)
  Variables n dim : nat.                       (* dh.n_dofs(), dim; gradient_dh has dim * n dofs *)
  Variables o2s vo2s : nat -> nat.             (* original_to_sub_wise, vec_original_to_sub_wise *)
  Variable support : nat -> P.                 (* map_dofs_to_support_points (371-373) *)
  Variable potential : P -> R.
  Variable wind : P -> nat -> R.
  Variables phi dphi : nat -> R.               (* localized_phi, localized_dphi_dn *)
  Variables grad normals : nat -> R.           (* localized_gradient_solution, localised_normals *)

  (** Vector::linfty_norm, Vector::l2_norm over m entries *)
  Definition linfty (m : nat) (v : nat -> R) : R := fold_left (fun a i => Rmax a (Rabs (v i))) (seq 0 m) 0%R.
  Definition l2 (m : nat) (v : nat -> R) : R := sqrt (fold_left (fun a i => (a + v i * v i)%R) (seq 0 m) 0%R).

  (** vector_gradients_node_error (430-440) *)
  Definition grad_exact : nat -> R :=
    fold_left (fun v d => fold_left (fun v i => upd v (vo2s (d * n + i)) (wind (support (o2s i)) d)) (seq 0 n) v) (seq 0 dim) (fun _ => 0%R).
  Definition grad_node_error (j : nat) : R := (grad_exact j * -1 + 1 * grad j)%R.
  (** phi_node_error (442-449) *)
  Definition phi_node_error (i : nat) : R := (potential (support i) * -1 + 1 * phi i)%R.
  (** dphi_dn_node_error (451-468) *)
  Definition dphi_exact : nat -> R :=
    fold_left (fun v i => fold_left (fun v d => upd v (o2s i) (v (o2s i) + normals (vo2s (i + d * n)) * wind (support (o2s i)) d)%R) (seq 0 dim) v) (seq 0 n) (fun _ => 0%R).
  Definition dphi_node_error (i : nat) : R := (dphi_exact i * -1 + 1 * dphi i)%R.

  (** integrate_difference with L2_norm for one cell: [qs] its quadrature points with weights (JxW), [diff q k]
      the difference of component k *)
  Definition cell_l2 (qs : list (nat * R)) (ncomp : nat) (diff : nat -> nat -> R) : R :=
    sqrt (fold_left (fun a q => (a + snd q * fold_left (fun b k => b + diff (fst q) k * diff (fst q) k) (seq 0 ncomp) 0)%R) qs 0%R).

  Variable cells : nat.
  Variable quads : nat -> list (nat * R).      (* QGauss(2*(2*degree+1)) on each cell *)
  Variable point : nat -> P.                   (* position of a quadrature point *)
  Variable eval : (nat -> R) -> nat -> R.      (* finite element field of dh at a quadrature point *)
  Variable veval : (nat -> R) -> nat -> nat -> R.  (* the same for gradient_dh, by component *)
  (** difference_per_cell, grad_difference_per_cell, difference_per_cell_2 (404-424, 471-479) *)
  Definition phi_cells (c : nat) : R := cell_l2 (quads c) 1 (fun q _ => (eval phi q - potential (point q))%R).
  Definition grad_cells (c : nat) : R := cell_l2 (quads c) dim (fun q k => (veval grad q k - wind (point q) k)%R).
  Definition dphi_cells (c : nat) : R := cell_l2 (quads c) 1 (fun q _ => (eval dphi_node_error q - 0)%R).
  (** what is printed (492-500) *)
  Record report := { e_phi_inf : R; e_phi_l2 : R; e_dphi_inf : R; e_dphi_l2 : R; e_grad_inf : R; e_grad_l2 : R }.
  Definition compute_errors : report :=
    {| e_phi_inf := linfty cells phi_cells;             (* phi_max_error (414) *)
       e_phi_l2 := l2 cells phi_cells;                  (* 427 *)
       e_dphi_inf := linfty n dphi_node_error;
       e_dphi_l2 := l2 cells dphi_cells;                (* 480 *)
       e_grad_inf := linfty (dim * n) grad_node_error;  (* 482 *)
       e_grad_l2 := l2 cells grad_cells |}.             (* 425 *)
End Errors.
