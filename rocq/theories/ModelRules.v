(** * The singular rules evaluated by FEValues (bem_problem.cc 1118-1151)

    ModelAssemble takes the kernel values at the points of the singular rules as a parameter.  Here they are what the
    loop computes: LaplaceKernel::kernels(R, D, s) with R = singular_q_points[q] - support_points[i], the factor
    s, or D * singular_normals[q].  In 2D the third component is not read. *)
From Coq Require Import Reals List Arith Bool QArith Qreals.
From Verif Require Import ModelOctree ModelFmm ModelAssemble.
From Verif Require ModelKernel.
Import ListNotations.
Local Open Scope nat_scope.

(** fe_v_singular.reinit(cell) with get_singular_quadrature(idx): points, normals, shape values, JxW *)
Record singular_points := {
  sp_n : nat -> nat;
  sp_at : nat -> nat -> nat -> ModelKernel.vec;      (* cell, idx, point *)
  sp_normal : nat -> nat -> nat -> ModelKernel.vec;  (* cell, idx, point *)
  sp_shape : nat -> nat -> nat -> R;                 (* idx, point, local function *)
  sp_jxw : nat -> nat -> nat -> R }.                 (* cell, idx, point *)
(** support_points[i] and q_points[q] *)
Definition coords (p : pt) : ModelKernel.vec := fun k => match k with 0 => Q2R (px p) | 1 => Q2R (py p) | _ => Q2R (pz p) end.
Definition dotn (dim : nat) (u v : ModelKernel.vec) : R := fold_left (fun s k => s + u k * v k)%R (seq 0 dim) 0%R.

(** dim is 2 or 3 *)
Definition kernel_s (dim : nat) (r : ModelKernel.vec) : R := if Nat.eqb dim 3 then ModelKernel.kernels3_d r else ModelKernel.kernels2_d r.
Definition kernel_D (dim : nat) (r : ModelKernel.vec) : ModelKernel.vec := if Nat.eqb dim 3 then ModelKernel.kernels3_D r else ModelKernel.kernels2_D r.
Definition difference (x y : ModelKernel.vec) : ModelKernel.vec := fun k => (x k - y k)%R.

(** which matrix: dirichlet_matrix (s) or neumann_matrix (D * normal), bem_problem.cc 896-901, 1143-1150 *)
Inductive matrix := dirichlet_matrix | neumann_matrix.
Definition point_kernel (dim : nat) (m : matrix) (x : ModelKernel.vec) (n : ModelKernel.vec) (y : ModelKernel.vec) : R :=
  match m with
  | dirichlet_matrix => kernel_s dim (difference x y)
  | neumann_matrix => dotn dim (kernel_D dim (difference x y)) n
  end.
(** the regular rule: q_points, normals, shape_value, JxW (bem_problem.cc 836-848, 888-903) *)
Record regular_points := {
  rp_at : nat -> ModelKernel.vec;         (* point, numbered cell by cell *)
  rp_normal : nat -> ModelKernel.vec;
  rp_shape : nat -> nat -> R;             (* point, local function *)
  rp_jxw : nat -> R }.
Definition regular_kern (dim : nat) (m : matrix) (node : nat -> ModelKernel.vec) (P : regular_points) : kern := {|
  kd := fun i q => point_kernel dim m (rp_at P q) (rp_normal P q) (node i);
  shp := rp_shape P; jxw := rp_jxw P; sing := fun _ _ _ => 0%R |}.
Definition rule_at (dim : nat) (m : matrix) (node : nat -> ModelKernel.vec) (P : singular_points) : singular_rule := {|
  sr_n := sp_n P;
  sr_kernel := fun i c idx q => point_kernel dim m (sp_at P c idx q) (sp_normal P c idx q) (node i);
  sr_shape := sp_shape P; sr_jxw := sp_jxw P |}.
(** assemble_system on the data of FEValues (bem_problem.cc 752-1166): the matrix as stored *)
Definition stored (dim : nat) (m : matrix) (I : oin) (node : nat -> ModelKernel.vec) (P : regular_points) (S : singular_points) (owned : nat -> bool) (i d : nat) : R :=
  entry (assemble_adds I (regular_kern dim m node P) (rule_at dim m node S) owned) i d.
(** its vmult at an owned row *)
Definition stored_vmult (dim : nat) (m : matrix) (I : oin) (node : nat -> ModelKernel.vec) (P : regular_points) (S : singular_points) (owned : nat -> bool) (v : nat -> R) (i : nat) : R :=
  direct_vmult I (regular_kern dim m node P) (rule_at dim m node S) owned v i.
