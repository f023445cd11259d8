(** * L2 projections on the vector finite element space: compute_normals (bem_problem.cc 2914-3017),
    compute_surface_gradients (2425-2569) and compute_gradients (2261-2422).

    The three functions assemble the same matrix and a right-hand side that differs only in the projected field.
    FEValues data (shape values, JxW, normals, gradients of phi) are parameters.  Hanging-node constraints
    (vector_constraints) are homogeneous: every dof is a combination of other dofs, itself if unconstrained;
    AffineConstraints::distribute_local_to_global spreads rows and columns over these combinations (deal.II
    contract; the positive diagonal entries it gives to constrained rows are left out, since
    vector_constraints.distribute overwrites those dofs). *)
From Coq Require Import Reals List Arith Bool.
From Verif Require Import LibSum.
Import ListNotations.
Local Open Scope nat_scope.

Record projection := {
  p_dofs : nat;                          (* gradient_dh.n_dofs() *)
  p_cells : nat;                         (* active cells *)
  p_cdofs : nat -> list nat;             (* vector_local_dof_indices of a cell *)
  p_comp : nat -> nat;                   (* gradient_fe->system_to_component_index(i).first *)
  p_points : nat;                        (* vector_n_q_points *)
  p_shape : nat -> nat -> nat -> R;      (* cell, local index, point *)
  p_jxw : nat -> nat -> R;               (* cell, point *)
  p_sub : nat -> nat;                    (* subdomain_id of a cell *)
  p_con : nat -> list (nat * R) }.       (* a dof as a combination of dofs *)

(** local_gradients_matrix, local_gradients_rhs after the loops over q, i, j (2346-2384, 2520-2549, 2965-2987) *)
Definition local_matrix (P : projection) (c i j : nat) : R :=
  fold_left (fun a q => if Nat.eqb (p_comp P i) (p_comp P j) then (a + p_shape P c i q * p_shape P c j q * p_jxw P c q)%R else a)
            (seq 0 (p_points P)) 0%R.
Definition local_rhs (P : projection) (G : nat -> nat -> nat -> R) (c i : nat) : R :=
  fold_left (fun a q => (a + p_shape P c i q * G c q (p_comp P i) * p_jxw P c q)%R) (seq 0 (p_points P)) 0%R.
Definition locals (P : projection) (c : nat) : list nat := seq 0 (length (p_cdofs P c)).
Definition gdof (P : projection) (c i : nat) : nat := nth i (p_cdofs P c) 0.
(** the adds of process me: cells with its subdomain id (2331, 2505, 2956), distributed over the constraints *)
Definition matrix_adds (P : projection) (me : nat) : list (nat * nat * R) :=
  flat_map (fun c => if Nat.eqb (p_sub P c) me then
      flat_map (fun i => flat_map (fun j =>
        flat_map (fun ew => map (fun fv => (fst ew, fst fv, (snd ew * snd fv * local_matrix P c i j)%R)) (p_con P (gdof P c j)))
                 (p_con P (gdof P c i)))
        (locals P c)) (locals P c)
    else []) (seq 0 (p_cells P)).
Definition rhs_adds (P : projection) (G : nat -> nat -> nat -> R) (me : nat) : list (nat * R) :=
  flat_map (fun c => if Nat.eqb (p_sub P c) me then
      flat_map (fun i => map (fun ew => (fst ew, (snd ew * local_rhs P G c i)%R)) (p_con P (gdof P c i))) (locals P c)
    else []) (seq 0 (p_cells P)).
(** matrix and vector after compress(add) over np processes *)
Definition matrix_entry (P : projection) (np d e : nat) : R :=
  suml (seq 0 np) (fun me => suml (matrix_adds P me) (fun x => if Nat.eqb (fst (fst x)) d && Nat.eqb (snd (fst x)) e then snd x else 0%R)).
Definition rhs_entry (P : projection) (G : nat -> nat -> nat -> R) (np d : nat) : R :=
  suml (seq 0 np) (fun me => suml (rhs_adds P G me) (fun x => if Nat.eqb (fst x) d then snd x else 0%R)).
(** the linear system the solver is asked to solve, solved exactly *)
Definition solves (P : projection) (G : nat -> nat -> nat -> R) (np : nat) (x : nat -> R) : Prop :=
  forall d, d < p_dofs P -> suml (seq 0 (p_dofs P)) (fun e => matrix_entry P np d e * x e)%R = rhs_entry P G np d.
(** vector_constraints.distribute *)
Definition distribute (P : projection) (x : nat -> R) : nat -> R := fun d => suml (p_con P d) (fun ew => snd ew * x (fst ew))%R.

(** the projected fields *)
Definition normals_field (normal : nat -> nat -> nat -> R) : nat -> nat -> nat -> R := normal.                       (* 2984-2986 *)
Definition surface_gradient_field (sg : nat -> nat -> nat -> R) : nat -> nat -> nat -> R := sg.                      (* 2528 *)
Definition gradient_field (normal : nat -> nat -> nat -> R) (dn : nat -> nat -> R) (sg : nat -> nat -> nat -> R) : nat -> nat -> nat -> R :=
  fun c q k => (normal c q k * dn c q + sg c q k)%R.                                                                (* 2356-2357 *)
