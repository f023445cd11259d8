(** * Direct assembly of the BEM matrices (bem_problem.cc 752-1245) and the quadrature rules of the two modes.

    The mesh data (cells, local dofs, quadrature points, double-node sets) are those of [oin]; the kernel values,
    shape function values and JxW at the regular points are those of [kern] (Neumann matrix: D * normal,
    Dirichlet matrix: s); the two matrices are two instances.  FEValues and the rules are parameters. *)
From Coq Require Import Reals List Arith Bool.
From Verif Require Import ModelOctree ModelFmm.
Import ListNotations.
Local Open Scope nat_scope.

(** first local index whose dof is in the double-node set of i: is_singular and singular_index
    (bem_problem.cc 866-877; the same loop in bem_fma.cc 855-868) *)
Fixpoint first_in (dbl : list nat) (l : list nat) (j : nat) : option nat :=
  match l with [] => None | d :: r => if mem d dbl then Some j else first_in dbl r (S j) end.
Definition singular_index (I : oin) (i c : nat) : option nat := first_in (o_dbl I i) (o_cdofs I c) 0.

(** FEValues of the singular rule number idx on cell c: number of points, kernel between node i and the
    point, shape function value, JxW (bem_problem.cc 1120-1151, bem_fma.cc 944-1005) *)
Record singular_rule := {
  sr_n : nat -> nat;
  sr_kernel : nat -> nat -> nat -> nat -> R;  (* node, cell, idx, point *)
  sr_shape : nat -> nat -> nat -> R;          (* idx, point, local function *)
  sr_jxw : nat -> nat -> nat -> R }.          (* cell, idx, point *)
Definition singular_row `{arith} (S : singular_rule) (i c idx : nat) : nat -> R := fun j =>
  fold_left (fun a q => aadd a (amul (amul (sr_kernel S i c idx q) (sr_shape S idx q j)) (sr_jxw S c idx q))) (seq 0 (sr_n S idx)) 0%R.
(** the value the FMM model calls [sing] *)
Definition singular_of `{arith} (I : oin) (S : singular_rule) (i c j : nat) : R :=
  match singular_index I i c with Some idx => singular_row S i c idx j | None => 0%R end.

(** local_*_matrix_row_i (bem_problem.cc 888-910 and 1138-1151) *)
Definition local_row `{arith} (I : oin) (K : kern) (S : singular_rule) (i c : nat) : nat -> R :=
  match singular_index I i c with
  | None => fun j => fold_left (fun a q => aadd a (amul (amul (kd K i q) (shp K q j)) (jxw K q))) (quads_of_cell I c) 0%R
  | Some idx => singular_row S i c idx
  end.
(** all matrix.add(i, local_dof_indices[j], row(j)) calls, in order (bem_problem.cc 832-1166) *)
Definition assemble_adds `{arith} (I : oin) (K : kern) (S : singular_rule) (owned : nat -> bool) : list (nat * nat * R) :=
  flat_map (fun c =>
    flat_map (fun i => if owned i then
        map (fun j => (i, nth j (o_cdofs I c) 0, local_row I K S i c j)) (seq 0 (length (o_cdofs I c)))
      else []) (seq 0 (o_nd I)))
    (seq 0 (o_nc I)).
(** full_sparsity_pattern: owned rows, all columns (bem_problem.cc 338-347) *)
Definition full_pattern (I : oin) (owned : nat -> bool) : list (nat * nat) :=
  flat_map (fun i => map (fun j => (i, j)) (seq 0 (o_nd I))) (filter owned (seq 0 (o_nd I))).
(** the rounded values of kernels, shape functions and JxW are the inputs; the additions and products of the code
    (bem_problem.cc 888-910, 1138-1166) are those of [arith].
    matrix.vmult at an owned row; Epetra stores a row by local column number, which depends on the distribution of the
    dofs, so the order of the columns is an argument *)
Definition row_product `{arith} (I : oin) (K : kern) (S : singular_rule) (owned : nat -> bool) (cols : list nat) (phi : nat -> R) (i : nat) : R :=
  fold_left (fun a d => aadd a (amul (entry (assemble_adds I K S owned) i d) (phi d))) cols 0%R.
(** ... in the order of the numbers (one process) *)
Definition direct_vmult `{arith} (I : oin) (K : kern) (S : singular_rule) (owned : nat -> bool) (phi : nat -> R) (i : nat) : R :=
  fold_left (fun a d => aadd a (amul (entry (assemble_adds I K S owned) i d) (phi d))) (seq 0 (o_nd I)) 0%R.

(** ** Which rules the two modes use *)
(** QuadratureSelector (deal.II): the order is used by "gauss" only *)
Inductive quad_type := gauss | midpoint | milne | simpson | trapez | weddle.
Inductive rule := QGauss (n : nat) | QMidpoint | QMilne | QSimpson | QTrapez | QWeddle
                | QSplitDuffy (n idx : nat) | QTelles (n idx : nat).
Definition select (t : quad_type) (n : nat) : rule :=
  match t with gauss => QGauss n | midpoint => QMidpoint | milne => QMilne | simpson => QSimpson | trapez => QTrapez | weddle => QWeddle end.
(** "Direct": *quadrature from parse_parameters (bem_problem.cc 538-540) and get_singular_quadrature (421-456) *)
Definition direct_regular (t : quad_type) (n : nat) : rule := select t n.
Definition direct_singular (dim n idx : nat) : rule := if Nat.eqb dim 3 then QSplitDuffy n idx else QTelles n idx.
(** "FMM": generate_octree_blocking (bem_fma.cc 3864) and direct_integrals (bem_fma.cc 151-156); init_fma receives
    the orders only (bem_problem.cc 364-369) *)
Definition fmm_regular (t : quad_type) (n : nat) : rule := QGauss n.
Definition fmm_singular (dim n idx : nat) : rule := QTelles n idx.
