(** * Vocabulary for the L2 projections (C61). *)
From Coq Require Import Reals List Arith.
From Verif Require Import LibSum ModelProj.
Local Open Scope nat_scope.

(** k-th component at point q of cell c of the finite element function with dof values x *)
Definition value (P : projection) (x : nat -> R) (c q k : nat) : R :=
  suml (locals P c) (fun i => if Nat.eqb (p_comp P i) k then p_shape P c i q * x (gdof P c i) else 0)%R.
(** discrete integral over the surface of u . v, for fields with dim components *)
Definition inner (P : projection) (dim : nat) (u v : nat -> nat -> nat -> R) : R :=
  suml (seq 0 (p_cells P)) (fun c => suml (seq 0 (p_points P)) (fun q => p_jxw P c q * suml (seq 0 dim) (fun k => u c q k * v c q k)))%R.
(** indices in range; cells distributed over np processes *)
Definition well_formed (P : projection) (dim np : nat) : Prop :=
  (forall c, c < p_cells P -> p_sub P c < np) /\ (forall i, p_comp P i < dim) /\
  (forall c i, c < p_cells P -> i < length (p_cdofs P c) -> forall ew, In ew (p_con P (gdof P c i)) -> fst ew < p_dofs P).
(** a finite element field vanishing at all quadrature points of the cells with t has zero dof values on them *)
Definition unisolvent (P : projection) (dim : nat) (t : nat -> bool) : Prop := forall x,
  (forall c q k, c < p_cells P -> t c = true -> q < p_points P -> k < dim -> value P x c q k = 0%R) ->
  forall c i, c < p_cells P -> t c = true -> i < length (p_cdofs P c) -> x (gdof P c i) = 0%R.
(** the cells with t true share no unconstrained dof with the others *)
Definition separated (P : projection) (t : nat -> bool) : Prop := forall c c' i j,
  c < p_cells P -> c' < p_cells P -> t c = true -> t c' = false -> i < length (p_cdofs P c) -> j < length (p_cdofs P c') ->
  forall ew ew', In ew (p_con P (gdof P c i)) -> In ew' (p_con P (gdof P c' j)) -> fst ew <> fst ew'.
(** the same problem with another assignment of cells to processes *)
Definition with_sub (P : projection) (s : nat -> nat) : projection :=
  {| p_dofs := p_dofs P; p_cells := p_cells P; p_cdofs := p_cdofs P; p_comp := p_comp P; p_points := p_points P;
     p_shape := p_shape P; p_jxw := p_jxw P; p_sub := s; p_con := p_con P |}.
