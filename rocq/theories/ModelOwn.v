(** * Numbering and ownership of dofs: BEMProblem::reinit (source/bem_problem.cc 172-300, 352-393), the
    tables of compute_reordering_vectors (731-751), and the reads of "the first owned dof"
    (bem_problem.cc 1804-1807, boundary_conditions.cc 186-189).

    deal.II's part, as documented and implemented there: DoFTools::get_subdomain_association visits the
    active cells and gives a dof on an interface to one of its subdomains (the smaller id);
    DoFRenumbering::compute_subdomain_wise numbers the dofs subdomain by subdomain, keeping their order
    within each; after component_wise the dof of component d at scalar dof i of the vector-valued handler
    has index d * n + i and lies on the same cells (both handlers live on one mesh and, in pi-BEM,
    use the same scalar element). *)
From Coq Require Import List Arith Bool Reals.
From Verif Require Import ModelBem ModelBc.
Import ListNotations.
Local Open Scope nat_scope.

Record numbering := {
  nu_n : nat;                       (* dh.n_dofs() *)
  nu_dim : nat;
  nu_cells : nat;                   (* active cells, in the order of the iteration *)
  nu_dofs : nat -> list nat;        (* dofs of a cell, after component_wise *)
  nu_vdofs : nat -> list nat;       (* the same for gradient_dh *)
  nu_sub : nat -> nat;              (* subdomain id of a cell (GridTools::partition_triangulation) *)
  nu_np : nat }.                    (* number of processes *)

Definition memb (i : nat) (l : list nat) : bool := existsb (Nat.eqb i) l.

(** DoFTools::get_subdomain_association (called at bem_problem.cc 228, 232 and inside
    compute_subdomain_wise): None is invalid_subdomain_id *)
Definition assoc_step (dofs : nat -> list nat) (sub : nat -> nat) (i : nat) (a : option nat) (c : nat) : option nat :=
  if memb i (dofs c) then match a with None => Some (sub c) | Some s => Some (Nat.min s (sub c)) end else a.
Definition association (cells : nat) (dofs : nat -> list nat) (sub : nat -> nat) (i : nat) : option nat :=
  fold_left (assoc_step dofs sub i) (seq 0 cells) None.
Definition is_sub (a : option nat) (s : nat) : bool := match a with Some t => Nat.eqb t s | None => false end.

(** DoFRenumbering::compute_subdomain_wise (called at bem_problem.cc 740-741; subdomain_wise at 186-187 applies it) *)
Definition subwise_dof (assoc : nat -> option nat) (s : nat) (st : (nat -> nat) * nat) (i : nat) : (nat -> nat) * nat :=
  let (new, next) := st in if is_sub (assoc i) s then (upd new i next, S next) else (new, next).
Definition subwise_loop (n np : nat) (assoc : nat -> option nat) : (nat -> nat) * nat :=
  fold_left (fun st s => fold_left (subwise_dof assoc s) (seq 0 n) st) (seq 0 np) (fun _ => 0, 0).
Definition subdomain_wise (n np : nat) (assoc : nat -> option nat) : nat -> nat := fst (subwise_loop n np assoc).

Section Reinit.
  Variable U : numbering.
  Definition nvec := nu_dim U * nu_n U.
  (** compute_reordering_vectors (731-751) *)
  Definition o2s : nat -> nat := subdomain_wise (nu_n U) (nu_np U) (association (nu_cells U) (nu_dofs U) (nu_sub U)).
  Definition vo2s : nat -> nat := subdomain_wise nvec (nu_np U) (association (nu_cells U) (nu_vdofs U) (nu_sub U)).
  Definition s2o : nat -> nat := inverse_table (nu_n U) o2s.
  Definition vs2o : nat -> nat := inverse_table nvec vo2s.
  (** the handlers after DoFRenumbering::subdomain_wise (186-187) *)
  Definition dofs_now (c : nat) : list nat := map o2s (nu_dofs U c).
  Definition vdofs_now (c : nat) : list nat := map vo2s (nu_vdofs U c).
  (** dofs_domain_association, vector_dofs_domain_association (226-233) *)
  Definition domain_of (i : nat) : option nat := association (nu_cells U) dofs_now (nu_sub U) i.
  Definition vdomain_of (j : nat) : option nat := association (nu_cells U) vdofs_now (nu_sub U) j.
  (** this_cpu_set and vector_this_cpu_set of process me (236-267) *)
  Definition cpu_set (me i : nat) : bool := Nat.ltb i (nu_n U) && is_sub (domain_of i) me.
  Definition vcpu_step (me : nat) (v : nat -> bool) (i : nat) : nat -> bool :=
    if is_sub (domain_of i) me
    then fold_left (fun v d => upd v (vec_index nvec (nu_dim U) vo2s s2o d i) true) (seq 0 (nu_dim U)) v else v.
  Definition vcpu_set (me : nat) : nat -> bool := fold_left (vcpu_step me) (seq 0 (nu_n U)) (fun _ => false).
  (** ghosted_set (320-323): the dofs of the cells of this subdomain *)
  Definition ghosted (me i : nat) : bool :=
    existsb (fun c => Nat.eqb (nu_sub U c) me && memb i (dofs_now c)) (seq 0 (nu_cells U)).
  (** IndexSet::nth_index_in_set(0) and *begin(): there is none if the set is empty *)
  Definition first_owned (me : nat) : option nat := find (cpu_set me) (seq 0 (nu_n U)).
  (** phi(first) = phi(first); dphi_dn(first) = dphi_dn(first) in solve_system (1804-1807) *)
  Definition touch_first (me : nat) (phi dphi : nat -> R) : option ((nat -> R) * (nat -> R)) :=
    match first_owned me with Some i => Some (upd phi i (phi i), upd dphi i (dphi i)) | None => None end.
  (** shift on process 0 in solve_problem (boundary_conditions.cc 186-189) *)
  Definition shift0 (pot phi : nat -> R) : option R :=
    match first_owned 0 with Some i => Some (pot i - phi i)%R | None => None end.
End Reinit.
