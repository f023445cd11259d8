(** * BEMProblem::solve_system as a whole (bem_problem.cc 1701-1815), with hanging nodes.

    The linear solver is not modelled: [solves] says what an exact solution of the system it is given is.
    compute_hypersingular_free_coeffs (called at 1714) changes nothing this function uses. *)
From Coq Require Import Reals List Bool Arith.
From Verif Require Import LibSum ModelBem.
Import ListNotations.
Local Open Scope R_scope.

(** AffineConstraints::merge with the default conflict behaviour (no_conflicts_allowed), as called at
    bem_problem.cc:2091: an exception ([None]) if a dof is constrained by both objects. *)
Definition merge (n : nat) (c hn : constraints) : option constraints :=
  if existsb (fun i => constrained c i && constrained hn i) (seq 0 n) then None
  else Some (fun i => match c i with Some l => Some l | None => hn i end).

(** A vector satisfies a constraint line (a non-finite inhomogeneity is satisfied by nothing). *)
Definition line_holds (l : line) (x : vec) (i : nat) : Prop :=
  exists v, l_inhom l = Some v /\ x i = suml (l_entries l) (fun e => snd e * x (fst e)) + v.
Definition lines_hold (n : nat) (c : constraints) (x : vec) : Prop :=
  forall i l, (i < n)%nat -> c i = Some l -> line_holds l x i.
(** AffineConstraints::close (bem_problem.cc:2092) resolves chains of constraints: the contract is that
    the same dofs are constrained and the same vectors satisfy the lines. *)
Definition closes (n : nat) (c c' : constraints) : Prop :=
  (forall i, constrained c' i = constrained c i) /\ (forall x, lines_hold n c' x <-> lines_hold n c x).

Record system := {
  s_n : nat;
  s_direct : bool;                          (* solution_method == "Direct" *)
  s_N : vec -> vec;                         (* neumann product *)
  s_D : vec -> vec;                         (* dirichlet product *)
  s_dir : nat -> bool;                      (* dirichlet_nodes *)
  s_have_dirichlet : bool;
  s_doubles : nat -> list nat;              (* double_nodes_set *)
  s_normal : nat -> vec3;
  s_sgrad : vec -> nat -> vec3;             (* compute_surface_gradients(tmp_rhs), 1872 *)
  s_cont : bool;                            (* continuos_gradient *)
  s_hanging : constraints;                  (* make_hanging_node_constraints, 1889-1891 *)
  s_close : constraints -> constraints      (* close *)
}.

(** the operator after alpha = 0; compute_alpha() (1711-1713) *)
Definition operator (S : system) : bem := {|
  b_n := s_n S; b_direct := s_direct S; b_N := s_N S; b_D := s_D S;
  b_alpha := compute_alpha (s_N S) fresh_ones;
  b_dir := fun i => if s_dir S i then 1 else 0;
  b_neu := fun i => if s_dir S i then 0 else 1;
  b_have_dirichlet := s_have_dirichlet S |}.

(** compute_constraints (1723, 1863-2111) up to the merge *)
Definition node_constraints (S : system) (rhs : vec) : constraints :=
  compute_constraints {| k_n := s_n S; k_doubles := s_doubles S; k_dir := s_dir S; k_normal := s_normal S;
    k_sgrad := s_sgrad S rhs; k_rhs := rhs; k_cont := s_cont S |}.
Definition all_constraints (S : system) (rhs : vec) : option constraints :=
  match merge (s_n S) (node_constraints S rhs) (s_hanging S) with Some c => Some (s_close S c) | None => None end.

(** 1709-1753: [sol] solves the system handed to GMRES, on the processes with owned sets [owns];
    system_rhs = 0 before compute_rhs (1709, 1720); distribute_rhs (1728). *)
Definition solves (S : system) (owns : list (nat -> bool)) (rhs sol : vec) : Prop :=
  match all_constraints S rhs with
  | None => False
  | Some c => forall i, (i < s_n S)%nat ->
      co_vmult (vmult (operator S)) c (map (fun own => (own, constr_cpu_set (s_n S) c own)) owns) sol i =
      co_distribute_rhs c owns (compute_rhs (operator S) (fun _ => 0) rhs) i
  end.

(** 1786-1808: the vectors handed back *)
Definition solved_phi (S : system) (phi sol : vec) : vec := scatter_phi (operator S) phi sol.
Definition solved_dphi (S : system) (dphi sol : vec) : vec := scatter_dphi (operator S) dphi sol.
