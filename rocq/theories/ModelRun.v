(** * One Direct solve from the mesh to the linear system, for a given number of processes and partition of the cells.

    Composes the models of the steps: BEMProblem::reinit (bem_problem.cc 172-393: numbering, owned sets),
    compute_dirichlet_and_neumann_dofs_vectors (576-682), compute_double_nodes_set (684-729), assemble_system
    (752-1245), BoundaryConditions::solve_problem (boundary_conditions.cc 165-215) with prepare_bem_vectors (217-343),
    and solve_system (1701-1815).

    Simplifications: the nodal normals (compute_normals) and the surface gradients of the imposed data
    (compute_surface_gradients, 1872) are solutions of linear systems posed on the mesh; here they are functions of
    the node.  The rules, shape functions, normals and JxW at the quadrature points are those of FEValues. *)
From Coq Require Import QArith Reals List Bool Arith.
From Verif Require Import LibSum ModelOctree ModelFmm ModelAssemble ModelRules.
From Verif Require ModelKernel.
From Verif Require Import ModelBem ModelBc ModelOwn ModelSolve.
Import ListNotations.
Local Open Scope nat_scope.

(** What does not depend on the processes.  Nodes carry the numbers they have before DoFRenumbering::subdomain_wise. *)
Record problem := {
  p_dim : nat;
  p_n : nat;                               (* dh.n_dofs() *)
  p_cells : nat;                           (* active cells *)
  p_dofs : nat -> list nat;                (* dofs of a cell *)
  p_vdofs : nat -> list nat;               (* of the vector-valued handler *)
  p_mat : nat -> nat;                      (* material ids *)
  p_dirichlet : list nat;                  (* dirichlet_boundary_ids *)
  p_neumann : list nat;                    (* neumann_boundary_ids *)
  p_node : nat -> ModelKernel.vec;         (* support point of a node *)
  p_edge : nat -> bool;                    (* dof on a boundary face (edge_set, 700-714) *)
  p_pot : ModelKernel.vec -> R;            (* potential *)
  p_wind : ModelKernel.vec -> nat -> R;    (* wind *)
  p_normal : nat -> vec3;
  p_sgrad : vec -> nat -> vec3;            (* data at the nodes, node *)
  p_cont : bool;                           (* continuos_gradient *)
  p_hanging : constraints;                 (* make_hanging_node_constraints *)
  p_close : constraints -> constraints;
  p_nq : nat;                              (* points of the regular rule *)
  p_regular : regular_points;
  p_singular : singular_points }.

Section Run.
  Variables (p : problem) (sub : nat -> nat) (np : nat).
  (** the numbering after reinit (172-300) *)
  Definition numbers : numbering := {| nu_n := p_n p; nu_dim := p_dim p; nu_cells := p_cells p; nu_dofs := p_dofs p; nu_vdofs := p_vdofs p; nu_sub := sub; nu_np := np |}.
  (** the process that owns dof i (226-248) *)
  Definition owner_of (i : nat) : nat := match domain_of numbers i with Some s => s | None => 0 end.
  Definition owned_sets : list (nat -> bool) := map (cpu_set numbers) (seq 0 np).
  (** the cells as the loops see them *)
  Definition run_cells : list cell := map (fun c => {| c_dofs := dofs_now numbers c; c_mat := p_mat p c; c_sub := sub c |}) (seq 0 (p_cells p)).
  Definition run_node (i : nat) : ModelKernel.vec := p_node p (s2o numbers i).
  (** double_nodes_set (684-729) *)
  Definition run_dist (i j : nat) : R := ModelKernel.norm (p_dim p) (difference (run_node i) (run_node j)).
  Definition run_doubles (i : nat) : list nat := double_nodes (p_n p) run_dist (filter (fun k => p_edge p (s2o numbers k)) (seq 0 (p_n p))) i.
  (** the mesh as assemble_system sees it; the octree fields are not used in Direct mode *)
  Definition run_mesh : oin := {| o_N := 0; o_max := 0; o_nd := p_n p; o_pos := fun _ => mkpt 0%Q 0%Q 0%Q; o_nc := p_cells p; o_nqc := p_nq p;
    o_qpos := fun _ => mkpt 0%Q 0%Q 0%Q; o_dbl := run_doubles; o_cdofs := dofs_now numbers; o_rnd := fun x => x; o_old := fun _ => [] |}.
  (** make_hanging_node_constraints on the renumbered handler *)
  Definition run_hanging : constraints := fun i =>
    match p_hanging p (s2o numbers i) with
    | Some l => Some {| l_entries := map (fun e => (o2s numbers (fst e), snd e)) (l_entries l); l_inhom := l_inhom l |}
    | None => None
    end.
  Definition run_data : bdata := {| d_dirichlet := p_dirichlet p; d_neumann := p_neumann p; d_pot := fun i => p_pot p (run_node i);
    d_wind := fun i d => p_wind p (run_node i) d; d_normal := fun i d => p_normal p (s2o numbers i) d; d_dim := p_dim p |}.
  (** phi, dphi_dn and tmp_rhs after prepare_bem_vectors: every process fills the entries it owns *)
  Definition run_vectors (i : nat) : bvecs := prepare_bem_vectors run_data (cpu_set numbers (owner_of i)) run_cells.
  Definition run_rhs : vec := fun i => v_rhs (run_vectors i) i.
  Definition run_phi0 : vec := fun i => v_phi (run_vectors i) i.
  Definition run_dphi0 : vec := fun i => v_dphi (run_vectors i) i.
  (** what solve_system works with *)
  Definition run_system : system := {|
    s_n := p_n p; s_direct := true;
    s_N := fun x i => stored_vmult (p_dim p) neumann_matrix run_mesh run_node (p_regular p) (p_singular p) (cpu_set numbers (owner_of i)) x i;
    s_D := fun x i => stored_vmult (p_dim p) dirichlet_matrix run_mesh run_node (p_regular p) (p_singular p) (cpu_set numbers (owner_of i)) x i;
    s_dir := fun i => if Req_EM_T (dirichlet_nodes (p_dirichlet p) run_cells owner_of i) 1 then true else false;
    s_have_dirichlet := have_dirichlet (p_dirichlet p) run_cells np;
    s_doubles := run_doubles;
    s_normal := fun i => p_normal p (s2o numbers i);
    s_sgrad := fun rhs i => p_sgrad p (fun j => rhs (o2s numbers j)) (s2o numbers i);
    s_cont := p_cont p; s_hanging := run_hanging; s_close := p_close p |}.
  (** the exact solutions and the vectors handed back *)
  Definition run_solves (sol : vec) : Prop := solves run_system owned_sets run_rhs sol.
  Definition run_phi (sol : vec) : vec := solved_phi run_system run_phi0 sol.
  Definition run_dphi (sol : vec) : vec := solved_dphi run_system run_dphi0 sol.
End Run.
