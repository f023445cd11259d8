(** * A whole solve with its normals, surface gradients and gradients, and the fields of the result files.

    BoundaryConditions::solve_problem (boundary_conditions.cc 160-199): compute_normals, prepare_bem_vectors, solve
    (which calls compute_surface_gradients(tmp_rhs), bem_problem.cc 1872); compute_errors (346-353), which calls
    compute_gradients(phi, dphi_dn); output_results (546-625): the vectors written, with their labels.
    driver.cc 117-123 calls them in this order after the last solve.  Composes ModelRun and ModelProj; exact solves. *)
From Coq Require Import Reals List Bool Arith.
From Verif Require Import LibSum ModelOctree ModelFmm ModelAssemble ModelRules.
From Verif Require ModelKernel ModelProj.
From Verif Require Import ModelBem ModelBc ModelOwn ModelSolve ModelRun.
Import ListNotations.
Local Open Scope nat_scope.

(** FEValues data of the vector element and of the scalar element at the points of *quadrature, and the constraints of
    the vector-valued handler in the numbering before subdomain_wise (bem_problem.cc 189-191: component d of node j is d * n + j) *)
Record surface := {
  f_points : nat;
  f_comp : nat -> nat;                          (* gradient_fe->system_to_component_index(i).first *)
  f_vshape : nat -> nat -> nat -> R;            (* vector_fe_v.shape_value: cell, local index, point *)
  f_jxw : nat -> nat -> R;                      (* cell, point *)
  f_con : nat -> list (nat * R);                (* a dof as a combination of dofs *)
  f_normal : nat -> nat -> nat -> R;            (* get_normal_vectors: cell, point, component *)
  f_shape : nat -> nat -> nat -> R;             (* fe_v.shape_value: cell, local index, point *)
  f_grad : nat -> nat -> nat -> nat -> R }.     (* fe_v.shape_grad: cell, local index, point, component *)

Section Files.
  Variables (p : problem) (f : surface) (sub : nat -> nat) (np : nat).
  Notation U := (numbers p sub np).
  (** the three projections use one matrix (bem_problem.cc 2346-2384, 2520-2549, 2965-2987) *)
  Definition run_projection : ModelProj.projection := {|
    ModelProj.p_dofs := p_dim p * p_n p; ModelProj.p_cells := p_cells p; ModelProj.p_cdofs := vdofs_now U; ModelProj.p_comp := f_comp f;
    ModelProj.p_points := f_points f; ModelProj.p_shape := f_vshape f; ModelProj.p_jxw := f_jxw f; ModelProj.p_sub := sub;
    ModelProj.p_con := fun d => map (fun e => (vo2s U (fst e), snd e)) (f_con f (vs2o U d)) |}.
  (** fe_v.get_function_values, get_function_gradients *)
  Definition at_points (v : vec) (c q : nat) : R := suml (seq 0 (length (p_dofs p c))) (fun i => f_shape f c i q * v (nth i (dofs_now U c) 0%nat))%R.
  Definition grad_at_points (v : vec) (c q k : nat) : R := suml (seq 0 (length (p_dofs p c))) (fun i => f_grad f c i q k * v (nth i (dofs_now U c) 0%nat))%R.
  (** entry vec_original_to_sub_wise[n_vec / dim * d + j] of a vector-valued solution after distribute; [j] is the number of the node
      before subdomain_wise.  Outside the range: 0, never read. *)
  Definition nodal (x : vec) (j d : nat) : R :=
    if Nat.ltb j (p_n p) && Nat.ltb d (p_dim p) then ModelProj.distribute run_projection x (vo2s U (d * p_n p + j)) else 0%R.

  Record outcome := { r_normals : vec; r_surf : vec; r_sol : vec; r_grad : vec }.
  (** the problem with the computed normals and surface gradients *)
  Definition with_fields (nrm : nat -> vec3) (sg : nat -> vec3) : problem := {|
    p_dim := p_dim p; p_n := p_n p; p_cells := p_cells p; p_dofs := p_dofs p; p_vdofs := p_vdofs p; p_mat := p_mat p; p_dirichlet := p_dirichlet p;
    p_neumann := p_neumann p; p_node := p_node p; p_edge := p_edge p; p_pot := p_pot p; p_wind := p_wind p; p_normal := nrm; p_sgrad := fun _ => sg;
    p_cont := p_cont p; p_hanging := p_hanging p; p_close := p_close p; p_nq := p_nq p; p_regular := p_regular p; p_singular := p_singular p |}.
  Definition fields (r : outcome) : problem := with_fields (nodal (r_normals r)) (nodal (r_surf r)).
  (** phi and dphi_dn after solve_problem *)
  Definition end_phi (r : outcome) : vec := run_phi (fields r) sub np (r_sol r).
  Definition end_dphi (r : outcome) : vec := run_dphi (fields r) sub np (r_sol r).
  (** all linear systems of the run are solved *)
  Record is_run (r : outcome) : Prop := {
    ir_normals : ModelProj.solves run_projection (ModelProj.normals_field (f_normal f)) np (r_normals r);
    ir_surf : ModelProj.solves run_projection (ModelProj.surface_gradient_field (grad_at_points (run_rhs (fields r) sub np))) np (r_surf r);
    ir_sol : run_solves (fields r) sub np (r_sol r);
    ir_grad : ModelProj.solves run_projection (ModelProj.gradient_field (f_normal f) (at_points (end_dphi r)) (grad_at_points (end_phi r))) np (r_grad r) }.
  (** output_results: phi, dphi_dn, alpha (575-583); phi_gradient, phi_surf_gradient, normals_at_nodes (585-600), by node *)
  Definition out_phi (r : outcome) (j : nat) : R := end_phi r (o2s U j).
  Definition out_dphi (r : outcome) (j : nat) : R := end_dphi r (o2s U j).
  Definition out_alpha (r : outcome) (j : nat) : R := b_alpha (operator (run_system (fields r) sub np)) (o2s U j).
  Definition out_gradient (r : outcome) (j d : nat) : R := nodal (r_grad r) j d.
  Definition out_surf_gradient (r : outcome) (j d : nat) : R := nodal (r_surf r) j d.
  Definition out_normals (r : outcome) (j d : nat) : R := nodal (r_normals r) j d.
End Files.
