(** * One solve in FMM mode from the mesh to the linear system, for a given number of processes and partition of the cells.

    ModelRun with the two layer operators replaced: BEMProblem::assemble_system is not called, the products are those
    of BEMFMA (bem_problem.cc 1570-1580, 1615-1638, 1668-1690, 1743-1760, 1841-1856), on the octree that
    generate_octree_blocking builds from the renumbered handler (bem_fma.cc 3809-4575).  The octree and all lists are
    built by every process from the whole mesh; a process computes the entries it owns.

    Simplifications: exact arithmetic (o_rnd), coordinates are rational numbers.  What earlier cycles left
    in the node-to-cell map is an argument (f_old).  Schedules and undefined values are arguments. *)
From Coq Require Import QArith Qreals Reals List Bool Arith.
From Verif Require Import LibSum ModelOctree ModelFmm ModelFmmExp ModelAssemble ModelRules.
From Verif Require ModelKernel ModelExp.
From Verif Require Import ModelBem ModelBc ModelOwn ModelSolve ModelRun PropSolveFmm.
Import ListNotations.
Local Open Scope nat_scope.

(** parameters of the FMM section (bem_fma.cc 100-125) and the points as fractions *)
Record fmm_part := {
  f_levels : nat;                          (* num_octree_levels *)
  f_max : nat;                             (* max_num_nodes_per_block *)
  f_order : nat;                           (* trunc_order *)
  f_pos : nat -> pt;                       (* support points, numbered as in the problem *)
  f_qpos : nat -> pt;                      (* quadrature points *)
  f_old : nat -> list nat }.               (* dof_to_elems before the solve, by current dof number: empty in a first solve (bem_fma.cc 3989-3993) *)
(** what may differ from one execution to the next: the order of the tasks of each product and the undefined values read *)
Record execution := {
  e_schN : vec -> nat -> sched; e_schD : vec -> nat -> sched;
  e_junkN : vec -> nat -> R; e_junkD : vec -> nat -> R }.

Section Run.
  Variables (p : problem) (f : fmm_part) (sub : nat -> nat) (np : nat) (X : execution).
  (** the mesh as BEMFMA sees it (bem_fma.cc 3809-3890) *)
  Definition fmm_mesh : oin := {| o_N := f_levels f; o_max := f_max f; o_nd := p_n p; o_pos := fun i => f_pos f (s2o (numbers p sub np) i);
    o_nc := p_cells p; o_nqc := p_nq p; o_qpos := f_qpos f; o_dbl := run_doubles p sub np; o_cdofs := dofs_now (numbers p sub np);
    o_rnd := fun x => x; o_old := f_old f |}.
  (** normals at the quadrature points (bem_fma.cc 904-908, 1244-1248) *)
  Definition fmm_normal (q : nat) : ModelExp.pt := ModelExp.Pt (rp_normal (p_regular p) q 0) (rp_normal (p_regular p) q 1) (rp_normal (p_regular p) q 2).
  (** the singular rules (bem_fma.cc 930-1005) *)
  Definition fmm_rule (m : matrix) : singular_rule := rule_at 3 m (run_node p sub np) (p_singular p).
  Definition fmm_own (i : nat) : nat -> bool := cpu_set (numbers p sub np) (owner_of p sub np i).
  (** the system of ModelRun with the fast products; everything else is as in Direct mode (1701-1815) *)
  Definition fmm_system : system := {|
    s_n := s_n (run_system p sub np); s_direct := false;
    s_N := fmm_layer fmm_mesh (f_order f) (Double fmm_normal) (rp_shape (p_regular p)) (rp_jxw (p_regular p)) (fmm_rule neumann_matrix) fmm_own (e_schN X) (e_junkN X);
    s_D := fmm_layer fmm_mesh (f_order f) Single (rp_shape (p_regular p)) (rp_jxw (p_regular p)) (fmm_rule dirichlet_matrix) fmm_own (e_schD X) (e_junkD X);
    s_dir := s_dir (run_system p sub np); s_have_dirichlet := s_have_dirichlet (run_system p sub np);
    s_doubles := s_doubles (run_system p sub np); s_normal := s_normal (run_system p sub np); s_sgrad := s_sgrad (run_system p sub np);
    s_cont := s_cont (run_system p sub np); s_hanging := s_hanging (run_system p sub np); s_close := s_close (run_system p sub np) |}.
  Definition fmm_solves (sol : vec) : Prop := solves fmm_system (owned_sets p sub np) (run_rhs p sub np) sol.
  Definition fmm_phi (sol : vec) : vec := solved_phi fmm_system (run_phi0 p sub np) sol.
  Definition fmm_dphi (sol : vec) : vec := solved_dphi fmm_system (run_dphi0 p sub np) sol.
End Run.
