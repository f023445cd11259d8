(** Property theorem C67, whole runs: what a run in FMM mode returns is near what a run in Direct mode returns, whatever
    the two numbers of processes and partitions of the mesh. *)
From Coq Require Import QArith Qreals Reals List Bool Arith Lia Lra Permutation.
From Verif Require Import LibSum ModelOctree SpecOctree ModelFmm SpecFmm ModelFmmExp SpecFmmAcc ModelAssemble ModelRules.
From Verif Require Import PropOctree PropFmm PropFmmAcc SpecFmmRenum ProofsRenumOct PropFmmRenum.
From Verif Require ModelKernel ModelExp ProofsWorkload PropCoincide ProofsFmmCover ProofsRndDirect.
From Verif Require Import ModelBem ProofsBem ModelBc ProofsBc PropBem ModelOwn SpecOwn PropOwn ModelSolve SpecSolve ProofsSolve PropSolve PropSolveFmm SpecRenumber PropRenumber PropRenumMesh ModelRun PropRun ModelRunFmm PropRunFmm PropClose.
Import ListNotations.
Local Open Scope R_scope.

Section Layers.
  Variables (p : problem) (f : fmm_part) (sub : nat -> nat) (np : nat) (X : execution).
  Hypothesis W : well_numbered (numbers p sub np).
  Hypothesis F : fine_problem p.
  Hypothesis FM : fmm_problem p f.
  Hypothesis Eq : forall q, rp_at (p_regular p) q = coords (f_qpos f q).
  Notation I := (fmm_mesh p f sub np).
  Notation DN := (direct_layer I (Double (fmm_normal p)) (rp_shape (p_regular p)) (rp_jxw (p_regular p)) (fmm_rule p sub np neumann_matrix) (fmm_own p sub np)).
  Notation DD := (direct_layer I Single (rp_shape (p_regular p)) (rp_jxw (p_regular p)) (fmm_rule p sub np dirichlet_matrix) (fmm_own p sub np)).
  Notation S' := (with_layers (fmm_system p f sub np X) DN DD).
  Notation S := (run_system p sub np).
  Lemma lay_N x i : (i < p_n p)%nat -> DN x i = s_N S x i.
  Proof. intros Hi. exact (stored_same p f sub np neumann_matrix _ x i (fm_dim p f FM) (fm_pos p f FM) Eq W eq_refl Hi). Qed.
  Lemma lay_D x i : (i < p_n p)%nat -> DD x i = s_D S x i.
  Proof. intros Hi. exact (stored_same p f sub np dirichlet_matrix _ x i (fm_dim p f FM) (fm_pos p f FM) Eq W eq_refl Hi). Qed.
  Lemma lay_stable M : stable S (run_rhs p sub np) M -> stable S' (run_rhs p sub np) M.
  Proof.
    intros St c x r Hm Hr. refine (St c x r Hm _). intros i Hi. specialize (Hr i Hi). unfold homogeneous_row in *. destruct (c i); [exact Hr|].
    cbv zeta in *. change (s_N S') with DN in Hr. change (s_D S') with DD in Hr. change (s_dir S') with (s_dir S) in Hr.
    rewrite !(lay_N _ i Hi), !(lay_D _ i Hi) in Hr. exact Hr.
  Qed.
  Hypothesis Cl : closing p sub np.
  Lemma lay_solves sol : run_solves p sub np sol -> solves S' (owned_sets p sub np) (run_rhs p sub np) sol.
  Proof.
    intros Hs.
    assert (LN : linear_op (s_n S') (s_N S')) by exact (direct_layer_linear I _ _ _ _ _ (f_wf p f sub np W FM) (fm_quad p f FM) (f_own p sub np W)).
    assert (LD : linear_op (s_n S') (s_D S')) by exact (direct_layer_linear I _ _ _ _ _ (f_wf p f sub np W FM) (fm_quad p f FM) (f_own p sub np W)).
    refine (proj2 (C65_solve_system S' (owned_sets p sub np) (run_rhs p sub np) (run_phi0 p sub np) (run_dphi0 p sub np) sol (u_have p sub np W (fp_some p F)) LN LD
      (u_coincidence p sub np W (fp_separated p F)) (u_partition p sub np W) (u_imposed p sub np W (fp_kind p F)) Cl) _).
    destruct (proj1 (C65_solve_system S (owned_sets p sub np) (run_rhs p sub np) (run_phi0 p sub np) (run_dphi0 p sub np) sol (u_have p sub np W (fp_some p F)) (u_linear p sub np neumann_matrix) (u_linear p sub np dirichlet_matrix)
      (u_coincidence p sub np W (fp_separated p F)) (u_partition p sub np W) (u_imposed p sub np W (fp_kind p F)) Cl) Hs) as (A & B & C).
    split; [exact A|]. split; [|exact C]. intros i Hi Ei. specialize (B i Hi Ei). unfold bie_row in *.
    change (s_N S') with DN. change (s_D S') with DD. rewrite !(lay_N _ i Hi), (lay_D _ i Hi). exact B.
  Qed.
End Layers.

(** A run in FMM mode on one set of processes and a run in Direct mode on another: if the Direct problem determines its
    unknowns with condition M, the potentials and the fluxes returned at every node differ by at most M times the error of
    the integral equations. *)
Theorem C67_runs_of_the_two_methods : forall p f sub np sub' np' X sol sol' M err,
  well_numbered (numbers p sub np) -> well_numbered (numbers p sub' np') -> fine_problem p -> closing p sub np -> closing p sub' np' ->
  fmm_problem p f -> (forall q, rp_at (p_regular p) q = coords (f_qpos f q)) -> fmm_position p f sub np -> fmm_executes p f sub np X ->
  fmm_solves p f sub np X sol -> run_solves p sub' np' sol' -> stable (run_system p sub np) (run_rhs p sub np) M ->
  let phi := fmm_phi p f sub np X sol in let dphi := fmm_dphi p f sub np X sol in
  let I := fmm_mesh p f sub np in let d := smallest_side I in
  let cN := charge I (Double (fmm_normal p)) (rp_shape (p_regular p)) (rp_jxw (p_regular p)) (fmm_rule p sub np neumann_matrix) in
  let cD := charge I Single (rp_shape (p_regular p)) (rp_jxw (p_regular p)) (fmm_rule p sub np dirichlet_matrix) in
  0 <= err ->
  (forall i, (i < p_n p)%nat -> far_error (Double (fmm_normal p)) (f_order f) d * (cN phi + Rabs (phi i) * cN (fun _ => 1)) + far_error Single (f_order f) d * cD dphi <= err) ->
  forall j, (j < p_n p)%nat ->
    Rabs (fmm_phi p f sub np X sol (o2s (numbers p sub np) j) - run_phi p sub' np' sol' (o2s (numbers p sub' np') j)) <= M * err /\
    Rabs (fmm_dphi p f sub np X sol (o2s (numbers p sub np) j) - run_dphi p sub' np' sol' (o2s (numbers p sub' np') j)) <= M * err.
Proof.
  intros p f sub np sub' np' X sol sol' M err W W' F Cl Cl' FM Eq GP EX Hs Hs' St phi dphi I d cN cD E0 Eb j Hj.
  set (t := fun i => sol' (o2s (numbers p sub' np') (s2o (numbers p sub np) i))).
  assert (Et : forall k, (k < p_n p)%nat -> sol' (o2s (numbers p sub' np') k) = t (o2s (numbers p sub np) k)).
  { intros k Hk. unfold t. rewrite (proj2 (u_o2s p sub np W k Hk)). reflexivity. }
  destruct (C82_number_of_processes p sub np sub' np' t sol' W W' F Cl Cl' Et) as (T1 & T2).
  assert (Ht : run_solves p sub np t) by (apply T1; exact Hs').
  destruct (T2 j Hj) as (Q1 & Q2). rewrite Q1, Q2.
  refine (C67_fmm_solution_near_the_direct_solution I (f_order f) (fmm_normal p) (rp_shape (p_regular p)) (rp_jxw (p_regular p))
    (fmm_rule p sub np neumann_matrix) (fmm_rule p sub np dirichlet_matrix) (fmm_own p sub np) (e_schN X) (e_schD X) (e_junkN X) (e_junkD X)
    (fmm_system p f sub np X) (owned_sets p sub np) (run_rhs p sub np) (run_phi0 p sub np) (run_dphi0 p sub np) sol t M err
    (f_wf p f sub np W FM) (fm_quad p f FM) (fm_order p f FM) (proj1 GP) (proj2 GP) (f_own p sub np W) (fun x i => proj1 (EX x i)) (fun x i => proj2 (EX x i))
    eq_refl eq_refl eq_refl (u_have p sub np W (fp_some p F)) (u_coincidence p sub np W (fp_separated p F)) (u_partition p sub np W) (u_imposed p sub np W (fp_kind p F)) Cl
    Hs (lay_solves p f sub np X W F FM Eq Cl t Ht) (lay_stable p f sub np X W FM Eq M St) E0 Eb (o2s (numbers p sub np) j) (proj1 (u_o2s p sub np W j Hj))).
Qed.
