(** Property theorem C75, whole runs: what a run returns when the linear solver stops early, in FMM mode or in Direct mode, on
    any processes, is near what exact Direct runs return on any other processes. *)
From Coq Require Import QArith Qreals Reals List Bool Arith Lia Lra Permutation.
From Verif Require Import LibSum ModelOctree SpecOctree ModelFmm SpecFmm ModelFmmExp SpecFmmAcc ModelAssemble ModelRules.
From Verif Require Import PropOctree PropFmm PropFmmAcc SpecFmmRenum ProofsRenumOct PropFmmRenum.
From Verif Require ModelKernel ModelExp ProofsWorkload PropCoincide ProofsFmmCover ProofsRndDirect.
From Verif Require Import ModelBem ProofsBem ModelBc ProofsBc PropBem ModelOwn SpecOwn PropOwn ModelSolve SpecSolve ProofsSolve PropSolve PropSolveFmm SpecRenumber PropRenumber PropRenumMesh ModelRun PropRun ModelRunFmm PropRunFmm PropClose PropRunClose.
From Verif Require Import ModelResid PropInexact PropFmmInexact.
Import ListNotations.
Local Open Scope R_scope.

(** the constraints of a run have weights of total size at most Wt per line and refer to unknowns *)
Definition weights_at_most (p : problem) (sub : nat -> nat) (np : nat) (Wt : R) : Prop :=
  forall c i l, merge (p_n p) (node_constraints (run_system p sub np) (run_rhs p sub np)) (s_hanging (run_system p sub np)) = Some c -> (i < p_n p)%nat -> c i = Some l ->
    suml (l_entries l) (fun e => Rabs (snd e)) <= Wt /\ forall e, In e (l_entries l) -> (fst e < p_n p)%nat.

(** and closing them leaves no constrained unknown on a right hand side *)
Definition fully_closed (p : problem) (sub : nat -> nat) (np : nat) : Prop := forall c,
  merge (p_n p) (node_constraints (run_system p sub np) (run_rhs p sub np)) (run_hanging p sub np) = Some c -> resolved (p_n p) (p_close p c).

(** Direct mode *)
Theorem C75_direct_run_stopped_early : forall p sub np sub' np' sol sol' r M Wt eps,
  well_numbered (numbers p sub np) -> well_numbered (numbers p sub' np') -> fine_problem p -> closing p sub np -> closing p sub' np' ->
  (forall i, (i < p_n p)%nat -> residual (run_system p sub np) (owned_sets p sub np) (run_rhs p sub np) sol i = Some (r i)) ->
  (forall i, (i < p_n p)%nat -> Rabs (r i) <= eps) ->
  run_solves p sub' np' sol' -> stable (run_system p sub np) (run_rhs p sub np) M -> fully_closed p sub np -> weights_at_most p sub np Wt -> 0 <= Wt ->
  forall j, (j < p_n p)%nat ->
    Rabs (run_phi p sub np sol (o2s (numbers p sub np) j) - run_phi p sub' np' sol' (o2s (numbers p sub' np') j)) <= M * ((1 + Wt) * eps) /\
    Rabs (run_dphi p sub np sol (o2s (numbers p sub np) j) - run_dphi p sub' np' sol' (o2s (numbers p sub' np') j)) <= M * ((1 + Wt) * eps).
Proof.
  intros p sub np sub' np' sol sol' r M Wt eps W W' F Cl Cl' Hr He Hs' St Rs Hw W0 j Hj.
  set (t := fun i => sol' (o2s (numbers p sub' np') (s2o (numbers p sub np) i))).
  assert (Et : forall k, (k < p_n p)%nat -> sol' (o2s (numbers p sub' np') k) = t (o2s (numbers p sub np) k)).
  { intros k Hk. unfold t. rewrite (proj2 (u_o2s p sub np W k Hk)). reflexivity. }
  destruct (C82_number_of_processes p sub np sub' np' t sol' W W' F Cl Cl' Et) as (T1 & T2).
  assert (Ht : run_solves p sub np t) by (apply T1; exact Hs').
  destruct (T2 j Hj) as (Q1 & Q2). rewrite Q1, Q2.
  exact (C75_error_of_the_solution (run_system p sub np) (owned_sets p sub np) (run_rhs p sub np) (run_phi0 p sub np) (run_dphi0 p sub np) sol t r M Wt eps
    (u_have p sub np W (fp_some p F)) (u_linear p sub np neumann_matrix) (u_linear p sub np dirichlet_matrix) (u_partition p sub np W) (u_imposed p sub np W (fp_kind p F)) (fun c e => conj (Cl c e) (Rs c e))
    Hr Ht St Hw He W0 (o2s (numbers p sub np) j) (proj1 (u_o2s p sub np W j Hj))).
Qed.

(** FMM mode: the error of the solver and the truncation of the expansions add up *)
Theorem C75_fmm_run_stopped_early : forall p f sub np sub' np' X sol sol' r M Wt eps err,
  well_numbered (numbers p sub np) -> well_numbered (numbers p sub' np') -> fine_problem p -> closing p sub np -> closing p sub' np' ->
  fmm_problem p f -> (forall q, rp_at (p_regular p) q = coords (f_qpos f q)) -> fmm_position p f sub np -> fmm_executes p f sub np X ->
  (forall i, (i < p_n p)%nat -> residual (fmm_system p f sub np X) (owned_sets p sub np) (run_rhs p sub np) sol i = Some (r i)) ->
  (forall i, (i < p_n p)%nat -> Rabs (r i) <= eps) ->
  run_solves p sub' np' sol' -> stable (run_system p sub np) (run_rhs p sub np) M -> fully_closed p sub np -> weights_at_most p sub np Wt -> 0 <= Wt ->
  let phi := fmm_phi p f sub np X sol in let dphi := fmm_dphi p f sub np X sol in
  let I := fmm_mesh p f sub np in let d := smallest_side I in
  let cN := charge I (Double (fmm_normal p)) (rp_shape (p_regular p)) (rp_jxw (p_regular p)) (fmm_rule p sub np neumann_matrix) in
  let cD := charge I Single (rp_shape (p_regular p)) (rp_jxw (p_regular p)) (fmm_rule p sub np dirichlet_matrix) in
  0 <= err ->
  (forall i, (i < p_n p)%nat -> far_error (Double (fmm_normal p)) (f_order f) d * (cN phi + Rabs (phi i) * cN (fun _ => 1)) + far_error Single (f_order f) d * cD dphi <= err) ->
  forall j, (j < p_n p)%nat ->
    Rabs (fmm_phi p f sub np X sol (o2s (numbers p sub np) j) - run_phi p sub' np' sol' (o2s (numbers p sub' np') j)) <= M * ((1 + Wt) * (eps + err)) /\
    Rabs (fmm_dphi p f sub np X sol (o2s (numbers p sub np) j) - run_dphi p sub' np' sol' (o2s (numbers p sub' np') j)) <= M * ((1 + Wt) * (eps + err)).
Proof.
  intros p f sub np sub' np' X sol sol' r M Wt eps err W W' F Cl Cl' FM Eq GP EX Hr He Hs' St Rs Hw W0 phi dphi I d cN cD E0 Eb j Hj.
  set (t := fun i => sol' (o2s (numbers p sub' np') (s2o (numbers p sub np) i))).
  assert (Et : forall k, (k < p_n p)%nat -> sol' (o2s (numbers p sub' np') k) = t (o2s (numbers p sub np) k)).
  { intros k Hk. unfold t. rewrite (proj2 (u_o2s p sub np W k Hk)). reflexivity. }
  destruct (C82_number_of_processes p sub np sub' np' t sol' W W' F Cl Cl' Et) as (T1 & T2).
  assert (Ht : run_solves p sub np t) by (apply T1; exact Hs').
  destruct (T2 j Hj) as (Q1 & Q2). rewrite Q1, Q2.
  refine (C75_fmm_solve_near_the_direct_solution I (f_order f) (fmm_normal p) (rp_shape (p_regular p)) (rp_jxw (p_regular p))
    (fmm_rule p sub np neumann_matrix) (fmm_rule p sub np dirichlet_matrix) (fmm_own p sub np) (e_schN X) (e_schD X) (e_junkN X) (e_junkD X)
    (fmm_system p f sub np X) (owned_sets p sub np) (run_rhs p sub np) (run_phi0 p sub np) (run_dphi0 p sub np) sol t r M Wt eps err
    (f_wf p f sub np W FM) (fm_quad p f FM) (fm_order p f FM) (proj1 GP) (proj2 GP) (f_own p sub np W) (fun x i => proj1 (EX x i)) (fun x i => proj2 (EX x i))
    eq_refl eq_refl eq_refl (u_have p sub np W (fp_some p F)) (u_partition p sub np W) (u_imposed p sub np W (fp_kind p F)) (fun c e => conj (Cl c e) (Rs c e))
    Hr (lay_solves p f sub np X W F FM Eq Cl t Ht) (lay_stable p f sub np X W FM Eq M St) Hw He W0 E0 Eb (o2s (numbers p sub np) j) (proj1 (u_o2s p sub np W j Hj))).
Qed.

(** So an FMM run and a Direct run, each stopped early and on its own processes, differ by at most the sum of the two bounds,
    whenever the exact problem has a solution. *)
Theorem C75_two_runs_stopped_early : forall p f sub np sub1 np1 sub2 np2 X sol1 sol2 sol r1 r2 M Wt eps1 eps2 err,
  well_numbered (numbers p sub np) -> well_numbered (numbers p sub1 np1) -> well_numbered (numbers p sub2 np2) -> fine_problem p ->
  closing p sub np -> closing p sub1 np1 -> closing p sub2 np2 ->
  fmm_problem p f -> (forall q, rp_at (p_regular p) q = coords (f_qpos f q)) -> fmm_position p f sub1 np1 -> fmm_executes p f sub1 np1 X ->
  run_solves p sub np sol ->
  (forall i, (i < p_n p)%nat -> residual (fmm_system p f sub1 np1 X) (owned_sets p sub1 np1) (run_rhs p sub1 np1) sol1 i = Some (r1 i)) ->
  (forall i, (i < p_n p)%nat -> residual (run_system p sub2 np2) (owned_sets p sub2 np2) (run_rhs p sub2 np2) sol2 i = Some (r2 i)) ->
  (forall i, (i < p_n p)%nat -> Rabs (r1 i) <= eps1) -> (forall i, (i < p_n p)%nat -> Rabs (r2 i) <= eps2) ->
  stable (run_system p sub1 np1) (run_rhs p sub1 np1) M -> stable (run_system p sub2 np2) (run_rhs p sub2 np2) M ->
  fully_closed p sub1 np1 -> fully_closed p sub2 np2 -> weights_at_most p sub1 np1 Wt -> weights_at_most p sub2 np2 Wt -> 0 <= Wt ->
  let phi := fmm_phi p f sub1 np1 X sol1 in let dphi := fmm_dphi p f sub1 np1 X sol1 in
  let I := fmm_mesh p f sub1 np1 in let d := smallest_side I in
  let cN := charge I (Double (fmm_normal p)) (rp_shape (p_regular p)) (rp_jxw (p_regular p)) (fmm_rule p sub1 np1 neumann_matrix) in
  let cD := charge I Single (rp_shape (p_regular p)) (rp_jxw (p_regular p)) (fmm_rule p sub1 np1 dirichlet_matrix) in
  0 <= err ->
  (forall i, (i < p_n p)%nat -> far_error (Double (fmm_normal p)) (f_order f) d * (cN phi + Rabs (phi i) * cN (fun _ => 1)) + far_error Single (f_order f) d * cD dphi <= err) ->
  forall j, (j < p_n p)%nat ->
    Rabs (fmm_phi p f sub1 np1 X sol1 (o2s (numbers p sub1 np1) j) - run_phi p sub2 np2 sol2 (o2s (numbers p sub2 np2) j)) <= M * ((1 + Wt) * (eps1 + eps2 + err)) /\
    Rabs (fmm_dphi p f sub1 np1 X sol1 (o2s (numbers p sub1 np1) j) - run_dphi p sub2 np2 sol2 (o2s (numbers p sub2 np2) j)) <= M * ((1 + Wt) * (eps1 + eps2 + err)).
Proof.
  intros p f sub np sub1 np1 sub2 np2 X sol1 sol2 sol r1 r2 M Wt eps1 eps2 err W W1 W2 F Cl Cl1 Cl2 FM Eq GP EX Hs Hr1 Hr2 He1 He2 St1 St2 Rs1 Rs2 Hw1 Hw2 W0 phi dphi I d cN cD E0 Eb j Hj.
  destruct (C75_fmm_run_stopped_early p f sub1 np1 sub np X sol1 sol r1 M Wt eps1 err W1 W F Cl1 Cl FM Eq GP EX Hr1 He1 Hs St1 Rs1 Hw1 W0 E0 Eb j Hj) as (A1 & A2).
  destruct (C75_direct_run_stopped_early p sub2 np2 sub np sol2 sol r2 M Wt eps2 W2 W F Cl2 Cl Hr2 He2 Hs St2 Rs2 Hw2 W0 j Hj) as (B1 & B2).
  revert A1 A2 B1 B2. set (a := fmm_phi _ _ _ _ _ _ _). set (b := fmm_dphi _ _ _ _ _ _ _).
  set (x := run_phi p sub np sol _). set (y := run_dphi p sub np sol _). set (z := run_phi p sub2 np2 sol2 _). set (w := run_dphi p sub2 np2 sol2 _).
  intros A1 A2 B1 B2. replace (M * ((1 + Wt) * (eps1 + eps2 + err))) with (M * ((1 + Wt) * (eps1 + err)) + M * ((1 + Wt) * eps2)) by ring. split.
  - replace (a - z) with ((a - x) - (z - x)) by ring. unfold Rminus at 1. eapply Rle_trans; [apply Rabs_triang|]. rewrite Rabs_Ropp. lra.
  - replace (b - w) with ((b - y) - (w - y)) by ring. unfold Rminus at 1. eapply Rle_trans; [apply Rabs_triang|]. rewrite Rabs_Ropp. lra.
Qed.
