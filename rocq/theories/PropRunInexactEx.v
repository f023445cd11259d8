(** The hypotheses of C75_two_runs_stopped_early hold for the four-node problem of PropRunCloseEx, for every vector the two
    solvers stop at; the exact solution is that of a run on two processes. *)
From Coq Require Import QArith Qreals Reals List Bool Arith Lia Lra Permutation.
From Verif Require Import LibSum ModelOctree SpecOctree ModelFmm SpecFmm ModelFmmExp SpecFmmAcc ModelAssemble ModelRules.
From Verif Require Import ModelBem ProofsBem ModelBc ProofsBc PropBem ModelOwn SpecOwn PropOwn ModelSolve SpecSolve ProofsSolve PropSolve PropSolveFmm SpecRenumber PropRenumber PropRenumMesh ModelRun PropRun ModelRunFmm PropRunFmm PropRunFmmEx PropClose PropRunClose PropRunCloseEx.
From Verif Require Import ModelResid PropInexact PropFmmInexact PropRunInexact.
Import ListNotations.
Local Open Scope R_scope.

Section Four.
  Variables (S : system).
  Hypothesis En : s_n S = 4%nat.
  Hypothesis Ed : forall i, (i < 4)%nat -> s_dir S i = true.
  Hypothesis Eb : forall i, (i < 4)%nat -> s_doubles S i = [i].
  Hypothesis Ec : s_cont S = false.
  Hypothesis Eh : forall i, s_hanging S i = None.
  Hypothesis Ecl : s_close S = (fun c => c).
  Lemma four_residual owns rhs sol : partition (s_n S) owns ->
    exists r, forall i, (i < 4)%nat -> residual S owns rhs sol i = Some (r i).
  Proof.
    intros P. destruct (merge (s_n S) (node_constraints S rhs) (s_hanging S)) as [c|] eqn:Hm.
    - exists (fun i => compute_rhs (operator S) (fun _ => 0) rhs i - vmult (operator S) sol i). intros i Hi.
      assert (Hi' : (i < s_n S)%nat) by (rewrite En; exact Hi).
      rewrite (residual_row S owns rhs sol c i P Hi' Hm), Ecl. rewrite En in Hm. rewrite (four_free S En Ed Eb Ec Eh rhs c i Hm Hi). reflexivity.
    - exfalso. unfold merge in Hm. destruct (existsb _ _) eqn:X; [|discriminate]. apply existsb_exists in X as (i & _ & X). apply andb_true_iff in X as (_ & X). unfold constrained in X. rewrite Eh in X. discriminate X.
  Qed.
End Four.

Example C75_two_runs_stopped_early_instance : forall sol1 sol2, exists r1 r2,
  well_numbered (numbers quad two_processes 2) /\ well_numbered (numbers quad one_process 1) /\ fine_problem quad /\ closing quad two_processes 2 /\ closing quad one_process 1 /\
  fmm_problem quad duo_fmm /\ fmm_position quad duo_fmm one_process 1 /\ fmm_executes quad duo_fmm one_process 1 quad_run /\
  run_solves quad two_processes 2 (fun _ => 0) /\
  (forall i, (i < p_n quad)%nat -> residual (fmm_system quad duo_fmm one_process 1 quad_run) (owned_sets quad one_process 1) (run_rhs quad one_process 1) sol1 i = Some (r1 i)) /\
  (forall i, (i < p_n quad)%nat -> residual (run_system quad one_process 1) (owned_sets quad one_process 1) (run_rhs quad one_process 1) sol2 i = Some (r2 i)) /\
  stable (run_system quad one_process 1) (run_rhs quad one_process 1) 1 /\ fully_closed quad one_process 1 /\ weights_at_most quad one_process 1 0.
Proof.
  intros sol1 sol2. destruct C67_runs_of_the_two_methods_instance as (W1 & W2 & F & C1 & C2 & FM & _ & GP & EX & _ & R2 & St).
  assert (Dir : forall i, (i < 4)%nat -> s_dir (run_system quad one_process 1) i = true).
  { intros i Hi. apply (u_dir quad one_process 1 W1 (fp_kind quad quad_fine) i Hi). apply quad_dir. apply (u_s2o quad one_process 1 W1 i Hi). }
  assert (Dbl : forall i, (i < 4)%nat -> run_doubles quad one_process 1 i = [i]) by (intros i Hi; do 4 (destruct i as [|i]; [reflexivity|]); lia).
  assert (Fr : forall c i, merge 4 (node_constraints (run_system quad one_process 1) (run_rhs quad one_process 1)) (s_hanging (run_system quad one_process 1)) = Some c -> (i < 4)%nat -> c i = None).
  { intros c i Hm Hi. exact (four_free (run_system quad one_process 1) eq_refl Dir Dbl eq_refl (fun _ => eq_refl) _ c i Hm Hi). }
  destruct (four_residual (fmm_system quad duo_fmm one_process 1 quad_run) eq_refl Dir Dbl eq_refl (fun _ => eq_refl) eq_refl (owned_sets quad one_process 1) (run_rhs quad one_process 1) sol1 (u_partition quad one_process 1 W1)) as (r1 & E1).
  destruct (four_residual (run_system quad one_process 1) eq_refl Dir Dbl eq_refl (fun _ => eq_refl) eq_refl (owned_sets quad one_process 1) (run_rhs quad one_process 1) sol2 (u_partition quad one_process 1 W1)) as (r2 & E2).
  exists r1, r2. split; [exact W2|]. split; [exact W1|]. split; [exact F|]. split; [exact C2|]. split; [exact C1|]. split; [exact FM|]. split; [exact GP|]. split; [exact EX|]. split; [exact R2|].
  split; [exact E1|]. split; [exact E2|]. split; [exact St|]. split.
  - intros c Hm i l e Hi Hc. change (p_close quad c i) with (c i) in Hc. rewrite (Fr c i Hm Hi) in Hc. discriminate.
  - intros c i l Hm Hi Hc. rewrite (Fr c i Hm Hi) in Hc. discriminate.
Qed.
