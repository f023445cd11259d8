(** The hypotheses of C89_run_in_floating_point hold for the four-node problem of PropRunCloseEx, in double precision, for every vector the
    solver stops at (with eps and rho what they are for it); the exact solution is that of a run on two processes. *)
From Coq Require Import ZArith QArith Qreals Reals List Bool Arith Lia Lra Permutation.
From Flocq Require Import Core.
From Verif Require Import LibSum ModelOctree SpecOctree ModelFmm SpecFmm ModelFmmExp SpecFmmAcc ModelAssemble ModelRules ModelFloat SpecFloat SpecBit ProofsFloat.
From Verif Require Import ModelBem ProofsBem ModelBc ProofsBc PropBem ModelOwn SpecOwn PropOwn ModelSolve SpecSolve ProofsSolve PropSolve PropSolveFmm SpecRenumber PropRenumber PropRenumMesh ModelRun PropRun ModelRunFmm PropRunFmm PropRunFmmEx PropClose PropRunClose PropRunCloseEx.
From Verif Require Import ModelResid PropInexact PropFmmInexact PropRunInexact PropRunInexactEx ModelFloatSolve SpecFloatSolve PropFloatSolve ModelFiles PropFiles PropFilesEx.
Import ListNotations.
Local Open Scope R_scope.

Lemma quad_float : float_run quad one_process 1 (fun _ => [3; 1; 0; 2]%nat) 1 1.
Proof.
  assert (W : well_numbered (numbers quad one_process 1)) by (apply quad_numbered; cbn; intros; unfold one_process; lia).
  assert (Sb : forall i, (i < 4)%nat -> s2o (numbers quad one_process 1) i = i) by (intros k Hk; do 4 (destruct k as [|k]; [vm_compute; reflexivity|]); lia).
  assert (D0 : dofs_now (numbers quad one_process 1) 0 = [0; 1]%nat) by (vm_compute; reflexivity).
  assert (D1 : dofs_now (numbers quad one_process 1) 1 = [2; 3]%nat) by (vm_compute; reflexivity).
  assert (Db : forall i, (i < 4)%nat -> run_doubles quad one_process 1 i = [i]) by (intros i Hi; do 4 (destruct i as [|i]; [reflexivity|]); lia).
  split; [right; reflexivity|]. split; [cbn; lia|]. split; [intros; cbn; lia|]. split; [split|split].
  - intros i c q Hi Hc Hs Hq. cbn [run_mesh o_nd o_nc quad p_n p_cells] in Hi, Hc. unfold run_node. rewrite (Sb i Hi).
    unfold singular_index, dof_list in Hs. cbn [run_mesh o_dbl o_cdofs] in Hs. rewrite (Db i Hi) in Hs.
    unfold quads_of_cell in Hq. cbn [run_mesh o_nqc quad p_nq] in Hq. apply in_seq in Hq.
    destruct c as [|[|]]; [rewrite D0 in Hs|rewrite D1 in Hs|lia]; (assert (q = 0 \/ q = 1)%nat as [-> | ->] by lia); destruct i as [|[|[|[|i]]]]; try lia; cbn in Hs; try discriminate Hs; try (exfalso; cbn in Hq; lia); first [left; cbn; unfold Q2R; cbn; lra|right; left; cbn; unfold Q2R; cbn; lra|right; right; cbn; unfold Q2R; cbn; lra].
  - intros i c idx q Hi Hc Hs Hq. cbn [run_mesh o_nd o_nc quad p_n p_cells] in Hi, Hc. unfold run_node. rewrite (Sb i Hi).
    unfold singular_index, dof_list in Hs. cbn [run_mesh o_dbl o_cdofs] in Hs. rewrite (Db i Hi) in Hs.
    left. cbn [quad p_singular sp_at Nat.eqb].
    assert (E : i = (2 * c + idx)%nat).
    { destruct c as [|[|]]; [rewrite D0 in Hs|rewrite D1 in Hs|lia]; destruct i as [|[|[|[|i]]]]; try lia; cbn in Hs; try discriminate Hs; injection Hs as <-; reflexivity. }
    rewrite E. cbn [quad p_node]. lra.
  - intros d Hd. cbn [quad p_n] in Hd. unfold occurrences. cbn [run_mesh o_nc o_cdofs quad p_cells seq map]. rewrite D0, D1. do 4 (destruct d as [|d]; [cbn; lia|]). lia.
  - intros i _. cbn [quad p_n seq]. apply NoDup_Permutation.
    + repeat constructor; cbn; intuition lia.
    + repeat constructor; cbn; intuition lia.
    + intros x. cbn. intuition.
Qed.
Example C89_instance : forall sol, exists c eps rho,
  relative (bpow radix2 (-53)) unlimited_double /\ float_run quad one_process 1 (fun _ => [3; 1; 0; 2]%nat) 1 1 /\
  well_numbered (numbers quad one_process 1) /\ well_numbered (numbers quad two_processes 2) /\ fine_problem quad /\ closing quad one_process 1 /\ closing quad two_processes 2 /\
  all_constraints (run_system quad one_process 1) (run_rhs quad one_process 1) = Some c /\
  (forall i, (i < p_n quad)%nat -> exists b, fco_rhs (F := unlimited_double) quad one_process 1 (fun _ => [3; 1; 0; 2]%nat) c (run_rhs quad one_process 1) i = Some b /\
     Rabs (b - fco_vmult (F := unlimited_double) quad one_process 1 (fun _ => [3; 1; 0; 2]%nat) c sol i) <= eps /\
     row_rounding (F := unlimited_double) (bpow radix2 (-53)) quad one_process 1 (fun _ => [3; 1; 0; 2]%nat) 1 1 c sol i <= rho) /\
  run_solves quad two_processes 2 (fun _ => 0) /\ stable (run_system quad one_process 1) (run_rhs quad one_process 1) 1 /\ fully_closed quad one_process 1 /\ weights_at_most quad one_process 1 0.
Proof.
  intros sol. destruct (C75_two_runs_stopped_early_instance sol sol) as (r1 & r2 & W2 & W1 & F & C2 & C1 & _ & _ & _ & R2 & _ & _ & St & Fc & Wm).
  assert (Dir : forall i, (i < 4)%nat -> s_dir (run_system quad one_process 1) i = true).
  { intros i Hi. apply (u_dir quad one_process 1 W1 (fp_kind quad quad_fine) i Hi). apply quad_dir. apply (u_s2o quad one_process 1 W1 i Hi). }
  assert (Dbl : forall i, (i < 4)%nat -> run_doubles quad one_process 1 i = [i]) by (intros i Hi; do 4 (destruct i as [|i]; [reflexivity|]); lia).
  destruct (merge 4 (node_constraints (run_system quad one_process 1) (run_rhs quad one_process 1)) (s_hanging (run_system quad one_process 1))) as [c|] eqn:Hm.
  2:{ exfalso. unfold merge in Hm. destruct (existsb _ _) eqn:X; [|discriminate]. apply existsb_exists in X as (i & _ & X). apply andb_true_iff in X as (_ & X). discriminate X. }
  assert (Fr : forall i, (i < 4)%nat -> c i = None) by (intros i Hi; exact (four_free (run_system quad one_process 1) eq_refl Dir Dbl eq_refl (fun _ => eq_refl) _ c i Hm Hi)).
  set (cl := fun _ : nat => [3; 1; 0; 2]%nat).
  set (e := fun i => Rabs (frhs (F := unlimited_double) quad one_process 1 cl (run_rhs quad one_process 1) i - fco_vmult (F := unlimited_double) quad one_process 1 cl c sol i)).
  set (g := fun i => Rabs (row_rounding (F := unlimited_double) (bpow radix2 (-53)) quad one_process 1 cl 1 1 c sol i)).
  exists c, (e 0%nat + e 1%nat + e 2%nat + e 3%nat), (g 0%nat + g 1%nat + g 2%nat + g 3%nat).
  split; [apply flx_relative|]. split; [exact quad_float|]. split; [exact W1|]. split; [exact W2|]. split; [exact F|]. split; [exact C1|]. split; [exact C2|].
  split. { unfold all_constraints. change (s_n (run_system quad one_process 1)) with 4%nat. rewrite Hm. reflexivity. }
  split; [|split; [exact R2|split; [exact St|split; [exact Fc|exact Wm]]]].
  assert (Pe : forall i, 0 <= e i) by (intros; apply Rabs_pos). assert (Pg : forall i, 0 <= g i) by (intros; apply Rabs_pos).
  intros i Hi. change (p_n quad) with 4%nat in Hi. exists (frhs (F := unlimited_double) quad one_process 1 cl (run_rhs quad one_process 1) i). split; [unfold fco_rhs; rewrite (Fr i Hi); reflexivity|]. split.
  - fold (e i). assert (Q0 := Pe 0%nat). assert (Q1 := Pe 1%nat). assert (Q2 := Pe 2%nat). assert (Q3 := Pe 3%nat). do 4 (destruct i as [|i]; [lra|]). lia.
  - assert (Q := Rle_abs (row_rounding (F := unlimited_double) (bpow radix2 (-53)) quad one_process 1 cl 1 1 c sol i)). fold (g i) in Q.
    assert (Q0 := Pg 0%nat). assert (Q1 := Pg 1%nat). assert (Q2 := Pg 2%nat). assert (Q3 := Pg 3%nat). do 4 (destruct i as [|i]; [lra|]). lia.
Qed.
(** ... and those of C89_rows for the run in the plane of PropFilesEx. *)
Lemma plate_float : float_run pf one 1 (fun _ => [3; 1; 0; 2]%nat) 1 1.
Proof.
  assert (Sb : forall i, (i < 4)%nat -> s2o (numbers pf one 1) i = i) by (intros k Hk; do 4 (destruct k as [|k]; [vm_compute; reflexivity|]); lia).
  assert (D0 : dofs_now (numbers pf one 1) 0 = [0; 1]%nat) by (vm_compute; reflexivity).
  assert (D1 : dofs_now (numbers pf one 1) 1 = [2; 3]%nat) by (vm_compute; reflexivity).
  assert (Db : forall i, (i < 4)%nat -> run_doubles pf one 1 i = [i]) by (intros i Hi; do 4 (destruct i as [|i]; [reflexivity|]); lia).
  split; [left; reflexivity|]. split; [cbn; lia|]. split; [intros; cbn; lia|]. split; [split|split].
  - intros i c q Hi Hc Hs Hq. cbn in Hi, Hc. unfold run_node. rewrite (Sb i Hi).
    unfold singular_index, dof_list in Hs. cbn [run_mesh o_dbl o_cdofs] in Hs. rewrite (Db i Hi) in Hs.
    unfold quads_of_cell in Hq. apply in_seq in Hq. cbn in Hq.
    destruct c as [|[|]]; [rewrite D0 in Hs|rewrite D1 in Hs|lia]; (assert (q = 0 \/ q = 1)%nat as [-> | ->] by lia); destruct i as [|[|[|[|i]]]]; try lia; cbn in Hs; try discriminate Hs; try (exfalso; cbn in Hq; lia); left; cbn; lra.
  - intros i c idx q Hi Hc Hs Hq. cbn in Hi, Hc. unfold run_node. right. left. cbn. lra.
  - intros d Hd. cbn in Hd. change (occurrences (run_mesh pf one 1) d) with (count_occ Nat.eq_dec (dofs_now (numbers pf one 1) 0) d + (count_occ Nat.eq_dec (dofs_now (numbers pf one 1) 1) d + 0))%nat. rewrite D0, D1. destruct d as [|[|[|[|d]]]]; try lia; cbn; lia.
  - intros i _. cbn [fields plate p_n seq]. apply NoDup_Permutation.
    + repeat constructor; cbn; intuition lia.
    + repeat constructor; cbn; intuition lia.
    + intros x. cbn. intuition.
Qed.
Example C89_instance_in_2D : relative (bpow radix2 (-53)) unlimited_double /\ well_numbered (numbers pf one 1) /\ fine_problem pf /\ float_run pf one 1 (fun _ => [3; 1; 0; 2]%nat) 1 1 /\
  (3 < p_n pf)%nat /\ s_dir (run_system pf one 1) 3 = false.
Proof. split; [apply flx_relative|]. split; [exact plate_one|]. split; [exact plate_fine|]. split; [exact plate_float|]. split; [cbn; lia|]. apply (plate_sdir 3). lia. Qed.
