(** Property theorem C88, fast method: whatever earlier cycles left in the node-to-cell map, the run stays within the same
    bound of the Direct run (C67), so two runs on the same mesh with different histories differ by at most the two bounds. *)
From Coq Require Import QArith Qreals Reals List Bool Arith Lia Lra Permutation.
From Verif Require Import LibSum ModelOctree SpecOctree ModelFmm SpecFmm ModelFmmExp SpecFmmAcc ModelAssemble ModelRules.
From Verif Require Import PropOctree PropFmm PropFmmAcc PropAssemble SpecFmmRenum ProofsRenumOct PropFmmRenum.
From Verif Require ModelKernel ModelExp ProofsWorkload ModelRegen PropRegen.
From Verif Require Import ModelBem ProofsBem ModelBc ProofsBc PropBem ModelOwn SpecOwn PropOwn ModelSolve SpecSolve ProofsSolve PropSolve PropSolveFmm SpecRenumber PropRenumber PropRenumMesh ModelRun PropRun ModelRunFmm PropRunFmm PropRunFmmEx PropClose PropRunClose PropRunCloseEx.
Import ListNotations.
Local Open Scope R_scope.

(** the same solve with other leftovers *)
Definition leave (f : fmm_part) (old : nat -> list nat) : fmm_part :=
  {| f_levels := f_levels f; f_max := f_max f; f_order := f_order f; f_pos := f_pos f; f_qpos := f_qpos f; f_old := old |}.
Lemma leave_mesh p f old sub np : fmm_mesh p (leave f old) sub np = ModelRegen.with_old (fmm_mesh p f sub np) old.
Proof. reflexivity. Qed.
Lemma leave_octree p f old sub np : octree (fmm_mesh p (leave f old) sub np) = octree (fmm_mesh p f sub np).
Proof. rewrite leave_mesh. apply PropRegen.with_old_octree. Qed.
Lemma leave_position p f old sub np : fmm_position p f sub np -> fmm_position p (leave f old) sub np.
Proof.
  assert (G : forall ly, general_position (fmm_mesh p f sub np) ly -> general_position (fmm_mesh p (leave f old) sub np) ly).
  { intros ly. unfold general_position, smallest_side. rewrite leave_octree. exact (fun x => x). }
  intros (A & B). split; apply G; [exact A|exact B].
Qed.
Lemma leave_problem p f old : fmm_problem p f -> fmm_problem p (leave f old).
Proof. intros [A B C D E]. constructor; assumption. Qed.

(** The lists of the second solve of a run may treat a pair of a node and a quadrature point in another way than those of a
    first solve on the same mesh (C52, C85); the answers stay close. *)
Theorem C88_fast_runs_with_different_histories : forall p f old1 old2 sub np sub' np' X1 X2 sol1 sol2 sol' M err1 err2,
  well_numbered (numbers p sub np) -> well_numbered (numbers p sub' np') -> fine_problem p -> closing p sub np -> closing p sub' np' ->
  fmm_problem p f -> (forall q, rp_at (p_regular p) q = coords (f_qpos f q)) -> fmm_position p f sub np ->
  fmm_executes p (leave f old1) sub np X1 -> fmm_executes p (leave f old2) sub np X2 ->
  fmm_solves p (leave f old1) sub np X1 sol1 -> fmm_solves p (leave f old2) sub np X2 sol2 ->
  run_solves p sub' np' sol' -> stable (run_system p sub np) (run_rhs p sub np) M ->
  let phi1 := fmm_phi p (leave f old1) sub np X1 sol1 in let dphi1 := fmm_dphi p (leave f old1) sub np X1 sol1 in
  let phi2 := fmm_phi p (leave f old2) sub np X2 sol2 in let dphi2 := fmm_dphi p (leave f old2) sub np X2 sol2 in
  let I := fmm_mesh p f sub np in let d := smallest_side I in
  let cN := charge I (Double (fmm_normal p)) (rp_shape (p_regular p)) (rp_jxw (p_regular p)) (fmm_rule p sub np neumann_matrix) in
  let cD := charge I Single (rp_shape (p_regular p)) (rp_jxw (p_regular p)) (fmm_rule p sub np dirichlet_matrix) in
  let size phi dphi i := far_error (Double (fmm_normal p)) (f_order f) d * (cN phi + Rabs (phi i) * cN (fun _ => 1)) + far_error Single (f_order f) d * cD dphi in
  0 <= err1 -> 0 <= err2 ->
  (forall i, (i < p_n p)%nat -> size phi1 dphi1 i <= err1) -> (forall i, (i < p_n p)%nat -> size phi2 dphi2 i <= err2) ->
  forall j, (j < p_n p)%nat ->
    Rabs (phi1 (o2s (numbers p sub np) j) - phi2 (o2s (numbers p sub np) j)) <= M * (err1 + err2) /\
    Rabs (dphi1 (o2s (numbers p sub np) j) - dphi2 (o2s (numbers p sub np) j)) <= M * (err1 + err2).
Proof.
  intros p f old1 old2 sub np sub' np' X1 X2 sol1 sol2 sol' M err1 err2 W W' F Cl Cl' FM Eq GP EX1 EX2 H1 H2 Hs' St phi1 dphi1 phi2 dphi2 I d cN cD size E1 E2 B1 B2 j Hj.
  assert (Sd : forall old, smallest_side (fmm_mesh p (leave f old) sub np) = d) by (intros old; unfold d, I, smallest_side; rewrite leave_octree; reflexivity).
  assert (T : forall old X sol err, fmm_executes p (leave f old) sub np X -> fmm_solves p (leave f old) sub np X sol -> 0 <= err ->
    (forall i, (i < p_n p)%nat -> size (fmm_phi p (leave f old) sub np X sol) (fmm_dphi p (leave f old) sub np X sol) i <= err) ->
    Rabs (fmm_phi p (leave f old) sub np X sol (o2s (numbers p sub np) j) - run_phi p sub' np' sol' (o2s (numbers p sub' np') j)) <= M * err /\
    Rabs (fmm_dphi p (leave f old) sub np X sol (o2s (numbers p sub np) j) - run_dphi p sub' np' sol' (o2s (numbers p sub' np') j)) <= M * err).
  { intros old X sol err EX Hs E B.
    refine (C67_runs_of_the_two_methods p (leave f old) sub np sub' np' X sol sol' M err W W' F Cl Cl' (leave_problem p f old FM) Eq (leave_position p f old sub np GP) EX Hs Hs' St E _ j Hj).
    intros i Hi. rewrite (Sd old). exact (B i Hi). }
  destruct (T old1 X1 sol1 err1 EX1 H1 E1 B1) as (P1 & Q1). destruct (T old2 X2 sol2 err2 EX2 H2 E2 B2) as (P2 & Q2).
  assert (Tri : forall a b c, Rabs (a - c) <= M * err1 -> Rabs (b - c) <= M * err2 -> Rabs (a - b) <= M * (err1 + err2)).
  { intros a b c A B. replace (a - b) with ((a - c) - (b - c)) by ring. pose proof (Rabs_triang (a - c) (- (b - c))) as TT. rewrite Rabs_Ropp in TT. unfold Rminus at 1. lra. }
  split; [exact (Tri _ _ _ P1 P2)|exact (Tri _ _ _ Q1 Q2)].
Qed.

(** The problem of C67_runs_of_the_two_methods_instance, once as a first solve and once with a leftover that changes the lists. *)
Definition quad_again : execution := let s := seq_sched (fmm_mesh quad (leave duo_fmm stale) one_process 1) in {| e_schN := fun _ _ => s; e_schD := fun _ _ => s; e_junkN := fun _ _ => 5; e_junkD := fun _ _ => 9 |}.
Example C88_fast_instance :
  fmm_problem quad duo_fmm /\ (forall q, rp_at (p_regular quad) q = coords (f_qpos duo_fmm q)) /\ fmm_position quad duo_fmm one_process 1 /\
  fmm_executes quad (leave duo_fmm (fun _ => [])) one_process 1 quad_run /\ fmm_executes quad (leave duo_fmm stale) one_process 1 quad_again /\
  fmm_solves quad (leave duo_fmm (fun _ => [])) one_process 1 quad_run (fun _ => 0) /\ fmm_solves quad (leave duo_fmm stale) one_process 1 quad_again (fun _ => 0) /\
  run_solves quad two_processes 2 (fun _ => 0) /\ stable (run_system quad one_process 1) (run_rhs quad one_process 1) 1.
Proof.
  destruct C67_runs_of_the_two_methods_instance as (W1 & W2 & F & C1 & C2 & FM & Eq & GP & EX & S1 & R2 & St).
  assert (EX' : fmm_executes quad (leave duo_fmm stale) one_process 1 quad_again) by (intros x i; split; apply seq_sched_good).
  assert (Dir : forall i, (i < 4)%nat -> s_dir (run_system quad one_process 1) i = true).
  { intros i Hi. apply (u_dir quad one_process 1 W1 (fp_kind quad quad_fine) i Hi). apply quad_dir. apply (u_s2o quad one_process 1 W1 i Hi). }
  assert (Dbl : forall i, (i < 4)%nat -> run_doubles quad one_process 1 i = [i]) by (intros i Hi; do 4 (destruct i as [|i]; [reflexivity|]); lia).
  assert (Ph : forall i, (i < 4)%nat -> run_phi0 quad one_process 1 i = 7).
  { intros i Hi. apply (u_pot quad one_process 1 W1 (fp_kind quad quad_fine) i Hi). apply quad_dir. apply (u_s2o quad one_process 1 W1 i Hi). }
  assert (Li := f_linear quad (leave duo_fmm stale) one_process 1 quad_again W1 (leave_problem quad duo_fmm stale FM) (leave_position quad duo_fmm stale one_process 1 GP) EX').
  split; [exact FM|]. split; [exact Eq|]. split; [exact GP|]. split; [exact EX|]. split; [exact EX'|]. split; [exact S1|]. split; [|split; [exact R2|exact St]].
  exact (four_solution (fmm_system quad (leave duo_fmm stale) one_process 1 quad_again) eq_refl Dir Dbl eq_refl (fun _ => eq_refl) (proj1 Li) (proj2 Li)
    (owned_sets quad one_process 1) (run_rhs quad one_process 1) (run_phi0 quad one_process 1) (run_dphi0 quad one_process 1) 7 (u_have quad one_process 1 W1 (fp_some quad quad_fine)) (u_partition quad one_process 1 W1) (u_imposed quad one_process 1 W1 (fp_kind quad quad_fine)) Ph C1).
Qed.
