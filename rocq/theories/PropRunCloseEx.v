(** A problem that meets the hypotheses of C67_runs_of_the_two_methods, on one process in FMM mode and on two in Direct
    mode: four nodes on two cells far apart, Dirichlet data everywhere, a singular rule that is diagonal. *)
From Coq Require Import QArith Qreals Reals List Bool Arith Lia Lra Permutation.
From Verif Require Import LibSum ModelOctree SpecOctree ModelFmm SpecFmm ModelFmmExp SpecFmmAcc ModelAssemble ModelRules.
From Verif Require Import PropOctree PropFmm PropFmmAcc PropAssemble SpecFmmRenum ProofsRenumOct PropFmmRenum.
From Verif Require ModelKernel ModelExp ProofsWorkload PropCoincide ProofsFmmCover ProofsRndDirect.
From Verif Require Import ModelBem ProofsBem ModelBc ProofsBc PropBem ModelOwn SpecOwn PropOwn ModelSolve SpecSolve ProofsSolve PropSolve PropSolveFmm SpecRenumber PropRenumber PropRenumMesh ModelRun PropRun ModelRunFmm PropRunFmm PropRunFmmEx PropClose PropRunClose.
Import ListNotations.
Local Open Scope R_scope.

Section Four.
  Variables (S : system).
  Hypothesis En : s_n S = 4%nat.
  Hypothesis Ed : forall i, (i < 4)%nat -> s_dir S i = true.
  Hypothesis Eb : forall i, (i < 4)%nat -> s_doubles S i = [i].
  Hypothesis Ec : s_cont S = false.
  Hypothesis Eh : forall i, s_hanging S i = None.
  Hypothesis LN : linear_op 4 (s_N S).
  Hypothesis LD : linear_op 4 (s_D S).
  Lemma four_coincidence : coincidence (s_n S) (s_doubles S).
  Proof. rewrite En. split; [|split]; [intros i Hi; rewrite Eb by auto; left; auto|intros i j Hi Hj; rewrite Eb in Hj by auto; destruct Hj as [<-|[]]; auto|intros i Hi; rewrite Eb by auto; repeat constructor; auto]. Qed.
  Lemma four_free rhs c i : merge 4 (node_constraints S rhs) (s_hanging S) = Some c -> (i < 4)%nat -> c i = None.
  Proof.
    intros Hm Hi. assert (N : node_constraints S rhs i = None).
    { assert (F := node_free S rhs four_coincidence i). rewrite En in F. specialize (F Hi).
      assert (G : free_of_doubles S i) by (unfold free_of_doubles; rewrite (Ed i Hi), Ec; auto). apply F in G. unfold constrained in G. destruct (node_constraints S rhs i); auto; discriminate. }
    unfold merge in Hm. destruct (existsb _ _); [discriminate|]. injection Hm as <-. cbv beta. rewrite N, Eh. reflexivity.
  Qed.
  Lemma four_stable rhs (tt : R) (kk : nat -> R) :
    (forall x i, (i < 4)%nat -> s_D S x i = tt * x i + kk i * (if (i <? 2)%nat then x 2%nat + x 3%nat else x 0%nat + x 1%nat)) ->
    tt = 2 * (Rabs (kk 0%nat) + Rabs (kk 1%nat) + Rabs (kk 2%nat) + Rabs (kk 3%nat)) + 1 -> stable S rhs 1.
  Proof.
    intros ED Et.
    set (T := {| s_n := 4; s_direct := true; s_N := s_N S; s_D := s_D S; s_dir := fun _ => true; s_have_dirichlet := true; s_doubles := fun i => [i]; s_normal := s_normal S; s_sgrad := s_sgrad S;
      s_cont := false; s_hanging := fun _ => None; s_close := s_close S |}).
    assert (ST : stable T rhs 1) by (refine (cl_stable_gen T rhs tt kk eq_refl eq_refl eq_refl eq_refl eq_refl LN ED Et)).
    intros c x r Hm Hr. rewrite En in *.
    destruct (merge 4 (node_constraints T rhs) (s_hanging T)) as [c'|] eqn:Hm'.
    - refine (ST c' x r Hm' _). intros i Hi. change (s_n T) with 4%nat in Hi. specialize (Hr i Hi). unfold homogeneous_row in *.
      rewrite (four_free rhs c i Hm Hi) in Hr.
      assert (Nc : c' i = None).
      { assert (N : node_constraints T rhs i = None).
        { assert (F := node_free T rhs cl_C4 i Hi). assert (G : free_of_doubles T i) by (unfold free_of_doubles; cbn; auto). apply F in G. unfold constrained in G. destruct (node_constraints T rhs i); auto; discriminate. }
        unfold merge in Hm'. destruct (existsb _ _); [discriminate|]. injection Hm' as <-. reflexivity. }
      rewrite Nc. cbv zeta in *. change (s_dir T) with (fun _ : nat => true). change (s_N T) with (s_N S). change (s_D T) with (s_D S). cbv beta iota.
      destruct LN as (_ & _ & EN), LD as (_ & _ & ED').
      assert (Z1 : forall k, (k < 4)%nat -> (if s_dir S k then 0 else x k) = 0) by (intros k Hk; rewrite (Ed k Hk); reflexivity).
      assert (Z2 : forall k, (k < 4)%nat -> (if s_dir S k then x k else 0) = x k) by (intros k Hk; rewrite (Ed k Hk); reflexivity).
      rewrite (EN _ _ Z1 i Hi), (ED' _ _ Z2 i Hi), (Z1 i Hi) in Hr. exact Hr.
    - exfalso. unfold merge in Hm'. destruct (existsb _ _) eqn:X; [|discriminate]. apply existsb_exists in X as (i & _ & X). apply andb_true_iff in X as (_ & X). discriminate X.
  Qed.
  (** zero fluxes solve the problem with constant data *)
  Lemma four_solution owns rhs phi0 dphi0 v : s_have_dirichlet S = true -> partition (s_n S) owns -> imposed S rhs phi0 dphi0 -> (forall i, (i < 4)%nat -> phi0 i = v) ->
    (forall c, merge (s_n S) (node_constraints S rhs) (s_hanging S) = Some c -> closes (s_n S) c (s_close S c)) -> solves S owns rhs (fun _ => 0).
  Proof.
    intros Ehd HP Im Ev Cl. assert (LN' := LN). assert (LD' := LD). rewrite <- En in LN', LD'.
    apply (C65_solve_system S owns rhs phi0 dphi0 _ Ehd LN' LD' four_coincidence HP Im Cl).
    assert (At : forall i, (i < 4)%nat -> solved_phi S phi0 (fun _ => 0) i = v /\ solved_dphi S dphi0 (fun _ => 0) i = 0).
    { intros i Hi. destruct (solved_at S phi0 dphi0 (fun _ => 0) i) as (A1 & A2). rewrite A1, A2, (Ed i Hi). auto. }
    split; [intros i _ X; unfold constrained in X; rewrite Eh in X; discriminate|]. unfold discrete_problem, discrete_problem_with. rewrite En, Ec. split; [|split; [|split; [|split; [|split]]]]; try discriminate.
    - intros i Hi _. unfold bie_row.
      rewrite (lin_comb _ _ (fun _ => 1) (fun _ => 1) (solved_phi S phi0 (fun _ => 0)) v 0 i LN Hi) by (intros; rewrite (proj1 (At _ ltac:(eassumption))); lra).
      rewrite (lin_comb _ _ (fun _ => 1) (fun _ => 1) (solved_dphi S dphi0 (fun _ => 0)) 0 0 i LD Hi) by (intros; rewrite (proj2 (At _ ltac:(eassumption))); lra).
      rewrite (proj1 (At i Hi)). lra.
    - intros i f Hi X. rewrite (Ed i Hi) in X. discriminate.
    - intros i f post Hi N. unfold neumann_group in N. rewrite (Eb i Hi) in N. specialize (N i (or_introl eq_refl)). rewrite (Ed i Hi) in N. discriminate.
    - intros h l _ X. rewrite Eh in X. discriminate.
  Qed.
End Four.

(** One singular point per node, at distance one from it, weighted so that the diagonal dominates. *)
Definition far_kern (i : nat) : R := code_kernel ex_oin Single i (if (i <? 2)%nat then 1 else 0)%nat.
Definition far_sum : R := 2 * (Rabs (far_kern 0) + Rabs (far_kern 1) + Rabs (far_kern 2) + Rabs (far_kern 3)) + 1.
Definition quad : problem := {|
  p_dim := 3; p_n := 4; p_cells := 2; p_dofs := p_dofs duo; p_vdofs := p_vdofs duo;
  p_mat := p_mat duo; p_dirichlet := [1; 2]%nat; p_neumann := []; p_node := p_node duo; p_edge := fun _ => false;
  p_pot := fun _ => 7; p_wind := fun _ _ => 1; p_normal := p_normal duo; p_sgrad := fun g j _ => g j; p_cont := false;
  p_hanging := fun _ => None; p_close := fun c => c; p_nq := 1;
  p_regular := p_regular duo;
  p_singular := {| sp_n := fun _ => 1%nat; sp_at := fun c idx _ k => p_node duo (2 * c + idx) k + (if Nat.eqb k 0 then 1 else 0); sp_normal := fun _ _ _ _ => 0;
    sp_shape := fun idx _ j => if Nat.eqb idx j then 1 else 0; sp_jxw := fun _ _ _ => far_sum * (4 * PI) |} |}.
Definition one_process (c : nat) : nat := 0%nat.
Definition two_processes (c : nat) : nat := (1 - c)%nat.
Lemma quad_numbered sub np : (forall c, (c < 2)%nat -> (sub c < np)%nat) -> well_numbered (numbers quad sub np).
Proof. intros A. exact (duo_numbered sub np A). Qed.
Lemma quad_dir j : (j < 4)%nat -> on_dirichlet quad j.
Proof.
  intros Hj. exists (j / 2)%nat. do 4 (destruct j as [|j]; [cbn; intuition lia|]). lia.
Qed.
Lemma quad_fine : fine_problem quad.
Proof.
  constructor.
  - exists 0%nat. apply quad_dir. lia.
  - exact duo_separated.
  - intros j c1 c2 H1 H2 I1 I2 M1. cbn in H1, H2, M1 |- *. destruct c2 as [|[|]]; [auto|auto|lia].
  - discriminate.
  - intros h l _ X. discriminate X.
  - intros g h E j d Hj. cbn. auto.
Qed.
Lemma quad_problem : fmm_problem quad duo_fmm.
Proof. constructor; try (cbn; lia). intros; reflexivity. Qed.
Lemma quad_position sub np : well_numbered (numbers quad sub np) -> fmm_position quad duo_fmm sub np.
Proof. intros W. exact (duo_position sub np W). Qed.
Lemma unit_step : kernel_s 3 (fun k => if Nat.eqb k 0 then 1 else 0) * (far_sum * (4 * PI)) = far_sum.
Proof.
  assert (P := PI_RGT_0). unfold kernel_s. cbn [Nat.eqb]. unfold ModelKernel.kernels3_d, ModelKernel.norm, ModelKernel.square. cbn [seq fold_left Nat.eqb].
  replace (0 + 1 * 1 + 0 * 0 + 0 * 0) with 1 by ring. rewrite sqrt_1. field. lra.
Qed.
Lemma quad_row x i : (i < 4)%nat -> s_D (run_system quad one_process 1) x i = far_sum * x i + far_kern i * (if (i <? 2)%nat then x 2%nat + x 3%nat else x 0%nat + x 1%nat).
Proof.
  intros Hi. assert (W : well_numbered (numbers quad one_process 1)) by (apply quad_numbered; cbn; intros; unfold one_process; lia).
  rewrite <- (lay_D quad duo_fmm one_process 1 W quad_problem (fun q => eq_refl) x i Hi). unfold direct_layer.
  rewrite C60_assembled_matrix_is_the_direct_product by first [exact (f_own quad one_process 1 W i Hi) | exact Hi | exact (fun c Hc d => u_low quad one_process 1 W c d Hc) | cbn; lia].
  assert (D0 : dofs_now (numbers quad one_process 1) 0 = [0; 1]%nat) by (vm_compute; reflexivity).
  assert (D1 : dofs_now (numbers quad one_process 1) 1 = [2; 3]%nat) by (vm_compute; reflexivity).
  assert (Sb : forall i, (i < 4)%nat -> s2o (numbers quad one_process 1) i = i) by (intros k Hk; do 4 (destruct k as [|k]; [vm_compute; reflexivity|]); lia).
  assert (Db : run_doubles quad one_process 1 i = [i]) by (do 4 (destruct i as [|i]; [reflexivity|]); lia).
  assert (Si : forall c idx j, (i = 2 * c + idx)%nat -> singular_row (fmm_rule quad one_process 1 dirichlet_matrix) i c idx j = if Nat.eqb idx j then far_sum else 0).
  { intros c idx j E. unfold singular_row. cbn [fmm_rule rule_at sr_n sr_kernel sr_shape sr_jxw quad p_singular sp_n sp_at sp_shape sp_jxw seq fold_left exact_arith aadd amul point_kernel].
    assert (U : kernel_s 3 (difference (fun k : nat => p_node duo (2 * c + idx) k + (if Nat.eqb k 0 then 1 else 0)) (run_node quad one_process 1 i)) = kernel_s 3 (fun k => if Nat.eqb k 0 then 1 else 0)).
    { f_equal. apply FunctionalExtensionality.functional_extensionality. intros k. unfold difference, run_node. rewrite (Sb i Hi), E. cbn [quad p_node]. ring. }
    rewrite U. assert (Us := unit_step). destruct (Nat.eqb idx j); [rewrite <- Us at 2; ring|ring]. }
  assert (Kf : forall q, code_kernel (fmm_mesh quad duo_fmm one_process 1) Single i q = code_kernel ex_oin Single i q).
  { intros q. assert (Po : o_pos (fmm_mesh quad duo_fmm one_process 1) i = o_pos ex_oin i) by (cbn [fmm_mesh o_pos]; rewrite (Sb i Hi); reflexivity). unfold code_kernel, sep. rewrite Po. reflexivity. }
  unfold direct_product, density, is_singular, singular_of, singular_index, dof_list, quads_of_cell, suml, cell_of.
  cbn [fmm_mesh o_nc o_nqc o_cdofs o_dbl quad p_cells p_nq seq map fold_right List.filter code_kern kd shp jxw sing]. 
  rewrite Db. cbn -[code_kernel far_sum dofs_now singular_row]. rewrite D0, D1.
  do 4 (destruct i as [|i]; [cbn -[code_kernel far_sum singular_row fmm_mesh fmm_rule]; rewrite ?Kf, !Si by reflexivity; cbn [Nat.eqb]; unfold far_kern; cbn [Nat.ltb Nat.leb]; ring|]). lia.
Qed.

Definition quad_run : execution := let s := seq_sched (fmm_mesh quad duo_fmm one_process 1) in {| e_schN := fun _ _ => s; e_schD := fun _ _ => s; e_junkN := fun _ _ => 5; e_junkD := fun _ _ => 9 |}.
Example C67_runs_of_the_two_methods_instance :
  well_numbered (numbers quad one_process 1) /\ well_numbered (numbers quad two_processes 2) /\ fine_problem quad /\ closing quad one_process 1 /\ closing quad two_processes 2 /\
  fmm_problem quad duo_fmm /\ (forall q, rp_at (p_regular quad) q = coords (f_qpos duo_fmm q)) /\ fmm_position quad duo_fmm one_process 1 /\ fmm_executes quad duo_fmm one_process 1 quad_run /\
  fmm_solves quad duo_fmm one_process 1 quad_run (fun _ => 0) /\ run_solves quad two_processes 2 (fun _ => 0) /\ stable (run_system quad one_process 1) (run_rhs quad one_process 1) 1.
Proof.
  assert (W1 : well_numbered (numbers quad one_process 1)) by (apply quad_numbered; intros; unfold one_process; lia).
  assert (W2 : well_numbered (numbers quad two_processes 2)) by (apply quad_numbered; intros; unfold two_processes; lia).
  assert (C1 : closing quad one_process 1) by (intros c _; split; tauto). assert (C2 : closing quad two_processes 2) by (intros c _; split; tauto).
  assert (EX : fmm_executes quad duo_fmm one_process 1 quad_run) by (intros x i; split; apply seq_sched_good).
  assert (GP := quad_position one_process 1 W1).
  assert (Dir : forall sub np, well_numbered (numbers quad sub np) -> forall i, (i < 4)%nat -> s_dir (run_system quad sub np) i = true).
  { intros sub np W i Hi. apply (u_dir quad sub np W (fp_kind quad quad_fine) i Hi). apply quad_dir. apply (u_s2o quad sub np W i Hi). }
  assert (Dbl : forall sub np, well_numbered (numbers quad sub np) -> forall i, (i < 4)%nat -> run_doubles quad sub np i = [i]).
  { intros sub np W i Hi. do 4 (destruct i as [|i]; [reflexivity|]). lia. }
  assert (Ph : forall sub np, well_numbered (numbers quad sub np) -> forall i, (i < 4)%nat -> run_phi0 quad sub np i = 7).
  { intros sub np W i Hi. apply (u_pot quad sub np W (fp_kind quad quad_fine) i Hi). apply quad_dir. apply (u_s2o quad sub np W i Hi). }
  assert (Sol : forall sub np, well_numbered (numbers quad sub np) -> closing quad sub np -> run_solves quad sub np (fun _ => 0)).
  { intros sub np W Cl. exact (four_solution (run_system quad sub np) eq_refl (Dir sub np W) (Dbl sub np W) eq_refl (fun _ => eq_refl) (u_linear quad sub np neumann_matrix) (u_linear quad sub np dirichlet_matrix)
      (owned_sets quad sub np) (run_rhs quad sub np) (run_phi0 quad sub np) (run_dphi0 quad sub np) 7 (u_have quad sub np W (fp_some quad quad_fine)) (u_partition quad sub np W) (u_imposed quad sub np W (fp_kind quad quad_fine)) (Ph sub np W) Cl). }
  split; [exact W1|]. split; [exact W2|]. split; [exact quad_fine|]. split; [exact C1|]. split; [exact C2|]. split; [exact quad_problem|]. split; [reflexivity|]. split; [exact GP|]. split; [exact EX|].
  split; [|split; [apply Sol; auto|]].
  - exact (four_solution (fmm_system quad duo_fmm one_process 1 quad_run) eq_refl (Dir one_process 1%nat W1) (Dbl one_process 1%nat W1) eq_refl (fun _ => eq_refl) (proj1 (f_linear quad duo_fmm one_process 1 quad_run W1 quad_problem GP EX)) (proj2 (f_linear quad duo_fmm one_process 1 quad_run W1 quad_problem GP EX))
      (owned_sets quad one_process 1) (run_rhs quad one_process 1) (run_phi0 quad one_process 1) (run_dphi0 quad one_process 1) 7 (u_have quad one_process 1 W1 (fp_some quad quad_fine)) (u_partition quad one_process 1 W1) (u_imposed quad one_process 1 W1 (fp_kind quad quad_fine)) (Ph one_process 1%nat W1) C1).
  - exact (four_stable (run_system quad one_process 1) eq_refl (Dir one_process 1%nat W1) (Dbl one_process 1%nat W1) eq_refl (fun _ => eq_refl) (u_linear quad one_process 1 neumann_matrix) (u_linear quad one_process 1 dirichlet_matrix) (run_rhs quad one_process 1) far_sum far_kern quad_row eq_refl).
Qed.
