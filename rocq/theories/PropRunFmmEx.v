(** A problem that meets the hypotheses of C85 and C67_whole_runs on one process and on two: the mesh of C59 (four
    nodes, two cells far apart, order 3), Dirichlet data on one cell, Neumann data on the other. *)
From Coq Require Import QArith Qreals Reals List Bool Arith Lia Lra Permutation.
From Verif Require Import LibSum ModelOctree SpecOctree ModelFmm SpecFmm ModelFmmExp SpecFmmAcc ModelAssemble ModelRules.
From Verif Require Import PropOctree PropFmm PropFmmAcc SpecFmmRenum ProofsRenumOct PropFmmRenum.
From Verif Require ModelKernel ModelExp ProofsWorkload.
From Verif Require Import ModelBem ProofsBem ModelBc ProofsBc PropBem ModelOwn SpecOwn PropOwn ModelSolve SpecSolve ProofsSolve PropSolve PropSolveFmm SpecRenumber PropRenumber ModelRun PropRun ModelRunFmm PropRunFmm ModelRegen.
Import ListNotations.
Local Open Scope nat_scope.

Definition duo : problem := {|
  p_dim := 3; p_n := 4; p_cells := 2; p_dofs := fun c => [2 * c; 2 * c + 1]; p_vdofs := fun c => flat_map (fun d => map (fun i => d * 4 + i) [2 * c; 2 * c + 1]) [0;1;2];
  p_mat := fun c => S c; p_dirichlet := [1]; p_neumann := [2]; p_node := fun j => coords (o_pos ex_oin j); p_edge := fun _ => false;
  p_pot := fun _ => 7%R; p_wind := fun _ _ => 1%R; p_normal := fun _ d => if Nat.eqb d 2 then 1%R else 0%R; p_sgrad := fun g j _ => g j; p_cont := true;
  p_hanging := fun _ => None; p_close := fun c => c; p_nq := 1;
  p_regular := {| rp_at := fun q => coords (o_qpos ex_oin q); rp_normal := fun _ d => if Nat.eqb d 0 then 1%R else 0%R; rp_shape := fun _ _ => 1%R; rp_jxw := fun _ => 1%R |};
  p_singular := {| sp_n := fun _ => 1; sp_at := fun _ _ _ _ => 0%R; sp_normal := fun _ _ _ _ => 0%R; sp_shape := fun _ _ _ => 1%R; sp_jxw := fun _ _ _ => 1%R |} |}.
Definition duo_fmm : fmm_part := {| f_levels := 3; f_max := 1; f_order := 3; f_pos := o_pos ex_oin; f_qpos := o_qpos ex_oin; f_old := fun _ => [] |}.
Definition duo_run (sub : nat -> nat) (np : nat) : execution := let s := seq_sched (fmm_mesh duo duo_fmm sub np) in
  {| e_schN := fun _ _ => s; e_schD := fun _ _ => s; e_junkN := fun _ _ => 0%R; e_junkD := fun _ _ => INR np |}.
Lemma duo_numbered sub np : (forall c, c < 2 -> sub c < np) -> well_numbered (numbers duo sub np).
Proof.
  intros A. split; [cbn; lia|]. split; [exact A|]. split; [intros c i Hc Hi; cbn in *; lia|]. split; [intros i Hi; exists (i / 2); cbn in *; destruct i as [|[|[|[|]]]]; cbn; lia|].
  intros c j Hc. cbn [nu_vdofs numbers p_vdofs duo]. rewrite in_flat_map. split.
  - intros (d & D1 & D2). apply in_map_iff in D2. destruct D2 as (i & <- & Hi). exists d, i. cbn. split; [cbn in D1; lia|]. split; auto.
  - intros (d & i & D1 & D2 & ->). exists d. split; [cbn in D1; cbn; lia|]. apply in_map. exact D2.
Qed.
Lemma duo_dir j : on_dirichlet duo j <-> j < 2.
Proof.
  split.
  - intros (c & Hc & Hj & Hm). cbn in Hm. destruct Hm as [Hm|[]]. destruct c; [|lia]. cbn in Hj. lia.
  - intros Hj. exists 0. split; [cbn; lia|]. split; [cbn; lia|left; reflexivity].
Qed.
Lemma duo_distance i j : i < 4 -> j < 4 -> i <> j -> (1 / 10 <= ModelKernel.norm 3 (difference (p_node duo i) (p_node duo j)))%R.
Proof.
  intros Hi Hj Ne. unfold ModelKernel.norm, ModelKernel.square. cbn [fold_left seq].
  set (u := difference (p_node duo i) (p_node duo j)).
  assert (Y : (1 / 10 * (1 / 10) <= u 0%nat * u 0%nat)%R).
  { unfold u, difference. cbn [p_node duo coords]. do 4 (destruct i as [|i]; [do 4 (destruct j as [|j]; [try lia; cbn [ex_oin o_pos px]; unfold Q2R; cbn; lra|]); lia|]). lia. }
  rewrite <- (sqrt_square (1 / 10)) by lra. apply sqrt_le_1_alt. assert (A := Rle_0_sqr (u 1)). assert (B := Rle_0_sqr (u 2)). unfold Rsqr in A, B. lra.
Qed.
Lemma duo_separated : separated duo.
Proof.
  intros i j Hi Hj L. destruct (Nat.eq_dec i j) as [->|Ne]; [reflexivity|]. exfalso.
  assert (X := duo_distance i j Hi Hj Ne). change (p_dim duo) with 3 in L.
  assert (T : (1 / 10 ^ 10 <= 1 / 10)%R). { unfold Rdiv. apply Rmult_le_compat_l; [lra|]. apply Rinv_le_contravar; [lra|]. replace 10%R with (10 ^ 1)%R at 1 by ring. apply Rle_pow; [lra|lia]. }
  lra.
Qed.
Lemma duo_fine : fine_problem duo.
Proof.
  constructor.
  - exists 0. apply duo_dir. lia.
  - apply duo_separated.
  - intros j c1 c2 H1 H2 I1 I2 M1. cbn in H1, H2, M1. destruct M1 as [M1|[]]. destruct c1; [|lia]. destruct c2 as [|[|]]; [left; reflexivity| |lia]. cbn in I1, I2. lia.
  - intros _. apply C82_at_most_two_dirichlet_nodes. intros i j k Hi Hj _ _ _ _ E _. left. destruct (Nat.eq_dec i j) as [|Ne]; auto. exfalso.
    assert (X := duo_distance i j Hi Hj Ne). rewrite E, norm_self in X. lra.
  - intros h l _ X. discriminate X.
  - intros g h E j d Hj. cbn. auto.
Qed.
Lemma duo_problem : fmm_problem duo duo_fmm.
Proof. constructor; try (cbn; lia). intros; reflexivity. Qed.
Lemma duo_mesh sub np : well_numbered (numbers duo sub np) -> same_mesh (s2o (numbers duo sub np)) (o2s (numbers duo sub np)) ex_oin (fmm_mesh duo duo_fmm sub np).
Proof.
  intros W. constructor; try reflexivity.
  - intros i Hi. destruct (u_s2o duo sub np W i Hi) as [A B], (u_o2s duo sub np W i Hi) as [C D]. auto.
  - intros i Hi. change (p_n duo) with 4 in *. apply NoDup_Permutation.
    + apply ProofsWorkload.map_NoDup; [apply NoDup_filter, seq_NoDup|]. intros a b Ha Hb E.
      apply (u_doubles duo sub np i a Hi) in Ha. apply (u_doubles duo sub np i b Hi) in Hb.
      rewrite <- (proj2 (u_s2o duo sub np W a (proj1 Ha))), <- (proj2 (u_s2o duo sub np W b (proj1 Hb))), E. reflexivity.
    + repeat constructor; auto.
    + intros k. rewrite in_map_iff. cbn [ex_oin o_dbl fmm_mesh]. split.
      * intros (a & <- & Ha). apply (u_doubles duo sub np i a Hi) in Ha as (_ & [->|(X & _)]); [left; reflexivity|discriminate X].
      * intros [<-|[]]. exists i. split; auto. apply (u_doubles duo sub np i i Hi). auto.
  - intros c Hc. cbn [fmm_mesh o_cdofs ex_oin] in *. unfold dofs_now. rewrite map_map. rewrite <- (map_id [2 * c; 2 * c + 1]). apply map_ext_in. intros a Ha.
    apply (u_o2s duo sub np W). cbn in *. lia.
Qed.
Lemma duo_position sub np : well_numbered (numbers duo sub np) -> fmm_position duo duo_fmm sub np.
Proof.
  intros W. split; eapply (gp_same _ _ ex_oin); try (apply duo_mesh; exact W); try apply ex_oin_wf; apply C59_general_position_met; intros n E; [discriminate|].
  inversion E. reflexivity.
Qed.
Example C85_instance :
  let one := fun _ : nat => 0 in let two := fun c => 1 - c in
  well_numbered (numbers duo one 1) /\ well_numbered (numbers duo two 2) /\ fine_problem duo /\ closing duo one 1 /\ closing duo two 2 /\
  fmm_problem duo duo_fmm /\ (forall i, f_old duo_fmm i = []) /\ (forall q, rp_at (p_regular duo) q = coords (f_qpos duo_fmm q)) /\
  fmm_position duo duo_fmm one 1 /\ fmm_position duo duo_fmm two 2 /\
  fmm_executes duo duo_fmm one 1 (duo_run one 1) /\ fmm_executes duo duo_fmm two 2 (duo_run two 2) /\
  map (o2s (numbers duo two 2)) (seq 0 4) = [2;3;0;1] /\ map (owner_of duo two 2) (seq 0 4) = [0;0;1;1] /\
  In (M2L 3 4) (ways (fmm_mesh duo duo_fmm two 2) (octree (fmm_mesh duo duo_fmm two 2)) 2 1).
Proof.
  intros one two. assert (W1 : well_numbered (numbers duo one 1)) by (apply duo_numbered; auto). assert (W2 : well_numbered (numbers duo two 2)) by (apply duo_numbered; intros; unfold two; lia).
  split; [exact W1|]. split; [exact W2|]. split; [exact duo_fine|]. split; [intros c _; split; tauto|]. split; [intros c _; split; tauto|].
  split; [exact duo_problem|]. split; [reflexivity|]. split; [reflexivity|]. split; [apply duo_position; auto|]. split; [apply duo_position; auto|].
  split; [intros x i; split; apply seq_sched_good|]. split; [intros x i; split; apply seq_sched_good|]. split; [reflexivity|]. split; [reflexivity|].
  refine (proj2 (ways_same (s2o (numbers duo two 2)) (o2s (numbers duo two 2)) ex_oin (fmm_mesh duo duo_fmm two 2) (duo_mesh two 2 W2) (fun x y E => E) ex_oin_wf (f_wf duo duo_fmm two 2 W2 duo_problem) 2 1 (M2L 3 4) _) _).
  - cbn. lia.
  - assert (E0 : s2o (numbers duo two 2) 2 = 0) by reflexivity. rewrite E0. rewrite (proj1 (proj2 (proj2 (proj2 ex_oin_shape)))). left. reflexivity.
Qed.

(** On a later cycle the map from node numbers to cells still holds what earlier cycles appended (C52).  With the
    same entry under the same number, the two numberings treat the same pair in different ways: the lists, and the
    truncation error, then depend on the number of processes. *)
Definition swap4 (i : nat) : nat := (i + 2) mod 4.
Definition stale (i : nat) : list nat := if Nat.eqb i 0 then [1] else [].
Definition duo_old : oin := with_old ex_oin stale.
Definition duo_swapped : oin := {| o_N := 3; o_max := 1; o_nd := 4; o_pos := fun i => o_pos ex_oin (swap4 i); o_nc := 2; o_nqc := 1; o_qpos := o_qpos ex_oin;
  o_dbl := fun d => [d]; o_cdofs := fun c => map swap4 [2 * c; 2 * c + 1]; o_rnd := fun x => x; o_old := stale |}.
Theorem C85_leftovers_of_earlier_cycles_refuted : exists pi rho I I' i q,
  same_mesh pi rho (with_old I (fun _ => [])) (with_old I' (fun _ => [])) /\ wf_in I /\ wf_in I' /\ (forall k, o_old I' k = o_old I k) /\
  i < o_nd I /\ q < o_nq I /\
  ways I (octree I) (pi i) q = [Near 5] /\ ways I' (octree I') i q = [M2L 3 4] /\
  ways (with_old I (fun _ => [])) (octree (with_old I (fun _ => []))) (pi i) q = [M2L 3 4].
Proof.
  exists swap4, swap4, duo_old, duo_swapped, 2, 1.
  assert (L4 : forall P : nat -> Prop, P 0 -> P 1 -> P 2 -> P 3 -> forall i, i < 4 -> P i) by (intros P A B C D i Hi; destruct i as [|[|[|[|]]]]; auto; lia).
  split; [|split; [|split; [|split; [|split; [|split; [|split; [|split]]]]]]]; try (vm_compute; reflexivity).
  - constructor; try reflexivity.
    + intros i. cbn [duo_old with_old ex_oin o_nd]. revert i. apply L4; vm_compute; repeat split; lia.
    + intros c Hc. cbn [duo_old with_old ex_oin o_nc] in Hc. destruct c as [|[|]]; [reflexivity|reflexivity|lia].
  - destruct ex_oin_wf as (A & B & C & D). split; [exact A|]. split; [exact B|]. split; [exact C|exact D].
  - split; [cbn; lia|]. split; [cbn; lia|]. split.
    + intros d Hd. cbn in *. split; auto. intros e [<-|[]]; auto.
    + intros c Hc d Hd. cbn [duo_swapped o_cdofs o_nc o_nd] in *. apply in_map_iff in Hd as (a & <- & _). unfold swap4. apply Nat.mod_upper_bound. lia.
  - cbn. lia.
Qed.
