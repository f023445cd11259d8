(** Property theorems C85, whole runs: what a solve in FMM mode returns does not depend on the number of processes, the
    partition of the mesh, the order in which the tasks run or the undefined values that are read. *)
From Coq Require Import QArith Qreals Reals List Bool Arith Lia Lra Permutation.
From Verif Require Import LibSum ModelOctree SpecOctree ModelFmm SpecFmm ModelFmmExp SpecFmmAcc ModelAssemble ModelRules.
From Verif Require Import PropOctree PropFmm PropFmmAcc SpecFmmRenum ProofsRenumOct PropFmmRenum.
From Verif Require ModelKernel ModelExp ProofsWorkload PropCoincide ProofsFmmCover ProofsRndDirect.
From Verif Require Import ModelBem ProofsBem ModelBc ProofsBc PropBem ModelOwn SpecOwn PropOwn ModelSolve SpecSolve ProofsSolve PropSolve PropSolveFmm SpecRenumber PropRenumber PropRenumMesh ModelRun PropRun ModelRunFmm.
Import ListNotations.
Local Open Scope nat_scope.

(** In three dimensions, at least one level, one node and one quadrature point per cell, order at most 10; the fractions are
    the coordinates of the nodes. *)
Record fmm_problem (p : problem) (f : fmm_part) : Prop := {
  fm_dim : p_dim p = 3;
  fm_some : 0 < p_n p;
  fm_levels : 0 < f_levels f;
  fm_quad : 0 < p_nq p;
  fm_order : f_order f <= 10;
  fm_pos : forall j, j < p_n p -> p_node p j = coords (f_pos f j) }.
(** the conditions of C59 for both operators, for the mesh as numbered on one set of processes *)
Definition fmm_position (p : problem) (f : fmm_part) (sub : nat -> nat) (np : nat) : Prop :=
  general_position (fmm_mesh p f sub np) Single /\ general_position (fmm_mesh p f sub np) (Double (fmm_normal p)).
(** every product runs each of its tasks once, children before parents on the way up and parents before children on the way down (C39) *)
Definition fmm_executes (p : problem) (f : fmm_part) (sub : nat -> nat) (np : nat) (X : execution) : Prop :=
  forall x i, good_sched (fmm_mesh p f sub np) (octree (fmm_mesh p f sub np)) (e_schN X x i) /\
              good_sched (fmm_mesh p f sub np) (octree (fmm_mesh p f sub np)) (e_schD X x i).

Lemma coords_eq a b : coords a = coords b -> pt_eq a b.
Proof.
  intros E. assert (E0 := f_equal (fun v => v 0) E). assert (E1 := f_equal (fun v => v 1) E). assert (E2 := f_equal (fun v => v 2) E). cbn [coords] in E0, E1, E2.
  repeat split; apply eqR_Qeq; auto.
Qed.

Section One.
  Variables (p : problem) (f : fmm_part) (sub : nat -> nat) (np : nat) (X : execution).
  Notation U := (numbers p sub np).
  Notation n := (p_n p).
  Notation I := (fmm_mesh p f sub np).
  Hypothesis W : well_numbered U.
  Hypothesis FM : fmm_problem p f.
  Lemma f_wf : wf_in I.
  Proof.
    split; [apply FM|]. split; [apply FM|]. split.
    - intros d Hd. cbn [fmm_mesh o_nd o_dbl] in *. split; [apply (u_doubles p sub np d d Hd); auto|]. intros e He. apply (u_doubles p sub np d e Hd) in He. tauto.
    - intros c Hc d Hd. apply (u_low p sub np W c d); auto.
  Qed.
  Lemma f_own i : i < n -> fmm_own p sub np i i = true.
  Proof. intros Hi. apply (u_owns p sub np W i Hi). Qed.
  Hypothesis GP : fmm_position p f sub np.
  Hypothesis EX : fmm_executes p f sub np X.
  Lemma f_linear : linear_op n (s_N (fmm_system p f sub np X)) /\ linear_op n (s_D (fmm_system p f sub np X)).
  Proof.
    split; [apply (fmm_layer_linear I (f_order f) (rp_shape (p_regular p)) (rp_jxw (p_regular p)) (fmm_own p sub np) f_wf (fm_quad p f FM) (fm_order p f FM) f_own); [apply GP|apply EX]
           |apply (fmm_layer_linear I (f_order f) (rp_shape (p_regular p)) (rp_jxw (p_regular p)) (fmm_own p sub np) f_wf (fm_quad p f FM) (fm_order p f FM) f_own); [apply GP|apply EX]].
  Qed.
  Lemma f_rows : separated p -> forall i j, i < n -> In j (run_doubles p sub np i) -> same_rows (fmm_system p f sub np X) i j.
  Proof.
    intros Sep i j Hi Hj x. destruct (u_same p sub np W Sep i j Hi Hj) as (Lj & En & Ed).
    assert (Ep : same_point (o_pos I i) (o_pos I j)).
    { apply coords_eq. cbn [fmm_mesh o_pos]. rewrite <- !(fm_pos p f FM) by (apply (u_s2o p sub np W); auto). exact En. }
    assert (G : forall ly m s s' junk junk', general_position I ly -> good_sched I (octree I) s -> good_sched I (octree I) s' ->
      fmm_product (code_eops I (octree I) (f_order f) ly junk) I (octree I) (code_kern I ly (rp_shape (p_regular p)) (rp_jxw (p_regular p)) (singular_of I (fmm_rule p sub np m))) x (fmm_own p sub np i) s i =
      fmm_product (code_eops I (octree I) (f_order f) ly junk') I (octree I) (code_kern I ly (rp_shape (p_regular p)) (rp_jxw (p_regular p)) (singular_of I (fmm_rule p sub np m))) x (fmm_own p sub np j) s' j).
    { intros ly m s s' junk junk' GPl Gs Gs'. apply C85_nodes_at_one_point_get_the_same_product; auto; try apply FM; try apply f_own; auto.
      - exact f_wf.
      - intros k. change (In k (run_doubles p sub np i) <-> In k (run_doubles p sub np j)). rewrite Ed. tauto.
      - intros c idx q. cbn [fmm_rule rule_at sr_kernel]. rewrite En. reflexivity. }
    split; [exact (G (Double (fmm_normal p)) neumann_matrix _ _ _ _ (proj2 GP) (proj1 (EX x i)) (proj1 (EX x j)))|exact (G Single dirichlet_matrix _ _ _ _ (proj1 GP) (proj2 (EX x i)) (proj2 (EX x j)))].
  Qed.
  Lemma f_regular : fine_problem p -> regular (fmm_system p f sub np X) (run_rhs p sub np).
  Proof.
    intros F. destruct (u_regular p sub np W F) as [A1 A2 A3 A4]. constructor; [|exact A2|exact A3|exact A4].
    exact (f_rows (fp_separated p F)).
  Qed.
End One.

Section Two.
  Variables (p : problem) (f : fmm_part) (sub sub' : nat -> nat) (np np' : nat) (X X' : execution).
  Notation U := (numbers p sub np).
  Notation V := (numbers p sub' np').
  Notation n := (p_n p).
  Notation I := (fmm_mesh p f sub np).
  Notation I' := (fmm_mesh p f sub' np').
  Hypothesis W : well_numbered U.
  Hypothesis W' : well_numbered V.
  Hypothesis FM : fmm_problem p f.
  Hypothesis first : forall i, f_old f i = [].
  Let pi i := o2s U (s2o V i).
  Let rho i := o2s V (s2o U i).
  Lemma f_same_mesh : same_mesh pi rho I I'.
  Proof.
    assert (Bi := two_bij p sub sub' np np' W W'). fold pi rho in Bi.
    constructor; try reflexivity.
    - exact Bi.
    - intros i Hi. cbn [fmm_mesh o_pos]. f_equal. symmetry. exact (two_old p sub sub' np np' W W' i Hi).
    - intros i Hi. cbn [fmm_mesh o_dbl o_nd] in *. destruct (Bi i Hi) as (Pi & _ & Ri & _). apply NoDup_Permutation.
      + apply ProofsWorkload.map_NoDup; [apply NoDup_filter, seq_NoDup|].
        intros a b Ha Hb E. apply (u_doubles p sub' np' i a Hi) in Ha. apply (u_doubles p sub' np' i b Hi) in Hb.
        rewrite <- (proj1 (proj2 (proj2 (Bi a (proj1 Ha))))), <- (proj1 (proj2 (proj2 (Bi b (proj1 Hb))))), E. reflexivity.
      + apply NoDup_filter, seq_NoDup.
      + intros k. rewrite in_map_iff. split.
        * intros (a & <- & Ha). assert (La : a < n) by (apply (u_doubles p sub' np' i a Hi) in Ha; tauto). apply (two_dbl p sub sub' np np' W W' i a Hi La); auto.
        * intros Hk. assert (Lk : k < n) by (apply (u_doubles p sub np (pi i) k Pi) in Hk; tauto). destruct (Bi k Lk) as (_ & A & _ & B). exists (rho k). split; auto.
          apply (two_dbl p sub sub' np np' W W' i (rho k) Hi A). change (In (pi (rho k)) (run_doubles p sub np (pi i))). rewrite B. exact Hk.
    - intros c Hc. cbn [fmm_mesh o_cdofs] in *. unfold dofs_now. rewrite map_map. apply map_ext_in. intros a Ha. unfold pi.
      destruct W' as (_ & _ & W2 & _). rewrite (proj2 (u_o2s p sub' np' W' a (W2 c a Hc Ha))). reflexivity.
    - intros i c Hi Hc. cbn [fmm_mesh o_old]. rewrite !first. tauto.
  Qed.
  Hypothesis GP : fmm_position p f sub np.
  Lemma f_position : fmm_position p f sub' np'.
  Proof. split; eapply (gp_same pi rho); try apply f_same_mesh; try apply (f_wf p f sub np W FM); apply GP. Qed.
  Hypothesis EX : fmm_executes p f sub np X.
  Hypothesis EX' : fmm_executes p f sub' np' X'.
  Lemma f_renumbered : fine_problem p -> renumbered pi rho (fmm_system p f sub np X) (fmm_system p f sub' np' X') (run_rhs p sub np) (run_rhs p sub' np').
  Proof.
    intros F. destruct (two_renumbered p sub sub' np np' W W' F) as [A1 A2 A3 A4 A5 A6 A7 A8 A9 A10 A11 A12].
    assert (Bi := two_bij p sub sub' np np' W W'). fold pi rho in Bi.
    assert (G : forall ly m x x' i s s' junk junk', general_position I ly -> good_sched I (octree I) s -> good_sched I' (octree I') s' -> i < n -> (forall k, k < n -> x' k = x (pi k)) ->
      fmm_product (code_eops I' (octree I') (f_order f) ly junk') I' (octree I') (code_kern I' ly (rp_shape (p_regular p)) (rp_jxw (p_regular p)) (singular_of I' (fmm_rule p sub' np' m))) x' (fmm_own p sub' np' i) s' i =
      fmm_product (code_eops I (octree I) (f_order f) ly junk) I (octree I) (code_kern I ly (rp_shape (p_regular p)) (rp_jxw (p_regular p)) (singular_of I (fmm_rule p sub np m))) x (fmm_own p sub np (pi i)) s (pi i)).
    { intros ly m x x' i s s' junk junk' GPl Gs Gs' Hi Hx.
      apply (C85_fast_product_does_not_depend_on_the_numbering pi rho I I' (f_order f) ly); auto; try apply FM.
      - exact f_same_mesh.
      - apply (f_wf p f sub np W FM).
      - apply (f_wf p f sub' np' W' FM).
      - apply (f_own p sub np W). apply Bi; auto.
      - apply (f_own p sub' np' W'); auto.
      - intros c j Hc. unfold singular_of.
        assert (Ei : singular_index I' i c = singular_index I (pi i) c).
        { unfold singular_index. rewrite <- (sm_cdofs _ _ _ _ f_same_mesh c Hc).
          assert (D : forall d, In d (o_cdofs I' c) -> d < n) by (intros d Hd; apply (u_low p sub' np' W' c d); auto).
          revert D. generalize (o_cdofs I' c) as l. generalize 0. intros k l. revert k. induction l as [|d l IH]; intros k D; [reflexivity|]. cbn [map ModelAssemble.first_in].
          assert (Em : ModelFmm.mem d (o_dbl I' i) = ModelFmm.mem (pi d) (o_dbl I (pi i))).
          { apply ProofsFmmCover.mem_eq. apply (two_dbl p sub sub' np np' W W' i d Hi). apply D; left; auto. }
          rewrite Em, IH by (intros; apply D; right; auto). reflexivity. }
        rewrite Ei. destruct (singular_index I (pi i) c); auto. unfold singular_row. apply PropCoincide.fold_ext. intros b q _.
        cbn [fmm_rule rule_at sr_kernel sr_shape sr_jxw]. rewrite (two_node p sub sub' np np' W W' i Hi). reflexivity. }
    constructor; auto.
    - intros x x' i Hi Hx. exact (G (Double (fmm_normal p)) neumann_matrix x x' i _ _ _ _ (proj2 GP) (proj1 (EX x (pi i))) (proj1 (EX' x' i)) Hi Hx).
    - intros x x' i Hi Hx. exact (G Single dirichlet_matrix x x' i _ _ _ _ (proj1 GP) (proj2 (EX x (pi i))) (proj2 (EX' x' i)) Hi Hx).
  Qed.
End Two.

Theorem C85_number_of_processes : forall p f sub np sub' np' X X' sol sol',
  well_numbered (numbers p sub np) -> well_numbered (numbers p sub' np') -> fine_problem p -> closing p sub np -> closing p sub' np' ->
  fmm_problem p f -> (forall i, f_old f i = []) -> fmm_position p f sub np -> fmm_executes p f sub np X -> fmm_executes p f sub' np' X' ->
  (forall j, j < p_n p -> sol' (o2s (numbers p sub' np') j) = sol (o2s (numbers p sub np) j)) ->
  (fmm_solves p f sub np X sol <-> fmm_solves p f sub' np' X' sol') /\
  (forall j, j < p_n p -> fmm_phi p f sub' np' X' sol' (o2s (numbers p sub' np') j) = fmm_phi p f sub np X sol (o2s (numbers p sub np) j) /\
                          fmm_dphi p f sub' np' X' sol' (o2s (numbers p sub' np') j) = fmm_dphi p f sub np X sol (o2s (numbers p sub np) j)).
Proof.
  intros p f sub np sub' np' X X' sol sol' W W' F Cl Cl' FM First GP EX EX' Es.
  split.
  - assert (RN := f_renumbered p f sub sub' np np' X X' W W' FM First GP EX EX' F). assert (GP' := f_position p f sub sub' np np' W W' FM First GP).
    apply (C82_numbering_and_distribution_do_not_matter _ _ _ _ _ _ _ _ _ _ RN).
    + apply (f_regular p f sub np X W FM GP EX F).
    + exact (u_have p sub np W (fp_some p F)).
    + apply (f_linear p f sub np X W FM GP EX).
    + apply (f_linear p f sub np X W FM GP EX).
    + apply (f_linear p f sub' np' X' W' FM GP' EX').
    + apply (f_linear p f sub' np' X' W' FM GP' EX').
    + exact (u_coincidence p sub np W (fp_separated p F)).
    + exact (u_coincidence p sub' np' W' (fp_separated p F)).
    + exact (u_partition p sub np W).
    + exact (u_partition p sub' np' W').
    + intros i l e Hi Hl He. change (run_hanging p sub np i = Some l) in Hl. unfold run_hanging in Hl. destruct (p_hanging p (s2o (numbers p sub np) i)) as [l0|] eqn:El; [|discriminate].
      inversion Hl; subst l. cbn [l_entries] in He. apply in_map_iff in He as (e0 & <- & He). apply (u_o2s p sub np W). apply (proj2 (fp_hang p F _ l0 (proj1 (u_s2o p sub np W i Hi)) El)); auto.
    + exact Cl.
    + exact Cl'.
    + intros i Hi. destruct (u_s2o p sub' np' W' i Hi) as [A B]. rewrite <- (Es _ A), B. reflexivity.
  - exact (proj2 (C82_number_of_processes p sub np sub' np' sol sol' W W' F Cl Cl' Es)).
Qed.

(** If the system of one run has one solution, so has the system of every other run, and the runs hand back the same
    potentials and fluxes at every node. *)
Theorem C85_same_answer : forall p f sub np sub' np' X X' sol sol',
  well_numbered (numbers p sub np) -> well_numbered (numbers p sub' np') -> fine_problem p -> closing p sub np -> closing p sub' np' ->
  fmm_problem p f -> (forall i, f_old f i = []) -> fmm_position p f sub np -> fmm_executes p f sub np X -> fmm_executes p f sub' np' X' ->
  (forall s t, fmm_solves p f sub np X s -> fmm_solves p f sub np X t -> forall i, i < p_n p -> s i = t i) ->
  fmm_solves p f sub np X sol -> fmm_solves p f sub' np' X' sol' ->
  forall j, j < p_n p ->
    sol' (o2s (numbers p sub' np') j) = sol (o2s (numbers p sub np) j) /\
    fmm_phi p f sub' np' X' sol' (o2s (numbers p sub' np') j) = fmm_phi p f sub np X sol (o2s (numbers p sub np) j) /\
    fmm_dphi p f sub' np' X' sol' (o2s (numbers p sub' np') j) = fmm_dphi p f sub np X sol (o2s (numbers p sub np) j).
Proof.
  intros p f sub np sub' np' X X' sol sol' W W' F Cl Cl' FM First GP EX EX' Un Hs Hs'.
  set (t := fun i => sol' (o2s (numbers p sub' np') (s2o (numbers p sub np) i))).
  assert (Et : forall j, j < p_n p -> sol' (o2s (numbers p sub' np') j) = t (o2s (numbers p sub np) j)).
  { intros j Hj. unfold t. rewrite (proj2 (u_o2s p sub np W j Hj)). reflexivity. }
  assert (Ht : fmm_solves p f sub np X t) by (apply (C85_number_of_processes p f sub np sub' np' X X' t sol'); auto).
  assert (Es : forall j, j < p_n p -> sol' (o2s (numbers p sub' np') j) = sol (o2s (numbers p sub np) j)).
  { intros j Hj. rewrite (Et j Hj). apply Un; auto. apply (u_o2s p sub np W j Hj). }
  intros j Hj. split; [auto|]. apply (C85_number_of_processes p f sub np sub' np' X X' sol sol'); auto.
Qed.
Theorem C85_same_solvability : forall p f sub np sub' np' X X',
  well_numbered (numbers p sub np) -> well_numbered (numbers p sub' np') -> fine_problem p -> closing p sub np -> closing p sub' np' ->
  fmm_problem p f -> (forall i, f_old f i = []) -> fmm_position p f sub np -> fmm_executes p f sub np X -> fmm_executes p f sub' np' X' ->
  ((exists sol, fmm_solves p f sub np X sol) <-> (exists sol', fmm_solves p f sub' np' X' sol')).
Proof.
  assert (T : forall p f sub np sub' np' X X', well_numbered (numbers p sub np) -> well_numbered (numbers p sub' np') -> fine_problem p -> closing p sub np -> closing p sub' np' ->
    fmm_problem p f -> (forall i, f_old f i = []) -> fmm_position p f sub np -> fmm_executes p f sub np X -> fmm_executes p f sub' np' X' ->
    (forall sol, fmm_solves p f sub np X sol -> fmm_solves p f sub' np' X' (fun i => sol (o2s (numbers p sub np) (s2o (numbers p sub' np') i))))).
  { intros p f sub np sub' np' X X' W W' F Cl Cl' FM First GP EX EX' sol Hs. apply (C85_number_of_processes p f sub np sub' np' X X' sol); auto.
    intros j Hj. rewrite (proj2 (u_o2s p sub' np' W' j Hj)). reflexivity. }
  intros p f sub np sub' np' X X' W W' F Cl Cl' FM First GP EX EX'.
  assert (GP' := f_position p f sub sub' np np' W W' FM First GP). split; intros (s & Hs).
  - eexists. exact (T p f sub np sub' np' X X' W W' F Cl Cl' FM First GP EX EX' s Hs).
  - eexists. exact (T p f sub' np' sub np X' X W' W F Cl' Cl FM First GP' EX' EX s Hs).
Qed.

(** ** The two methods, on whole runs *)
(** the matrices of the Direct run are those the fast products approximate *)
Lemma kern_same p f sub np m ly i : p_dim p = 3 -> (forall j, j < p_n p -> p_node p j = coords (f_pos f j)) -> (forall q, rp_at (p_regular p) q = coords (f_qpos f q)) ->
  well_numbered (numbers p sub np) -> (match m with neumann_matrix => ly = Double (fmm_normal p) | dirichlet_matrix => ly = Single end) ->
  i < p_n p -> forall q, code_kernel (fmm_mesh p f sub np) ly i q = point_kernel (p_dim p) m (rp_at (p_regular p) q) (rp_normal (p_regular p) q) (run_node p sub np i).
Proof.
  intros E3 En Eq W Em Hi q. rewrite E3. rewrite Eq. unfold run_node. rewrite (En _ (proj1 (u_s2o p sub np W i Hi))).
  destruct m; subst ly; cbn [code_kernel point_kernel].
  - unfold kernel_s. cbn [Nat.eqb]. reflexivity.
  - unfold dotn, kernel_D. cbn [seq fold_left Nat.eqb fmm_normal ModelExp.cx ModelExp.cy ModelExp.cz]. rewrite Rplus_0_l. reflexivity.
Qed.
Lemma stored_same p f sub np m ly x i : p_dim p = 3 -> (forall j, j < p_n p -> p_node p j = coords (f_pos f j)) -> (forall q, rp_at (p_regular p) q = coords (f_qpos f q)) ->
  well_numbered (numbers p sub np) -> (match m with neumann_matrix => ly = Double (fmm_normal p) | dirichlet_matrix => ly = Single end) -> i < p_n p ->
  direct_layer (fmm_mesh p f sub np) ly (rp_shape (p_regular p)) (rp_jxw (p_regular p)) (fmm_rule p sub np m) (fmm_own p sub np) x i =
  stored_vmult (p_dim p) m (run_mesh p sub np) (run_node p sub np) (p_regular p) (p_singular p) (cpu_set (numbers p sub np) (owner_of p sub np i)) x i.
Proof.
  intros E3 En Eq W Em Hi. unfold direct_layer, stored_vmult, direct_vmult. apply PropCoincide.fold_ext. intros a d _. f_equal. f_equal.
  assert (Oi : cpu_set (numbers p sub np) (owner_of p sub np i) i = true) by (apply u_owns; auto).
  rewrite (ProofsRndDirect.entry_rows exact_arith (fmm_mesh p f sub np)) by auto. rewrite (ProofsRndDirect.entry_rows exact_arith (run_mesh p sub np)) by auto.
  change (o_nc (fmm_mesh p f sub np)) with (o_nc (run_mesh p sub np)). change (o_cdofs (fmm_mesh p f sub np)) with (o_cdofs (run_mesh p sub np)).
  apply PropCoincide.fold_ext. intros b c _. f_equal. apply map_ext. intros j. f_equal. unfold local_row.
  change (singular_index (fmm_mesh p f sub np) i c) with (singular_index (run_mesh p sub np) i c). destruct (singular_index (run_mesh p sub np) i c).
  - unfold fmm_rule. rewrite E3. reflexivity.
  - change (quads_of_cell (fmm_mesh p f sub np) c) with (quads_of_cell (run_mesh p sub np) c). apply PropCoincide.fold_ext. intros b0 q _. cbn [code_kern regular_kern kd shp jxw].
    rewrite (kern_same p f sub np m ly i E3 En Eq W Em Hi). reflexivity.
Qed.

(** What an FMM run computes satisfies the problem of the Direct run on the same processes; the integral equations up to the stated error. *)
Theorem C67_whole_runs : forall p f sub np X sol,
  well_numbered (numbers p sub np) -> fine_problem p -> closing p sub np -> fmm_problem p f -> (forall q, rp_at (p_regular p) q = coords (f_qpos f q)) ->
  fmm_position p f sub np -> fmm_executes p f sub np X -> fmm_solves p f sub np X sol ->
  let S := run_system p sub np in let phi := fmm_phi p f sub np X sol in let dphi := fmm_dphi p f sub np X sol in
  let I := fmm_mesh p f sub np in let d := smallest_side I in
  let cN := charge I (Double (fmm_normal p)) (rp_shape (p_regular p)) (rp_jxw (p_regular p)) (fmm_rule p sub np neumann_matrix) in
  let cD := charge I Single (rp_shape (p_regular p)) (rp_jxw (p_regular p)) (fmm_rule p sub np dirichlet_matrix) in
  discrete_problem_with (fun i => (Rabs (s_N S phi i - phi i * s_N S (fun _ => 1) i - s_D S dphi i) <=
      far_error (Double (fmm_normal p)) (f_order f) d * (cN phi + Rabs (phi i) * cN (fun _ => 1)) + far_error Single (f_order f) d * cD dphi)%R) S (run_rhs p sub np) phi dphi.
Proof.
  intros p f sub np X sol W F Cl FM Eq GP EX Hs S phi dphi I d cN cD.
  destruct (C67_fmm_solution_in_the_direct_equation I (f_order f) (fmm_normal p) (rp_shape (p_regular p)) (rp_jxw (p_regular p))
    (fmm_rule p sub np neumann_matrix) (fmm_rule p sub np dirichlet_matrix) (fmm_own p sub np) (e_schN X) (e_schD X) (e_junkN X) (e_junkD X)
    (fmm_system p f sub np X) (owned_sets p sub np) (run_rhs p sub np) (run_phi0 p sub np) (run_dphi0 p sub np) sol) as (A & B).
  - exact (f_wf p f sub np W FM).
  - apply FM.
  - apply FM.
  - apply GP.
  - apply GP.
  - exact (f_own p sub np W).
  - apply EX.
  - apply EX.
  - reflexivity.
  - reflexivity.
  - reflexivity.
  - exact (u_have p sub np W (fp_some p F)).
  - exact (u_coincidence p sub np W (fp_separated p F)).
  - exact (u_partition p sub np W).
  - exact (u_imposed p sub np W (fp_kind p F)).
  - exact Cl.
  - exact Hs.
  - destruct B as (_ & B). split; [|exact B]. intros i Hi Ei. specialize (A i Hi Ei).
    assert (EN : forall x, s_N S x i = direct_layer I (Double (fmm_normal p)) (rp_shape (p_regular p)) (rp_jxw (p_regular p)) (fmm_rule p sub np neumann_matrix) (fmm_own p sub np) x i)
      by (intros x; symmetry; exact (stored_same p f sub np neumann_matrix _ x i (fm_dim p f FM) (fm_pos p f FM) Eq W eq_refl Hi)).
    assert (ED : forall x, s_D S x i = direct_layer I Single (rp_shape (p_regular p)) (rp_jxw (p_regular p)) (fmm_rule p sub np dirichlet_matrix) (fmm_own p sub np) x i)
      by (intros x; symmetry; exact (stored_same p f sub np dirichlet_matrix _ x i (fm_dim p f FM) (fm_pos p f FM) Eq W eq_refl Hi)).
    rewrite !EN, ED. exact A.
Qed.
