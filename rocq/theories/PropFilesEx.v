(** C84, end: a run in the plane, and what its files say. *)
From Coq Require Import QArith Reals List Bool Arith Lia Lra FunctionalExtensionality.
From Verif Require Import LibSum ModelOctree ModelFmm ModelAssemble ModelRules.
From Verif Require ModelKernel ModelProj SpecProj ProofsProj PropProj.
From Verif Require Import ModelBem ProofsBem ModelBc PropBem PropBc ModelOwn SpecOwn ProofsOwn PropOwn ModelSolve SpecSolve ProofsSolve PropSolve SpecRenumber PropRenumber PropRenumMesh ModelRun PropRun ModelFiles PropFiles.
Import ListNotations.
Local Open Scope nat_scope.

(** no coincident nodes, no hanging nodes: the system is the boundary integral equation at every node *)
Lemma plain_solves S owns rhs phi0 dphi0 sol : s_have_dirichlet S = true -> linear_op (s_n S) (s_N S) -> linear_op (s_n S) (s_D S) ->
  (forall i, (i < s_n S)%nat -> s_doubles S i = [i]) -> (forall i, s_hanging S i = None) -> partition (s_n S) owns -> imposed S rhs phi0 dphi0 ->
  (forall c, merge (s_n S) (node_constraints S rhs) (s_hanging S) = Some c -> closes (s_n S) c (s_close S c)) ->
  (solves S owns rhs sol <-> forall i, (i < s_n S)%nat -> bie_row S (solved_phi S phi0 sol) (solved_dphi S dphi0 sol) i).
Proof.
  intros Hh LN LD Dbl Hang P Im Cl.
  assert (C : coincidence (s_n S) (s_doubles S)).
  { split; [|split].
    - intros i Hi. rewrite Dbl by auto. left. reflexivity.
    - intros i j Hi Hj. rewrite Dbl in Hj by auto. destruct Hj as [<-|[]]. auto.
    - intros i Hi. rewrite Dbl by auto. constructor; [intros []|constructor]. }
  rewrite (C65_solve_system S owns rhs phi0 dphi0 sol Hh LN LD C P Im Cl).
  assert (Fst : forall i f, (i < s_n S)%nat -> first_dirichlet S i f -> f = i).
  { intros i f Hi (pre & post & E & _). rewrite Dbl in E by auto. destruct pre as [|a pre]; [injection E as <- _; auto|]. destruct pre; discriminate. }
  assert (Eq : forall i, (i < s_n S)%nat -> equation_node S i).
  { intros i Hi. split; [unfold constrained; rewrite Hang; reflexivity|]. unfold free_of_doubles. destruct (s_dir S i) eqn:D.
    - right. intros (j & Hj & Nj & _). rewrite Dbl in Hj by auto. destruct Hj as [<-|[]]. contradiction.
    - split; [|exists []; apply Dbl; auto]. intros j Hj. rewrite Dbl in Hj by auto. destruct Hj as [<-|[]]. exact D. }
  unfold discrete_problem, discrete_problem_with. split.
  - intros (_ & E1 & _) i Hi. apply E1; auto.
  - intros B. split; [intros i Hi X; unfold constrained in X; rewrite Hang in X; discriminate|]. split; [auto|]. split; [|split; [|split; [|split]]].
    + intros i f Hi D Hf. assert (f = i) by (apply Fst; auto). subst f. destruct Hf as (pre & post & _ & D' & _). congruence.
    + intros i f post Hi _ E. rewrite Dbl in E by auto. injection E as <- _. reflexivity.
    + intros _ i f Hi _ Hf Ne. exfalso. apply Ne. symmetry. apply Fst; auto.
    + intros _ i j pre post Hi _ E _ Nj _. exfalso. apply Nj. rewrite Dbl in E by auto. destruct pre as [|a pre]; [injection E as <- _; auto|]. destruct pre; discriminate.
    + intros h l _ E. rewrite Hang in E. discriminate.
Qed.

(** Two segments of the x axis, [0,1] with potential x, [5,6] with flux x - 5; linear elements, nodes 0 1 and 2 3. *)
Definition axis_point (x : nat) : ModelKernel.vec := fun d => match d with 0 => INR x | _ => 0%R end.
Definition plate_x (j : nat) : nat := nth j [0;1;5;6] 0.
Definition plate : problem := {|
  p_dim := 2; p_n := 4; p_cells := 2; p_dofs := fun c => nth c [[0;1];[2;3]] []; p_vdofs := fun c => nth c [[0;4;1;5];[2;6;3;7]] [];
  p_mat := fun c => S c; p_dirichlet := [1]; p_neumann := [2]; p_node := fun j => axis_point (plate_x j); p_edge := fun _ => false;
  p_pot := fun v => v 0; p_wind := fun v d => match d with 1 => (v 0%nat - 5)%R | _ => 0%R end; p_normal := fun _ _ => 0%R; p_sgrad := fun _ _ _ => 0%R; p_cont := true;
  p_hanging := fun _ => None; p_close := fun c => c; p_nq := 1;
  p_regular := {| rp_at := fun q d => match q, d with 0, _ => 0%R | _, 0 => 7%R | _, _ => 0%R end; rp_normal := fun _ d => match d with 0 => 1%R | _ => 0%R end; rp_shape := fun _ j => match j with 0 => 1%R | _ => 0%R end; rp_jxw := fun q => match q with 0 => 1%R | _ => 0%R end |};
  p_singular := {| sp_n := fun _ => 1; sp_at := fun c idx _ d => match d with 0 => INR (plate_x (2 * c + idx)) | _ => 2%R end; sp_normal := fun _ _ _ _ => 0%R;
    sp_shape := fun idx _ j => if Nat.eqb idx j then 1%R else 0%R; sp_jxw := fun _ _ _ => 1%R |} |}.
Definition one (_ : nat) : nat := 0.
Definition swap (c : nat) : nat := 1 - c.


Definition pieces : surface := {|
  f_points := 2; f_comp := fun i => i mod 2; f_vshape := fun _ i q => if Nat.eqb (i / 2) q then 1%R else 0%R; f_jxw := fun _ _ => (1 / 2)%R; f_con := fun d => [(d, 1%R)];
  f_normal := fun _ _ k => match k with 1 => 1%R | _ => 0%R end; f_shape := fun _ i q => if Nat.eqb i q then 1%R else 0%R;
  f_grad := fun _ i _ k => match k, i with 0, 0 => (-1)%R | 0, _ => 1%R | _, _ => 0%R end |}.
Definition table (l : list R) : vec := fun i => nth i l 0%R.
Definition plate_run : outcome := {|
  r_normals := table [0;0;0;0;1;1;1;1]%R; r_surf := table [1;1;1;1;0;0;0;0]%R; r_sol := table [0;0;0;6 * ln 2]%R; r_grad := table [1;1;6 * ln 2;6 * ln 2;0;0;0;1]%R |}.

Lemma plate_numbered sub np : (forall c, c < 2 -> sub c < np) -> well_numbered (numbers plate sub np).
Proof.
  intros A. split; [cbn; lia|]. split; [exact A|]. split; [|split].
  - intros c i Hc Hi. cbn in Hc. destruct c as [|[|]]; [| |lia]; cbn in Hi |- *; lia.
  - intros i Hi. cbn in Hi. assert (Q : i < 2 \/ 2 <= i) by lia. destruct Q; [exists 0|exists 1]; cbn; lia.
  - intros c j Hc. cbn in Hc. destruct c as [|[|]]; [| |lia]; cbn; split.
    + intros Q. exists (j / 4), (j mod 4). destruct Q as [<-|[<-|[<-|[<-|[]]]]]; cbn; lia.
    + intros (d & i & Hd & Hi & ->). destruct d as [|[|]]; [| |lia]; lia.
    + intros Q. exists (j / 4), (j mod 4). destruct Q as [<-|[<-|[<-|[<-|[]]]]]; cbn; lia.
    + intros (d & i & Hd & Hi & ->). destruct d as [|[|]]; [| |lia]; lia.
Qed.
Lemma plate_one : well_numbered (numbers plate one 1).
Proof. apply plate_numbered. intros. unfold one. lia. Qed.
Lemma plate_swap : well_numbered (numbers plate swap 2).
Proof. apply plate_numbered. intros. unfold swap. lia. Qed.
Lemma pieces_fine : fine_surface plate pieces.
Proof.
  constructor.
  - constructor.
    + intros i. apply (Nat.mod_upper_bound i 2). lia.
    + intros e x He [<-|[]]. exact He.
  - intros. cbn. lra.
  - intros X E c e Hc He. cbn in Hc.
    destruct c as [|[|]]; [| |lia]; cbn in He; destruct He as [<-|[<-|[<-|[<-|[]]]]].
    + specialize (E 0 0 0 ltac:(cbn; lia) ltac:(cbn; lia) ltac:(cbn; lia)). unfold suml in E. cbn in E. lra.
    + specialize (E 0 0 1 ltac:(cbn; lia) ltac:(cbn; lia) ltac:(cbn; lia)). unfold suml in E. cbn in E. lra.
    + specialize (E 0 1 0 ltac:(cbn; lia) ltac:(cbn; lia) ltac:(cbn; lia)). unfold suml in E. cbn in E. lra.
    + specialize (E 0 1 1 ltac:(cbn; lia) ltac:(cbn; lia) ltac:(cbn; lia)). unfold suml in E. cbn in E. lra.
    + specialize (E 1 0 0 ltac:(cbn; lia) ltac:(cbn; lia) ltac:(cbn; lia)). unfold suml in E. cbn in E. lra.
    + specialize (E 1 0 1 ltac:(cbn; lia) ltac:(cbn; lia) ltac:(cbn; lia)). unfold suml in E. cbn in E. lra.
    + specialize (E 1 1 0 ltac:(cbn; lia) ltac:(cbn; lia) ltac:(cbn; lia)). unfold suml in E. cbn in E. lra.
    + specialize (E 1 1 1 ltac:(cbn; lia) ltac:(cbn; lia) ltac:(cbn; lia)). unfold suml in E. cbn in E. lra.
Qed.
Notation pf := (fields plate pieces one 1 plate_run).

(** the rows of the two matrices *)
Definition own_kernel (m : matrix) (i : nat) : R := point_kernel 2 m (fun d => match d with 0 => INR (plate_x i) | _ => 2%R end) (fun _ => 0%R) (axis_point (plate_x i)).
Definition far_kernel (m : matrix) (i : nat) : R := point_kernel 2 m (fun _ => 0%R) (fun d => match d with 0 => 1%R | _ => 0%R end) (axis_point (plate_x i)).
Lemma plate_row m x i : i < 4 -> stored_vmult 2 m (run_mesh plate one 1) (run_node plate one 1) (p_regular plate) (p_singular plate) (cpu_set (numbers plate one 1) (owner_of plate one 1 i)) x i =
  (own_kernel m i * x i + if i <? 2 then 0 else far_kernel m i * x 0%nat)%R.
Proof.
  intros Hi. destruct i as [|[|[|[|i]]]]; [| | | |lia]; cbv -[point_kernel Rplus Rmult IZR Rlt_dec INR plate_x Rminus]; ring.
Qed.
Lemma own_neumann i : own_kernel neumann_matrix i = 0%R.
Proof. unfold own_kernel, point_kernel, dotn. cbn. ring. Qed.
Lemma own_dirichlet i : own_kernel dirichlet_matrix i = (- ln 2 / (2 * PI))%R.
Proof.
  unfold own_kernel, point_kernel, kernel_s. cbn [Nat.eqb]. unfold ModelKernel.kernels2_d, ModelKernel.norm, ModelKernel.square. cbn [seq fold_left]. unfold difference, axis_point.
  match goal with |- context [sqrt ?s] => replace s with (2 * 2)%R by ring end. rewrite sqrt_square by lra. reflexivity.
Qed.
Lemma far_neumann i : plate_x i <> 0 -> far_kernel neumann_matrix i = (1 / (2 * PI * INR (plate_x i)))%R.
Proof.
  intros N. assert (X : INR (plate_x i) <> 0%R) by (apply not_0_INR; auto). assert (Pp := PI_RGT_0).
  unfold far_kernel, point_kernel, kernel_D, dotn. cbn [Nat.eqb seq fold_left]. unfold ModelKernel.kernels2_D, ModelKernel.norm, ModelKernel.square. cbn [seq fold_left]. unfold difference, axis_point.
  set (a := INR (plate_x i)) in *.
  match goal with |- context [sqrt ?s] => set (z := s) end. assert (Ez : z = (a * a)%R) by (unfold z; ring).
  assert (Z0 : (0 <= z)%R) by (rewrite Ez; apply Rle_0_sqr). rewrite sqrt_sqrt by exact Z0. rewrite Ez. field. split; lra.
Qed.
Lemma plate_N x i : i < 4 -> s_N (run_system pf one 1) x i = (if i <? 2 then 0 else far_kernel neumann_matrix i * x 0%nat)%R.
Proof.
  intros Hi. transitivity (own_kernel neumann_matrix i * x i + if i <? 2 then 0 else far_kernel neumann_matrix i * x 0%nat)%R; [exact (plate_row neumann_matrix x i Hi)|].
  rewrite own_neumann. ring.
Qed.
Lemma plate_D x i : i < 4 -> s_D (run_system pf one 1) x i = (- ln 2 / (2 * PI) * x i + if i <? 2 then 0 else far_kernel dirichlet_matrix i * x 0%nat)%R.
Proof.
  intros Hi. transitivity (own_kernel dirichlet_matrix i * x i + if i <? 2 then 0 else far_kernel dirichlet_matrix i * x 0%nat)%R; [exact (plate_row dirichlet_matrix x i Hi)|].
  rewrite own_dirichlet. reflexivity.
Qed.

(** the problem *)
Lemma plate_dir j : on_dirichlet plate j <-> j < 2.
Proof.
  split.
  - intros (c & Hc & Hj & Hm). cbn in Hm. destruct Hm as [Hm|[]]. destruct c; [|lia]. cbn in Hj. lia.
  - intros Hj. exists 0. split; [cbn; lia|]. split; [cbn; lia|left; reflexivity].
Qed.
Lemma plate_apart i j : i < 4 -> j < 4 -> (Rabs (INR (plate_x i) - INR (plate_x j)) < 1)%R -> i = j.
Proof.
  intros Hi Hj L. assert (E : plate_x i = plate_x j).
  { destruct (Nat.lt_trichotomy (plate_x i) (plate_x j)) as [X|[X|X]]; auto; exfalso; apply le_INR in X; rewrite S_INR in X; unfold Rabs in L; destruct (Rcase_abs _) in L; lra. }
  destruct i as [|[|[|[|i]]]]; [| | | |lia]; (destruct j as [|[|[|[|j]]]]; [| | | |lia]); cbn in E; congruence.
Qed.
Lemma plate_separated : separated plate.
Proof.
  intros i j Hi Hj. cbn [p_dim p_node plate]. unfold ModelKernel.norm, ModelKernel.square. cbn [seq fold_left]. unfold difference, axis_point. intros L.
  assert (Ten : (1 / 10 ^ 10 < 1)%R) by (apply Rmult_lt_reg_r with (10 ^ 10)%R; [apply pow_lt; lra|]; unfold Rdiv; rewrite Rmult_assoc, Rinv_l by (apply pow_nonzero; lra); assert (1 < 10 ^ 10)%R by (apply Rlt_pow_R1; [lra|lia]); lra).
  set (u := (INR (plate_x i) - INR (plate_x j))%R) in *. match type of L with (sqrt ?s < _)%R => assert (Es : s = (Rsqr u)) by (unfold Rsqr; ring); rewrite Es in L end.
  rewrite sqrt_Rsqr_abs in L. rewrite (plate_apart i j); auto. fold u. lra.
Qed.
Lemma plate_fine : fine_problem pf.
Proof.
  constructor.
  - exists 0. apply plate_dir. lia.
  - exact plate_separated.
  - intros j c1 c2 H1 H2 I1 I2 M1. cbn in H1, H2, M1. destruct M1 as [M1|[]]. destruct c1; [|lia]. destruct c2 as [|[|]]; [left; reflexivity| |lia]. cbn in I1, I2. lia.
  - intros _. apply C82_at_most_two_dirichlet_nodes. intros i j k Hi Hj _ _ _ _ E _. left. apply plate_apart; auto.
    assert (X := f_equal (fun v => v 0) E). cbn [p_node fields with_fields plate axis_point] in X. rewrite X, Rminus_diag_eq by reflexivity. rewrite Rabs_R0. lra.
  - intros h l _ X. discriminate X.
  - reflexivity.
Qed.
Lemma plate_closing sub np : closing pf sub np.
Proof. intros c _. split; tauto. Qed.
Definition flux (j : nat) : R := (INR (plate_x j) - 5)%R.
Lemma plate_data j : j < 4 -> node_data pf j = if j <? 2 then (INR (plate_x j), 0, INR (plate_x j))%R else (0, flux j, flux j)%R.
Proof.
  intros Hj. unfold flux. destruct j as [|[|[|[|j]]]]; [| | | |lia]; cbv -[Rplus Rmult IZR INR plate_x Rminus];
    match goal with |- (?a, ?b, ?c) = (?a', ?b', ?c') => replace a with a' by ring; replace b with b' by ring; replace c with c' by ring end; reflexivity.
Qed.
Lemma plate_s2o i : i < 4 -> s2o (numbers plate one 1) i = i /\ o2s (numbers plate one 1) i = i.
Proof. intros Hi. destruct i as [|[|[|[|i]]]]; [| | | |lia]; split; reflexivity. Qed.
Lemma plate_vo2s e : e < 8 -> vo2s (numbers plate one 1) e = e.
Proof. intros He. do 8 (destruct e as [|e]; [reflexivity|]). lia. Qed.
Lemma plate_vectors i : i < 4 -> (run_phi0 pf one 1 i, run_dphi0 pf one 1 i, run_rhs pf one 1 i) = if i <? 2 then (INR (plate_x i), 0, INR (plate_x i))%R else (0, flux i, flux i)%R.
Proof.
  intros Hi. rewrite (u_vectors pf one 1 plate_one i Hi). change (s2o (numbers pf one 1) i) with (s2o (numbers plate one 1) i). rewrite (proj1 (plate_s2o i Hi)). apply plate_data; auto.
Qed.
Lemma plate_sdir i : i < 4 -> s_dir (run_system pf one 1) i = (i <? 2).
Proof.
  intros Hi. apply eq_true_iff_eq. rewrite (u_dir pf one 1 plate_one (fp_kind pf plate_fine) i Hi). rewrite Nat.ltb_lt.
  change (s2o (numbers pf one 1) i) with (s2o (numbers plate one 1) i). rewrite (proj1 (plate_s2o i Hi)). apply plate_dir.
Qed.
(** the unknowns are the fluxes at 0 and 1, which vanish, and the potentials at 2 and 3 *)
Lemma plate_solves sol : run_solves pf one 1 sol <-> (sol 0%nat = 0 /\ sol 1%nat = 0 /\ sol 2%nat = 0 /\ sol 3%nat = 6 * ln 2)%R.
Proof.
  unfold run_solves.
  rewrite (plain_solves (run_system pf one 1) (owned_sets pf one 1) (run_rhs pf one 1) (run_phi0 pf one 1) (run_dphi0 pf one 1) sol).
  2:{ apply (u_have pf one 1 plate_one). exists 0. apply plate_dir. lia. }
  2:{ exact (u_linear pf one 1 neumann_matrix). }
  2:{ exact (u_linear pf one 1 dirichlet_matrix). }
  2:{ intros i Hi. cbn in Hi. destruct i as [|[|[|[|i]]]]; [| | | |lia]; reflexivity. }
  2:{ reflexivity. }
  2:{ exact (u_partition pf one 1 plate_one). }
  2:{ exact (u_imposed pf one 1 plate_one (fp_kind pf plate_fine)). }
  2:{ exact (plate_closing one 1). }
  set (phi := solved_phi (run_system pf one 1) (run_phi0 pf one 1) sol). set (dphi := solved_dphi (run_system pf one 1) (run_dphi0 pf one 1) sol).
  assert (A : forall i, i < 4 -> phi i = if i <? 2 then INR (plate_x i) else sol i).
  { intros i Hi. unfold phi. rewrite (proj1 (solved_at (run_system pf one 1) (run_phi0 pf one 1) (fun _ => 0%R) sol i)), plate_sdir by auto.
    assert (E := plate_vectors i Hi). destruct (i <? 2); [|reflexivity]. congruence. }
  assert (B : forall i, i < 4 -> dphi i = if i <? 2 then sol i else flux i).
  { intros i Hi. unfold dphi. rewrite (proj2 (solved_at (run_system pf one 1) (fun _ => 0%R) (run_dphi0 pf one 1) sol i)), plate_sdir by auto.
    assert (E := plate_vectors i Hi). destruct (i <? 2); [reflexivity|]. congruence. }
  assert (Row : forall i, i < 4 -> (bie_row (run_system pf one 1) phi dphi i <->
    ((if i <? 2 then 0 else far_kernel neumann_matrix i * phi 0%nat) - phi i * (if i <? 2 then 0 else far_kernel neumann_matrix i * 1) = - ln 2 / (2 * PI) * dphi i + (if i <? 2 then 0 else far_kernel dirichlet_matrix i * dphi 0%nat))%R)).
  { intros i Hi. unfold bie_row. rewrite !plate_N, plate_D by auto. tauto. }
  assert (L2 : (0 < ln 2)%R) by (rewrite <- ln_1; apply ln_increasing; lra). assert (Pp := PI_RGT_0).
  assert (K : (ln 2 / (2 * PI) <> 0)%R) by (unfold Rdiv; apply Rgt_not_eq, Rmult_lt_0_compat; [lra|apply Rinv_0_lt_compat; lra]).
  assert (F2 : far_kernel neumann_matrix 2 = (1 / (10 * PI))%R) by (rewrite far_neumann by (cbn; lia); change (INR (plate_x 2)) with (INR 5); replace (INR 5) with 5%R by (cbn; lra); f_equal; ring).
  assert (F3 : far_kernel neumann_matrix 3 = (1 / (12 * PI))%R) by (rewrite far_neumann by (cbn; lia); change (INR (plate_x 3)) with (INR 6); replace (INR 6) with 6%R by (cbn; lra); f_equal; ring).
  assert (X2 : flux 2 = 0%R) by (unfold flux; cbn; lra). assert (X3 : flux 3 = 1%R) by (unfold flux; cbn; lra).
  assert (A0 := A 0 ltac:(lia)). assert (A1 := A 1 ltac:(lia)). assert (A2 := A 2 ltac:(lia)). assert (A3 := A 3 ltac:(lia)).
  assert (B0 := B 0 ltac:(lia)). assert (B1 := B 1 ltac:(lia)). assert (B2 := B 2 ltac:(lia)). assert (B3 := B 3 ltac:(lia)).
  assert (R0 := Row 0 ltac:(lia)). assert (R1 := Row 1 ltac:(lia)). assert (R2 := Row 2 ltac:(lia)). assert (R3 := Row 3 ltac:(lia)). clear Row A B.
  change (0 <? 2) with true in *. change (1 <? 2) with true in *. change (2 <? 2) with false in *. change (3 <? 2) with false in *. cbv iota in *.
  rewrite F2 in R2. rewrite F3 in R3. rewrite A0 in R2, R3. rewrite A0 in R0. rewrite A1 in R1. rewrite A2 in R2. rewrite A3 in R3. rewrite B0 in R0, R2, R3. rewrite B1 in R1. rewrite B2, X2 in R2. rewrite B3, X3 in R3.
  change (INR (plate_x 0)) with 0%R in *.
  split.
  - intros H0.
    assert (E0 := proj1 R0 (H0 0 ltac:(cbn; lia))). assert (E1 := proj1 R1 (H0 1 ltac:(cbn; lia))). assert (E2 := proj1 R2 (H0 2 ltac:(cbn; lia))). assert (E3 := proj1 R3 (H0 3 ltac:(cbn; lia))).
    assert (S0 : sol 0 = 0%R) by (apply Rmult_eq_reg_l with (ln 2 / (2 * PI))%R; [lra|exact K]).
    assert (S1 : sol 1 = 0%R) by (apply Rmult_eq_reg_l with (ln 2 / (2 * PI))%R; [lra|exact K]).
    rewrite S0 in E2, E3. split; [exact S0|]. split; [exact S1|]. split.
    + apply Rmult_eq_reg_r with (1 / (10 * PI))%R; [lra|]. unfold Rdiv. rewrite Rmult_1_l. apply Rinv_neq_0_compat. lra.
    + apply Rmult_eq_reg_r with (1 / (12 * PI))%R; [|unfold Rdiv; rewrite Rmult_1_l; apply Rinv_neq_0_compat; lra].
      transitivity (ln 2 / (2 * PI))%R; [lra|]. field. lra.
  - intros (S0 & S1 & S2 & S3) i Hi. cbn in Hi. rewrite S0 in R0, R2, R3. rewrite S1 in R1. rewrite S2 in R2. rewrite S3 in R3.
    destruct i as [|[|[|[|i]]]]; [apply R0|apply R1|apply R2|apply R3|lia]; field; lra.
Qed.
Lemma plate_phi j : j < 4 -> out_phi plate pieces one 1 plate_run j = table [0;1;0;6 * ln 2]%R j /\ out_dphi plate pieces one 1 plate_run j = table [0;0;0;1]%R j.
Proof.
  intros Hj. unfold out_phi, out_dphi, end_phi, end_dphi. rewrite (proj2 (plate_s2o j Hj)). unfold run_phi, run_dphi.
  rewrite (proj1 (solved_at (run_system pf one 1) (run_phi0 pf one 1) (fun _ => 0%R) (r_sol plate_run) j)).
  rewrite (proj2 (solved_at (run_system pf one 1) (fun _ => 0%R) (run_dphi0 pf one 1) (r_sol plate_run) j)). rewrite plate_sdir by auto.
  assert (E := plate_vectors j Hj). assert (E1 := f_equal (fun t => fst (fst t)) E). assert (E2 := f_equal (fun t => snd (fst t)) E). assert (E3 := f_equal snd E). cbv beta in E1, E2. cbn [fst snd] in E1, E2, E3. clear E. destruct j as [|[|[|[|j]]]]; [| | | |lia]; (split; [try rewrite E1|try rewrite E2]); unfold flux; cbn; lra.
Qed.
Lemma exact_projects G X : (forall c q k, c < 2 -> q < 2 -> k < 2 -> field plate pieces X c q k = G c q k) -> projects plate pieces G X.
Proof.
  intros E Y. unfold integral. apply suml_zero. intros c Hc. apply in_seq in Hc. apply suml_zero. intros q Hq. apply in_seq in Hq.
  rewrite (suml_zero (seq 0 (p_dim plate))); [ring|]. intros k Hk. apply in_seq in Hk. cbn in Hc, Hq, Hk. rewrite E by lia. ring.
Qed.
Lemma plate_project G x : (forall c q k, c < 2 -> q < 2 -> k < 2 -> field plate pieces x c q k = G c q k) -> ModelProj.solves (run_projection plate pieces one 1) G 1 x.
Proof.
  intros E. apply (f_projects plate pieces one 1 plate_one (fs_range _ _ pieces_fine)). apply exact_projects. intros c q k Hc Hq Hk. rewrite <- E by auto.
  apply (field_ext plate pieces one 1 plate_one (fs_range _ _ pieces_fine)); auto. intros e He. rewrite plate_vo2s by exact He. reflexivity.
Qed.
Ltac points c q k := intros c q k Hc Hq Hk; (destruct c as [|[|]]; [| |lia]); (destruct q as [|[|]]; [| |lia]); (destruct k as [|[|]]; [| |lia]).
Lemma plate_is_run : is_run plate pieces one 1 plate_run.
Proof.
  constructor.
  - apply plate_project. points c q k; unfold field, tied, suml, ModelProj.normals_field; cbn; lra.
  - apply plate_project. intros c q k Hc Hq Hk. unfold ModelProj.surface_gradient_field. rewrite f_sgradient by exact Hc.
    transitivity (sgradient plate pieces (table [0;1;0;1]%R) c q k).
    + revert c q k Hc Hq Hk. points c q k; unfold field, tied, sgradient, suml; cbn; lra.
    + apply (sgradient_ext plate pieces one 1 plate_one); auto. intros j Hj. cbn in Hj. rewrite (proj2 (plate_s2o j Hj)). assert (E := plate_vectors j Hj). assert (E1 := f_equal (fun t => fst (fst t)) E). assert (E2 := f_equal (fun t => snd (fst t)) E). assert (E3 := f_equal snd E). cbv beta in E1, E2. cbn [fst snd] in E1, E2, E3. clear E.
      destruct j as [|[|[|[|j]]]]; [| | | |lia]; rewrite E3; unfold flux; cbn; lra.
  - apply plate_solves. cbn. lra.
  - apply plate_project. intros c q k Hc Hq Hk. unfold ModelProj.gradient_field. rewrite f_scalar, f_sgradient by exact Hc.
    transitivity (f_normal pieces c q k * scalar plate pieces (table [0;0;0;1]%R) c q + sgradient plate pieces (table [0;1;0;6 * ln 2]%R) c q k)%R.
    + revert c q k Hc Hq Hk. points c q k; unfold field, tied, sgradient, scalar, suml; cbn; lra.
    + f_equal; [f_equal; apply (scalar_ext plate pieces one 1 plate_one); auto|apply (sgradient_ext plate pieces one 1 plate_one); auto]; intros j Hj; symmetry; apply (plate_phi j Hj).
Qed.

(** ** Theorems *)
(** the vector called phi_surf_gradient in the file is not the surface gradient of phi: here the potential at [5,6] rises by
    6 ln 2 and the flux by 1, and the file has 1 *)
Theorem C84_surface_gradient_of_phi_refuted : exists p f sub np r,
  well_numbered (numbers p sub np) /\ fine_surface p f /\ is_run p f sub np r /\ fine_problem (fields p f sub np r) /\ closing (fields p f sub np r) sub np /\
  ~ is_projection p f (sgradient p f (out_phi p f sub np r)) (out_surf_gradient p f sub np r).
Proof.
  exists plate, pieces, one, 1, plate_run. split; [exact plate_one|]. split; [exact pieces_fine|]. split; [exact plate_is_run|]. split; [exact plate_fine|]. split; [apply plate_closing|].
  intros Q. assert (Q' : is_projection plate pieces (sgradient plate pieces (out_phi plate pieces one 1 plate_run)) (fun j d => table [1;1;6 * ln 2;6 * ln 2;0;0;0;0]%R (d * 4 + j))).
  { exists (table [1;1;6 * ln 2;6 * ln 2;0;0;0;0]%R). split.
    - apply exact_projects. intros c q k Hc Hq Hk. transitivity (sgradient plate pieces (table [0;1;0;6 * ln 2]%R) c q k).
      + revert c q k Hc Hq Hk. points c q k; unfold field, tied, sgradient, suml; cbn; lra.
      + apply (sgradient_ext plate pieces one 1 plate_one); auto. intros j Hj. symmetry. apply (plate_phi j Hj).
    - intros j d Hj Hd. unfold tied, suml. cbn [f_con pieces fold_right fst snd]. change (p_n plate) with 4. lra. }
  assert (E := C84_projection_is_determined plate pieces one 1 _ _ _ plate_one pieces_fine Q Q' 2 0 ltac:(cbn; lia) ltac:(cbn; lia)).
  assert (F : out_surf_gradient plate pieces one 1 plate_run 2 0 = 1%R) by (cbv -[Rplus Rmult IZR ln]; ring). rewrite F in E. cbn in E. assert (X := ln_lt_2). lra.
Qed.
(** the conditions of C84_number_of_processes, C84_runs_carry_over and C82_same_answer hold for this problem, on one process and on two *)
Example C84_instance : well_numbered (numbers plate one 1) /\ well_numbered (numbers plate swap 2) /\ fine_surface plate pieces /\ is_run plate pieces one 1 plate_run /\
  fine_problem pf /\ closing pf one 1 /\ closing pf swap 2 /\
  (forall s t, run_solves pf one 1 s -> run_solves pf one 1 t -> forall i, i < p_n plate -> s i = t i) /\
  (exists r', is_run plate pieces swap 2 r' /\ closing (fields plate pieces swap 2 r') swap 2 /\ out_phi plate pieces swap 2 r' 3 = (6 * ln 2)%R) /\
  map (o2s (numbers plate swap 2)) (seq 0 4) = [2;3;0;1].
Proof.
  assert (Un : forall s t, run_solves pf one 1 s -> run_solves pf one 1 t -> forall i, i < p_n plate -> s i = t i).
  { intros s t Hs Ht i Hi. cbn in Hi. apply plate_solves in Hs as (S0 & S1 & S2 & S3). apply plate_solves in Ht as (T0 & T1 & T2 & T3). destruct i as [|[|[|[|i]]]]; [| | | |lia]; congruence. }
  split; [exact plate_one|]. split; [exact plate_swap|]. split; [exact pieces_fine|]. split; [exact plate_is_run|]. split; [exact plate_fine|]. split; [apply plate_closing|]. split; [apply plate_closing|].
  split; [exact Un|]. split; [|reflexivity].
  destruct (C84_runs_carry_over plate pieces one 1 swap 2 plate_run plate_one plate_swap (fs_range _ _ pieces_fine) plate_is_run plate_fine (plate_closing one 1) (plate_closing swap 2)) as (r' & A & B).
  assert (Cl : closing (fields plate pieces swap 2 r') swap 2) by (rewrite B; apply plate_closing).
  exists r'. split; [exact A|]. split; [exact Cl|].
  destruct (C84_number_of_processes plate pieces one 1 swap 2 plate_run r' plate_one plate_swap pieces_fine plate_is_run A plate_fine (plate_closing one 1) Cl Un 3 ltac:(cbn; lia)) as (E & _).
  rewrite E. apply (plate_phi 3). lia.
Qed.
