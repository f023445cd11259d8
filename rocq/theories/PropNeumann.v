(** Property theorems C66: solve_system when no boundary id is Dirichlet. *)
From Coq Require Import Reals List Bool Arith Lia Lra.
From Verif Require Import LibSum ModelBem ProofsBem ModelBc ProofsBc PropBem ModelSolve SpecSolve ProofsSolve PropSolve.
Import ListNotations.
Local Open Scope R_scope.

(** residual of the boundary operator: (N - diag(N 1)) phi *)
Definition double_layer (S : system) (phi : vec) : vec := fun i => s_N S phi i - phi i * s_N S (fun _ => 1) i.
Definition euclid (n : nat) (v : vec) : R := sqrt (sumn n (fun i => v i * v i)).

Lemma shift_free S s y i : linear_op (s_n S) (s_N S) -> (i < s_n S)%nat ->
  double_layer S (fun k => y k + s) i = double_layer S y i.
Proof.
  intros L Hi. unfold double_layer.
  rewrite (lin_comb (s_n S) (s_N S) y (fun _ => 1) (fun k => y k + s) 1 s i L Hi) by (intros; lra). lra.
Qed.
Lemma neumann_vmult S y i : s_have_dirichlet S = false -> linear_op (s_n S) (s_N S) -> linear_op (s_n S) (s_D S) ->
  (forall i, (i < s_n S)%nat -> s_dir S i = false) -> (i < s_n S)%nat ->
  vmult (operator S) y i = double_layer S y i - euclid (s_n S) (double_layer S y).
Proof.
  intros Hh HN HD Hdir Hi. unfold vmult. cbn [operator b_have_dirichlet b_n]. rewrite Hh. set (n := s_n S) in *.
  set (s := - l2_norm n y). set (b := operator S).
  assert (E : forall k, (k < n)%nat ->
      (if b_direct b
       then fun i => b_D b (scale y (b_dir b)) i * -1 + b_N b (scale (shift y s) (b_neu b)) i + scale (shift y s) (b_neu b) i * b_alpha b i
       else fun i => (0 + b_D b (scale y (b_dir b)) i) * -1 + b_N b (scale (shift y s) (b_neu b)) i + scale (shift y s) (b_neu b) i * b_alpha b i) k = double_layer S y k).
  { intros k Hk. pose proof HN as (N1 & N2 & N3). pose proof HD as (D1 & D2 & D3).
    assert (ED : b_D b (scale y (b_dir b)) k = 0).
    { cbn [b operator b_D b_dir]. rewrite (D3 _ (fun k => 0 * y k)) by (auto; intros j Hj; unfold scale; rewrite Hdir by auto; lra).
      rewrite D2 by auto. lra. }
    assert (EN : b_N b (scale (shift y s) (b_neu b)) k + scale (shift y s) (b_neu b) k * b_alpha b k = double_layer S y k).
    { rewrite <- (shift_free S s y k HN Hk). cbn [b operator b_N b_neu b_alpha]. unfold double_layer.
      rewrite (N3 _ (fun k => y k + s)) by (auto; intros j Hj; unfold scale, shift; rewrite Hdir by auto; lra).
      unfold scale, shift. rewrite Hdir by auto. unfold compute_alpha.
      rewrite (lin_comb n (s_N S) (fun _ => 1) (fun _ => 1) fresh_ones (-1) 0 k HN Hk) by (intros; unfold fresh_ones, shift; lra). lra. }
    destruct (b_direct b); rewrite ED; lra. }
  unfold shift at 1. rewrite E by auto. rewrite (l2_norm_ext n _ (double_layer S y)) by exact E. unfold euclid, l2_norm. lra.
Qed.
Lemma neumann_rhs S rhs i : linear_op (s_n S) (s_N S) -> linear_op (s_n S) (s_D S) ->
  (forall i, (i < s_n S)%nat -> s_dir S i = false) -> (i < s_n S)%nat -> compute_rhs (operator S) (fun _ => 0) rhs i = s_D S rhs i.
Proof.
  intros HN HD Hdir Hi. unfold compute_rhs. pose proof HN as (N1 & N2 & N3). pose proof HD as (D1 & D2 & D3). cbn [operator b_N b_D b_dir b_neu b_alpha b_direct].
  assert (E1 : s_N S (scale rhs (fun i => if s_dir S i then 1 else 0)) i = 0).
  { rewrite (N3 _ (fun k => 0 * rhs k)) by (auto; intros j Hj; unfold scale; rewrite Hdir by auto; lra). rewrite N2 by auto. lra. }
  assert (E2 : scale rhs (fun i => if s_dir S i then 1 else 0) i = 0) by (unfold scale; rewrite Hdir by auto; lra).
  assert (E3 : s_D S (scale rhs (fun i => if s_dir S i then 0 else 1)) i = s_D S rhs i).
  { apply D3; auto. intros j Hj; unfold scale; rewrite Hdir by auto; lra. }
  destruct (s_direct S); rewrite E1, E2, E3; lra.
Qed.

(** C66. Without Dirichlet boundary the returned potential solves, at every equation node, the integral
    equation with one and the same constant c >= 0 added to its right-hand side, where c is the Euclidean norm
    of (N - diag(N 1)) phi over all nodes; the coincident-node and hanging-node relations hold as in C65. *)
Theorem C66_pure_neumann : forall S owns rhs phi0 dphi0 sol,
  s_have_dirichlet S = false -> (forall i, (i < s_n S)%nat -> s_dir S i = false) ->
  linear_op (s_n S) (s_N S) -> linear_op (s_n S) (s_D S) ->
  coincidence (s_n S) (s_doubles S) -> partition (s_n S) owns -> imposed S rhs phi0 dphi0 ->
  (forall c, merge (s_n S) (node_constraints S rhs) (s_hanging S) = Some c -> closes (s_n S) c (s_close S c)) ->
  let phi := solved_phi S phi0 sol in let dphi := solved_dphi S dphi0 sol in
  (solves S owns rhs sol <->
   (forall i, (i < s_n S)%nat -> constrained (s_hanging S) i = true -> free_of_doubles S i) /\
   (forall i, (i < s_n S)%nat -> equation_node S i ->
      double_layer S phi i = s_D S dphi i + euclid (s_n S) (double_layer S phi)) /\
   (forall i f post, (i < s_n S)%nat -> s_doubles S i = f :: post -> phi i = phi f) /\
   (forall h l, (h < s_n S)%nat -> s_hanging S h = Some l -> exists v, l_inhom l = Some v /\
      unknown S phi dphi h = suml (l_entries l) (fun e => snd e * unknown S phi dphi (fst e)) + v)).
Proof.
  intros S owns rhs phi0 dphi0 sol Hh Hdir LN LD C HP Him Hcl phi dphi.
  assert (Ep : forall i, (i < s_n S)%nat -> phi i = sol i /\ dphi i = rhs i).
  { intros i Hi. unfold phi, dphi. destruct (solved_at S phi0 dphi0 sol i) as [-> ->]. rewrite (Hdir i Hi). split; auto. specialize (Him i Hi). rewrite (Hdir i Hi) in Him. exact Him. }
  assert (El : forall i, (i < s_n S)%nat -> double_layer S phi i = double_layer S sol i).
  { intros i Hi. unfold double_layer. rewrite (proj1 (Ep i Hi)). f_equal. apply LN; auto. intros; apply Ep; auto. }
  assert (En : euclid (s_n S) (double_layer S phi) = euclid (s_n S) (double_layer S sol)) by (apply (l2_norm_ext _ _ _ El)).
  rewrite (solves_with S owns rhs phi0 dphi0 sol (fun i => double_layer S phi i = s_D S dphi i + euclid (s_n S) (double_layer S phi)) C HP Hcl).
  2:{ intros i Hi. rewrite neumann_vmult, neumann_rhs by auto. rewrite El, En by auto.
      assert (X : s_D S dphi i = s_D S rhs i) by (apply LD; auto; intros; apply Ep; auto). rewrite X. split; intros; lra. }
  fold phi dphi. unfold discrete_problem_with.
  assert (G : forall i, (i < s_n S)%nat -> neumann_group S i). { intros i Hi j Hj. apply Hdir. apply C in Hj; tauto. }
  assert (F : forall i f, (i < s_n S)%nat -> ~ first_dirichlet S i f). { intros i f Hi Hf. destruct (first_D_facts S C i f Hi Hf) as (Df & _ & Lf & _). rewrite Hdir in Df; auto. discriminate. }
  split.
  - intros (A & B & _ & E & _ & _ & K). repeat split; auto. intros; eapply E; eauto.
  - intros (A & B & E & K). repeat split; auto.
    + intros i f Hi _ Hf. destruct (F i f Hi Hf).
    + intros; eapply E; eauto.
    + intros _ i f Hi D. rewrite Hdir in D by auto. discriminate.
    + intros _ i j pre post Hi Hf. destruct (F i i Hi Hf).
Qed.

Section Consequences.
  Variables (S : system) (owns : list (nat -> bool)) (rhs phi0 dphi0 sol : vec).
  Hypothesis Hh : s_have_dirichlet S = false.
  Hypothesis Hdir : forall i, (i < s_n S)%nat -> s_dir S i = false.
  Hypothesis LN : linear_op (s_n S) (s_N S).
  Hypothesis LD : linear_op (s_n S) (s_D S).
  Hypothesis C : coincidence (s_n S) (s_doubles S).
  Hypothesis HP : partition (s_n S) owns.
  Hypothesis Him : imposed S rhs phi0 dphi0.
  Hypothesis Hcl : forall c, merge (s_n S) (node_constraints S rhs) (s_hanging S) = Some c -> closes (s_n S) c (s_close S c).
  Hypothesis Hsol : solves S owns rhs sol.
  Let phi := solved_phi S phi0 sol.
  Let dphi := solved_dphi S dphi0 sol.

  (** The integral equation itself holds at an equation node only if (N - diag(N 1)) phi vanishes at EVERY node:
      then the single-layer product of the imposed flux vanishes at every equation node. *)
  Theorem C66_equation_only_for_trivial_flux : forall i, (i < s_n S)%nat -> equation_node S i -> bie_row S phi dphi i ->
    (forall j, (j < s_n S)%nat -> double_layer S phi j = 0) /\
    (forall j, (j < s_n S)%nat -> equation_node S j -> s_D S dphi j = 0).
  Proof.
    intros i Hi Ei Bi. destruct (proj1 (C66_pure_neumann S owns rhs phi0 dphi0 sol Hh Hdir LN LD C HP Him Hcl) Hsol) as (_ & E & _).
    fold phi dphi in E. assert (Z : euclid (s_n S) (double_layer S phi) = 0).
    { specialize (E i Hi Ei). unfold bie_row in Bi. unfold double_layer at 1 in E. lra. }
    assert (A : forall j, (j < s_n S)%nat -> double_layer S phi j = 0) by (apply (l2_norm_zero_inv _ _ Z)).
    split; auto. intros j Hj Ej. specialize (E j Hj Ej). rewrite Z, A in E by auto. lra.
  Qed.
  (** Without coincident or hanging nodes: a solution exists only if the sum of the single-layer products r is at
      most 0 and (sum r)^2 >= (n - 1) * sum r^2. *)
  Theorem C66_solvability : (forall i, (i < s_n S)%nat -> s_doubles S i = [i] /\ s_hanging S i = None) -> (0 < s_n S)%nat ->
    let r := s_D S dphi in
    sumn (s_n S) r <= 0 /\
    (INR (s_n S) - 1) * sumn (s_n S) (fun i => r i * r i) <= sumn (s_n S) r * sumn (s_n S) r.
  Proof.
    intros Hf Hn r. destruct (proj1 (C66_pure_neumann S owns rhs phi0 dphi0 sol Hh Hdir LN LD C HP Him Hcl) Hsol) as (_ & E & _).
    fold phi dphi in E. fold r in E. set (c := euclid (s_n S) (double_layer S phi)) in *. set (n := s_n S) in *.
    assert (E' : forall i, (i < n)%nat -> double_layer S phi i = r i + c).
    { intros i Hi. apply E; auto. unfold equation_node, free_of_doubles, neumann_group, constrained. destruct (Hf i Hi) as [Ed Eh]. rewrite Ed, Eh, (Hdir i Hi).
      repeat split; eauto. intros j [<-|[]]. apply Hdir; auto. }
    assert (P : 0 <= c) by (apply sqrt_pos).
    assert (Q : c * c = sumn n (fun i => r i * r i) + 2 * c * sumn n r + INR n * (c * c)).
    { unfold c at 1 2. unfold euclid. fold n. rewrite sqrt_sqrt by (apply sumn_nonneg; intros; apply Rle_0_sqr).
      rewrite (sumn_ext n _ (fun i => r i * r i + (2 * c * r i + c * c))) by (intros i Hi; rewrite E' by auto; ring).
      rewrite sumn_plus, Rplus_assoc. f_equal. rewrite sumn_plus, sumn_const. rewrite <- (sumn_scal n (2 * c)). ring. }
    assert (R0 : 0 <= sumn n (fun i => r i * r i)) by (apply sumn_nonneg; intros; apply Rle_0_sqr).
    assert (N1 : 1 <= INR n) by (change 1 with (INR 1); apply le_INR; lia).
    set (s2 := sumn n (fun i => r i * r i)) in *. set (s1 := sumn n r) in *.
    split.
    - destruct (Req_dec c 0) as [Z|Z].
      + rewrite Z in Q. assert (s2 = 0) by lra. assert (A : forall i, (i < n)%nat -> r i = 0).
        { intros i Hi. rewrite <- (l2_norm_zero_inv n r) with (i := i); auto. unfold l2_norm. fold s2. rewrite H. apply sqrt_0. }
        unfold s1. rewrite sumn_zero; auto. lra.
      + assert (0 < c) by lra. assert (0 <= (INR n - 1) * (c * c)) by (apply Rmult_le_pos; [lra|apply Rmult_le_pos; lra]).
        assert (2 * c * s1 <= 0) by lra. destruct (Rle_dec s1 0); auto. assert (0 < c * s1) by (apply Rmult_lt_0_compat; lra). lra.
    - assert (X : 0 <= (s1 + (INR n - 1) * c) * (s1 + (INR n - 1) * c)) by apply Rle_0_sqr.
      assert (Y : (INR n - 1) * (s2 + 2 * c * s1 + (INR n - 1) * (c * c)) = 0) by (replace (s2 + 2 * c * s1 + (INR n - 1) * (c * c)) with 0 by lra; ring).
      replace ((s1 + (INR n - 1) * c) * (s1 + (INR n - 1) * c)) with (s1 * s1 - (INR n - 1) * s2 + (INR n - 1) * (s2 + 2 * c * s1 + (INR n - 1) * (c * c))) in X by ring.
      lra.
  Qed.
End Consequences.

(** Two nodes, no constraints, D the identity. *)
Definition nsys (A : mat) : system := {|
  s_n := 2; s_direct := true; s_N := matvec 2 A; s_D := matvec 2 (fun i j => if (i =? j)%nat then 1 else 0);
  s_dir := fun _ => false; s_have_dirichlet := false; s_doubles := fun i => [i]; s_normal := fun _ _ => 0; s_sgrad := fun _ _ _ => 0;
  s_cont := false; s_hanging := fun _ => None; s_close := fun c => c |}.
Definition nowns : list (nat -> bool) := [fun i => (i =? 0)%nat; fun i => (i =? 1)%nat].
Lemma nsys_ok A rhs : coincidence 2 (s_doubles (nsys A)) /\ partition 2 nowns /\ imposed (nsys A) rhs rhs rhs /\
  (forall c, merge 2 (node_constraints (nsys A) rhs) (s_hanging (nsys A)) = Some c -> closes 2 c (s_close (nsys A) c)).
Proof.
  split; [|split; [|split]].
  - split; [|split]; cbn; [intros; auto|intros i j Hi [<-|[]]; auto|intros; repeat constructor; auto].
  - intros i Hi. do 2 (destruct i as [|i]; [reflexivity|]). lia.
  - intros i Hi. reflexivity.
  - intros; split; tauto.
Qed.
(** A solvable discrete Neumann problem (the integral equation has a solution) for which the system handed to
    GMRES has none. *)
Theorem C66_solvable_problem_without_solution_refuted : exists S owns rhs phi,
  s_have_dirichlet S = false /\ (forall i, (i < s_n S)%nat -> s_dir S i = false) /\ linear_op (s_n S) (s_N S) /\ linear_op (s_n S) (s_D S) /\
  coincidence (s_n S) (s_doubles S) /\ partition (s_n S) owns /\
  (forall c, merge (s_n S) (node_constraints S rhs) (s_hanging S) = Some c -> closes (s_n S) c (s_close S c)) /\
  (forall i, (i < s_n S)%nat -> equation_node S i /\ bie_row S phi rhs i) /\
  forall sol, ~ solves S owns rhs sol.
Proof.
  set (A := fun i j : nat => if (i =? j)%nat then 1 else -1). set (rhs := fun i : nat => if (i =? 0)%nat then 1 else -1).
  destruct (nsys_ok A rhs) as (C & P & I & K).
  exists (nsys A), nowns, rhs, (fun i => if (i =? 0)%nat then 1 / 2 else - (1 / 2)).
  split; [reflexivity|]. split; [reflexivity|]. split; [apply matvec_linear|]. split; [apply matvec_linear|].
  split; [exact C|]. split; [exact P|]. split; [exact K|]. split.
  - intros i Hi. split.
    + split; [reflexivity|]. unfold free_of_doubles, neumann_group. cbn. split; [reflexivity|eauto].
    + unfold bie_row. cbn [nsys s_N s_D]. unfold matvec, A, rhs. destruct i as [|[|i]]; [| |cbn in Hi; lia]; cbn; lra.
  - intros sol Hs.
    destruct (C66_solvability (nsys A) nowns rhs rhs rhs sol eq_refl ltac:(reflexivity) (matvec_linear _ _) (matvec_linear _ _) C P I K Hs ltac:(auto) ltac:(cbn; lia)) as (_ & X).
    cbn in X. unfold matvec in X.
    assert (E : forall i, solved_dphi (nsys A) rhs sol i = rhs i) by (intros i; rewrite (proj2 (solved_at (nsys A) rhs rhs sol i)); reflexivity).
    cbn in X. rewrite !E in X. unfold rhs in X. cbn in X. lra.
Qed.
(** A system with a solution, whose potential does not solve the integral equation. *)
Theorem C66_returned_potential_refuted : exists S owns rhs sol,
  s_have_dirichlet S = false /\ (forall i, (i < s_n S)%nat -> s_dir S i = false) /\ linear_op (s_n S) (s_N S) /\ linear_op (s_n S) (s_D S) /\
  coincidence (s_n S) (s_doubles S) /\ partition (s_n S) owns /\ imposed S rhs rhs rhs /\
  (forall c, merge (s_n S) (node_constraints S rhs) (s_hanging S) = Some c -> closes (s_n S) c (s_close S c)) /\
  (forall i, (i < s_n S)%nat -> s_doubles S i = [i] /\ s_hanging S i = None) /\
  solves S owns rhs sol /\
  exists i, (i < s_n S)%nat /\ equation_node S i /\ ~ bie_row S (solved_phi S rhs sol) (solved_dphi S rhs sol) i.
Proof.
  set (A := fun i j : nat => if (i =? 1)%nat then (if (j =? 0)%nat then 1 else -1) else 0). set (rhs := fun i : nat => if (i =? 0)%nat then -1 else 0).
  set (sol := fun i : nat => if (i =? 0)%nat then 1 else 0).
  destruct (nsys_ok A rhs) as (C & P & I & K).
  assert (E : forall i, solved_phi (nsys A) rhs sol i = sol i /\ solved_dphi (nsys A) rhs sol i = rhs i) by (intros i; exact (solved_at (nsys A) rhs rhs sol i)).
  assert (Eq : forall i, equation_node (nsys A) i) by (intros i; split; [reflexivity|]; unfold free_of_doubles, neumann_group; cbn; split; [reflexivity|eauto]).
  assert (DL : forall i, (i < 2)%nat -> double_layer (nsys A) (solved_phi (nsys A) rhs sol) i = if (i =? 0)%nat then 0 else 1).
  { intros i Hi. unfold double_layer. cbn [nsys s_N]. unfold matvec. cbn [sumn]. rewrite !(proj1 (E _)). unfold sol, A. destruct i as [|[|i]]; [cbn; lra|cbn; lra|lia]. }
  assert (Nm : euclid 2 (double_layer (nsys A) (solved_phi (nsys A) rhs sol)) = 1).
  { unfold euclid. cbn [sumn]. rewrite !DL by lia. cbn. replace (0 + 0 * 0 + 1 * 1) with 1 by lra. apply sqrt_1. }
  exists (nsys A), nowns, rhs, sol.
  split; [reflexivity|]. split; [reflexivity|]. split; [apply matvec_linear|]. split; [apply matvec_linear|].
  split; [exact C|]. split; [exact P|]. split; [exact I|]. split; [exact K|]. split; [auto|]. split.
  - apply (C66_pure_neumann (nsys A) nowns rhs rhs rhs sol eq_refl ltac:(reflexivity) (matvec_linear _ _) (matvec_linear _ _) C P I K).
    split; [discriminate|]. split; [|split].
    + intros i Hi _. change (s_n (nsys A)) with 2%nat in *. rewrite Nm, DL by auto. cbn [nsys s_D]. unfold matvec. cbn [sumn]. rewrite !(proj2 (E _)). unfold rhs. destruct i as [|[|i]]; [cbn; lra|cbn; lra|lia].
    + intros i f post Hi X. cbn in X. injection X as -> _. reflexivity.
    + discriminate.
  - exists 0%nat. split; [cbn; lia|]. split; [apply Eq|]. unfold bie_row. fold (double_layer (nsys A) (solved_phi (nsys A) rhs sol) 0%nat).
    change (double_layer (nsys A) (solved_phi (nsys A) rhs sol) 0%nat <> s_D (nsys A) (solved_dphi (nsys A) rhs sol) 0%nat).
    rewrite DL by lia. cbn [nsys s_D]. unfold matvec. cbn [sumn]. rewrite !(proj2 (E _)). unfold rhs. cbn. lra.
Qed.
