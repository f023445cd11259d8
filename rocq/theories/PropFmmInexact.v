(** Property theorems C75: the vector accepted in FMM mode, in the equations of the Direct mode. *)
From Coq Require Import Reals List Bool Arith Lia Lra.
From Verif Require Import LibSum ModelOctree SpecOctree ModelFmm SpecFmm ModelFmmExp SpecFmmAcc ModelAssemble PropFmmAcc PropAssemble.
From Verif Require Import ProofsFmm ProofsFmmAcc PropFmm PropOctree.
From Verif Require Import ModelBem ProofsBem ModelBc ProofsBc PropBem ModelSolve SpecSolve ProofsSolve PropSolve PropNeumann.
From Verif Require Import PropSolveFmm PropClose ModelResid PropInexact.
Import ListNotations.
Local Open Scope R_scope.

(** The residual of one and the same vector in the two modes: equal in the constrained rows, within the expansion error
    elsewhere. *)
Theorem C75_fmm_residual_in_the_direct_system :
  forall I p nrm shape JxW TN TD own schN schD junkN junkD S owns rhs phi0 dphi0 sol r err,
  wf_in I -> (0 < o_nqc I)%nat -> (p <= 10)%nat -> general_position I Single -> general_position I (Double nrm) ->
  (forall i, (i < o_nd I)%nat -> own i i = true) ->
  (forall x i, good_sched I (octree I) (schN x i)) -> (forall x i, good_sched I (octree I) (schD x i)) ->
  s_n S = o_nd I -> s_N S = fmm_layer I p (Double nrm) shape JxW TN own schN junkN -> s_D S = fmm_layer I p Single shape JxW TD own schD junkD ->
  s_have_dirichlet S = true -> partition (s_n S) owns -> imposed S rhs phi0 dphi0 ->
  (forall i, (i < s_n S)%nat -> residual S owns rhs sol i = Some (r i)) ->
  let S' := with_layers S (direct_layer I (Double nrm) shape JxW TN own) (direct_layer I Single shape JxW TD own) in
  let phi := solved_phi S phi0 sol in let dphi := solved_dphi S dphi0 sol in
  let cN := charge I (Double nrm) shape JxW TN in let cD := charge I Single shape JxW TD in
  0 <= err ->
  (forall i, (i < s_n S)%nat ->
     far_error (Double nrm) p (smallest_side I) * (cN phi + Rabs (phi i) * cN (fun _ => 1)) + far_error Single p (smallest_side I) * cD dphi <= err) ->
  exists r', (forall i, (i < s_n S)%nat -> residual S' owns rhs sol i = Some (r' i)) /\
    (forall i, (i < s_n S)%nat -> Rabs (r' i - r i) <= err) /\
    (forall c i, all_constraints S rhs = Some c -> (i < s_n S)%nat -> constrained c i = true -> r' i = r i).
Proof.
  intros I p nrm shape JxW TN TD own schN schD junkN junkD S owns rhs phi0 dphi0 sol r err W Wq Lp G1 G2 Ho GN GD En EN ED Hh HP Him Hr S' phi dphi cN cD E0 Eb.
  assert (LN : linear_op (s_n S) (s_N S)) by (rewrite En, EN; apply fmm_layer_linear; auto).
  assert (LD : linear_op (s_n S) (s_D S)) by (rewrite En, ED; apply fmm_layer_linear; auto).
  assert (LN' : linear_op (s_n S') (s_N S')) by (cbn; rewrite En; apply direct_layer_linear; auto).
  assert (LD' : linear_op (s_n S') (s_D S')) by (cbn; rewrite En; apply direct_layer_linear; auto).
  assert (Im' : imposed S' rhs phi0 dphi0) by exact Him.
  destruct (merge (s_n S) (node_constraints S rhs) (s_hanging S)) as [c|] eqn:Hm.
  2:{ exists r. split; [|split].
      - intros i Hi. exfalso. assert (X := Hr i Hi). unfold residual, all_constraints in X. rewrite Hm in X. discriminate.
      - intros i Hi. rewrite Rminus_diag_eq, Rabs_R0 by auto. auto.
      - auto. }
  assert (Hm' : merge (s_n S') (node_constraints S' rhs) (s_hanging S') = Some c) by exact Hm.
  exists (fun i => match s_close S c i with Some _ => r i | None => compute_rhs (operator S') (fun _ => 0) rhs i - vmult (operator S') sol i end).
  split; [|split].
  - intros i Hi. rewrite (residual_row S' owns rhs sol c i HP Hi Hm'). change (s_close S') with (s_close S).
    assert (X := Hr i Hi). rewrite (residual_row S owns rhs sol c i HP Hi Hm) in X. destruct (s_close S c i) as [l|]; [exact X|reflexivity].
  - intros i Hi. assert (X := Hr i Hi). rewrite (residual_row S owns rhs sol c i HP Hi Hm) in X. destruct (s_close S c i) as [l|]; [rewrite Rminus_diag_eq, Rabs_R0 by auto; auto|].
    injection X as X. rewrite (equation_residual S rhs phi0 dphi0 sol i Hh LN LD Him Hi) in X. fold phi dphi in X.
    rewrite (equation_residual S' rhs phi0 dphi0 sol i Hh LN' LD' Im' Hi). change (solved_phi S' phi0 sol) with phi. change (solved_dphi S' dphi0 sol) with dphi.
    change (s_N S') with (direct_layer I (Double nrm) shape JxW TN own). change (s_D S') with (direct_layer I Single shape JxW TD own).
    assert (Hi' : (i < o_nd I)%nat) by (rewrite <- En; auto).
    assert (X1 := layers_close I p shape JxW own W Wq Lp Ho (Double nrm) TN schN junkN phi i G2 GN Hi').
    assert (X2 := layers_close I p shape JxW own W Wq Lp Ho (Double nrm) TN schN junkN (fun _ => 1) i G2 GN Hi').
    assert (X3 := layers_close I p shape JxW own W Wq Lp Ho Single TD schD junkD dphi i G1 GD Hi').
    rewrite <- EN in X1, X2. rewrite <- ED in X3. fold cN in X1, X2. fold cD in X3. specialize (Eb i Hi).
    set (Nm := direct_layer I (Double nrm) shape JxW TN own) in *. set (Dm := direct_layer I Single shape JxW TD own) in *.
    replace (Dm dphi i - (Nm phi i - phi i * Nm (fun _ => 1) i) - r i)
      with ((s_N S phi i - Nm phi i) + - (phi i * (s_N S (fun _ => 1) i - Nm (fun _ => 1) i) + (s_D S dphi i - Dm dphi i))) by lra.
    eapply Rle_trans; [apply Rabs_triang|]. rewrite Rabs_Ropp.
    assert (Y : Rabs (phi i * (s_N S (fun _ => 1) i - Nm (fun _ => 1) i) + (s_D S dphi i - Dm dphi i)) <= Rabs (phi i) * (far_error (Double nrm) p (smallest_side I) * cN (fun _ => 1)) + far_error Single p (smallest_side I) * cD dphi).
    { eapply Rle_trans; [apply Rabs_triang|]. apply Rplus_le_compat; auto. rewrite Rabs_mult. apply Rmult_le_compat_l; auto. apply Rabs_pos. }
    lra.
  - intros c' i Hc Hi K. unfold all_constraints in Hc. rewrite Hm in Hc. injection Hc as <-. unfold constrained in K. destruct (s_close S c i); [reflexivity|discriminate].
Qed.

(** Distance between what an inexact solve returns in FMM mode and the exact solution of the Direct mode: expansion error
    and residual both count. *)
Theorem C75_fmm_solve_near_the_direct_solution :
  forall I p nrm shape JxW TN TD own schN schD junkN junkD S owns rhs phi0 dphi0 sol sol' r M Wt eps err,
  wf_in I -> (0 < o_nqc I)%nat -> (p <= 10)%nat -> general_position I Single -> general_position I (Double nrm) ->
  (forall i, (i < o_nd I)%nat -> own i i = true) ->
  (forall x i, good_sched I (octree I) (schN x i)) -> (forall x i, good_sched I (octree I) (schD x i)) ->
  s_n S = o_nd I -> s_N S = fmm_layer I p (Double nrm) shape JxW TN own schN junkN -> s_D S = fmm_layer I p Single shape JxW TD own schD junkD ->
  s_have_dirichlet S = true -> partition (s_n S) owns -> imposed S rhs phi0 dphi0 ->
  (forall c, merge (s_n S) (node_constraints S rhs) (s_hanging S) = Some c -> closes (s_n S) c (s_close S c) /\ resolved (s_n S) (s_close S c)) ->
  let S' := with_layers S (direct_layer I (Double nrm) shape JxW TN own) (direct_layer I Single shape JxW TD own) in
  (forall i, (i < s_n S)%nat -> residual S owns rhs sol i = Some (r i)) -> solves S' owns rhs sol' -> stable S' rhs M ->
  (forall c i l, merge (s_n S) (node_constraints S rhs) (s_hanging S) = Some c -> (i < s_n S)%nat -> c i = Some l ->
     suml (l_entries l) (fun e => Rabs (snd e)) <= Wt /\ forall e, In e (l_entries l) -> (fst e < s_n S)%nat) ->
  (forall i, (i < s_n S)%nat -> Rabs (r i) <= eps) -> 0 <= Wt ->
  let phi := solved_phi S phi0 sol in let dphi := solved_dphi S dphi0 sol in
  let cN := charge I (Double nrm) shape JxW TN in let cD := charge I Single shape JxW TD in
  0 <= err ->
  (forall i, (i < s_n S)%nat ->
     far_error (Double nrm) p (smallest_side I) * (cN phi + Rabs (phi i) * cN (fun _ => 1)) + far_error Single p (smallest_side I) * cD dphi <= err) ->
  forall i, (i < s_n S)%nat ->
    Rabs (phi i - solved_phi S' phi0 sol' i) <= M * ((1 + Wt) * (eps + err)) /\ Rabs (dphi i - solved_dphi S' dphi0 sol' i) <= M * ((1 + Wt) * (eps + err)).
Proof.
  intros I p nrm shape JxW TN TD own schN schD junkN junkD S owns rhs phi0 dphi0 sol sol' r M Wt eps err W Wq Lp G1 G2 Ho GN GD En EN ED Hh HP Him Hcl S' Hr Hs St Hw He W0 phi dphi cN cD E0 Eb.
  destruct (C75_fmm_residual_in_the_direct_system I p nrm shape JxW TN TD own schN schD junkN junkD S owns rhs phi0 dphi0 sol r err W Wq Lp G1 G2 Ho GN GD En EN ED Hh HP Him Hr E0 Eb) as (r' & R1 & R2 & _).
  assert (LN' : linear_op (s_n S') (s_N S')) by (cbn; rewrite En; apply direct_layer_linear; auto).
  assert (LD' : linear_op (s_n S') (s_D S')) by (cbn; rewrite En; apply direct_layer_linear; auto).
  apply (C75_error_of_the_solution S' owns rhs phi0 dphi0 sol sol' r' M Wt (eps + err)); auto.
  intros i Hi. assert (A := R2 i Hi). assert (B := He i Hi). replace (r' i) with (r i + (r' i - r i)) by ring. eapply Rle_trans; [apply Rabs_triang|]. lra.
Qed.

(** The hypotheses are met: in the example of C67 every vector has a finite residual and the Direct-mode problem is stable. *)
Lemma free_system S owns rhs : s_dir S = (fun _ => true) -> s_doubles S = (fun i => [i]) -> s_cont S = false -> s_hanging S = (fun _ => None) ->
  s_close S = (fun c => c) -> coincidence (s_n S) (s_doubles S) -> partition (s_n S) owns ->
  (forall sol, exists r, forall i, (i < s_n S)%nat -> residual S owns rhs sol i = Some (r i)) /\
  (forall c, merge (s_n S) (node_constraints S rhs) (s_hanging S) = Some c ->
     closes (s_n S) c (s_close S c) /\ resolved (s_n S) (s_close S c) /\ forall i, (i < s_n S)%nat -> c i = None).
Proof.
  intros Ed Eb Ec Eh Ecl C P.
  assert (Nd : forall i, (i < s_n S)%nat -> node_constraints S rhs i = None).
  { intros i Hi. assert (G : free_of_doubles S i) by (unfold free_of_doubles; rewrite Ed, Ec; auto).
    apply (node_free S rhs C i Hi) in G. unfold constrained in G. destruct (node_constraints S rhs i); [discriminate|reflexivity]. }
  assert (N : forall c, merge (s_n S) (node_constraints S rhs) (s_hanging S) = Some c -> forall i, (i < s_n S)%nat -> c i = None).
  { intros c Hm i Hi. unfold merge in Hm. destruct (existsb _ _); [discriminate|]. injection Hm as <-. cbv beta. rewrite (Nd i Hi), Eh. reflexivity. }
  split.
  - intros sol. destruct (merge (s_n S) (node_constraints S rhs) (s_hanging S)) as [c|] eqn:Hm.
    + exists (fun i => compute_rhs (operator S) (fun _ => 0) rhs i - vmult (operator S) sol i). intros i Hi.
      rewrite (residual_row S owns rhs sol c i P Hi Hm), Ecl, (N c eq_refl i Hi). reflexivity.
    + exfalso. unfold merge in Hm. destruct (existsb _ (seq 0 (s_n S))) eqn:Q; [|discriminate]. apply existsb_exists in Q. destruct Q as (i & Hi & Q). apply in_seq in Hi.
      unfold constrained in Q. rewrite (Nd i ltac:(lia)) in Q. discriminate.
  - intros c Hm. split; [rewrite Ecl; split; tauto|]. split; [|apply N; auto]. intros i l e Hi Hc. rewrite Ecl in Hc. rewrite (N c Hm i Hi) in Hc. discriminate.
Qed.
Example C75_fmm_nonvacuous : (forall sol, exists r, forall i, (i < s_n cl_sys)%nat -> residual cl_sys [fun _ => true] (fun _ => 3) sol i = Some (r i)) /\
  (forall c, merge (s_n cl_sys) (node_constraints cl_sys (fun _ => 3)) (s_hanging cl_sys) = Some c ->
     closes (s_n cl_sys) c (s_close cl_sys c) /\ resolved (s_n cl_sys) (s_close cl_sys c) /\ forall i, (i < s_n cl_sys)%nat -> c i = None).
Proof. exact (free_system cl_sys [fun _ => true] (fun _ => 3) eq_refl eq_refl eq_refl eq_refl eq_refl cl_C4 cl_P4). Qed.
