(** Property theorems C67: distance between the solutions of the two modes. *)
From Coq Require Import Reals List Bool Arith Lia Lra.
From Verif Require Import LibSum ModelOctree SpecOctree ModelFmm SpecFmm ModelFmmExp SpecFmmAcc ModelAssemble PropFmmAcc PropAssemble.
From Verif Require Import ProofsFmm ProofsFmmAcc PropFmm PropOctree.
From Verif Require Import ModelBem ProofsBem ModelBc ProofsBc PropBem ModelSolve SpecSolve ProofsSolve PropSolve PropNeumann.
From Verif Require Import PropSolveFmm.
Import ListNotations.
Local Open Scope R_scope.

Lemma direct_layer_linear I ly shape JxW T own : wf_in I -> (0 < o_nqc I)%nat -> (forall i, (i < o_nd I)%nat -> own i i = true) ->
  linear_op (o_nd I) (direct_layer I ly shape JxW T own).
Proof.
  intros W Wq Ho. unfold direct_layer. assert (Wc := proj2 (proj2 (proj2 W))). split; [|split].
  - intros x y i Hi. rewrite !C60_assembled_matrix_is_the_direct_product by auto. apply direct_product_add.
  - intros s x i Hi. rewrite !C60_assembled_matrix_is_the_direct_product by auto. apply direct_product_scal.
  - intros x y Exy i Hi. rewrite !C60_assembled_matrix_is_the_direct_product by auto. apply direct_product_ext; auto.
Qed.

(** If the Direct-mode problem determines its unknowns with condition M, the solution computed in FMM mode is
    within M times the equation error of C67 of the solution computed in Direct mode. *)
Theorem C67_fmm_solution_near_the_direct_solution :
  forall I p nrm shape JxW TN TD own schN schD junkN junkD S owns rhs phi0 dphi0 sol sol' M err,
  wf_in I -> (0 < o_nqc I)%nat -> (p <= 10)%nat -> general_position I Single -> general_position I (Double nrm) ->
  (forall i, (i < o_nd I)%nat -> own i i = true) ->
  (forall x i, good_sched I (octree I) (schN x i)) -> (forall x i, good_sched I (octree I) (schD x i)) ->
  s_n S = o_nd I -> s_N S = fmm_layer I p (Double nrm) shape JxW TN own schN junkN -> s_D S = fmm_layer I p Single shape JxW TD own schD junkD ->
  s_have_dirichlet S = true -> coincidence (s_n S) (s_doubles S) -> partition (s_n S) owns -> imposed S rhs phi0 dphi0 ->
  (forall c, merge (s_n S) (node_constraints S rhs) (s_hanging S) = Some c -> closes (s_n S) c (s_close S c)) ->
  let S' := with_layers S (direct_layer I (Double nrm) shape JxW TN own) (direct_layer I Single shape JxW TD own) in
  solves S owns rhs sol -> solves S' owns rhs sol' -> stable S' rhs M ->
  let phi := solved_phi S phi0 sol in let dphi := solved_dphi S dphi0 sol in
  let cN := charge I (Double nrm) shape JxW TN in let cD := charge I Single shape JxW TD in
  0 <= err ->
  (forall i, (i < s_n S)%nat ->
     far_error (Double nrm) p (smallest_side I) * (cN phi + Rabs (phi i) * cN (fun _ => 1)) + far_error Single p (smallest_side I) * cD dphi <= err) ->
  forall i, (i < s_n S)%nat ->
    Rabs (solved_phi S phi0 sol i - solved_phi S' phi0 sol' i) <= M * err /\ Rabs (solved_dphi S dphi0 sol i - solved_dphi S' dphi0 sol' i) <= M * err.
Proof.
  intros I p nrm shape JxW TN TD own schN schD junkN junkD S owns rhs phi0 dphi0 sol sol' M err W Wq Lp G1 G2 Ho GN GD En EN ED Hh C HP Him Hcl S' Hs Hs' St phi dphi cN cD E0 Eb.
  assert (LN' : linear_op (s_n S') (s_N S')) by (cbn; rewrite En; apply direct_layer_linear; auto).
  assert (LD' : linear_op (s_n S') (s_D S')) by (cbn; rewrite En; apply direct_layer_linear; auto).
  destruct (C67_fmm_solution_in_the_direct_equation I p nrm shape JxW TN TD own schN schD junkN junkD S owns rhs phi0 dphi0 sol W Wq Lp G1 G2 Ho GN GD En EN ED Hh C HP Him Hcl Hs) as (B & _).
  fold phi dphi in B. fold cN cD in B.
  assert (Im' : imposed S' rhs phi0 dphi0) by exact Him.
  assert (P' := proj1 (C65_solve_system S' owns rhs phi0 dphi0 sol' Hh LN' LD' C HP Im' Hcl) Hs'). destruct P' as (Fr & B' & _).
  destruct (merge (s_n S) (node_constraints S rhs) (s_hanging S)) as [c|] eqn:Hm; [|exfalso; unfold solves, all_constraints in Hs; rewrite Hm in Hs; exact Hs].
  assert (L1 := proj1 (all_lines S owns rhs sol c HP Hm (Hcl c eq_refl)) Hs). destruct L1 as (_ & L1).
  assert (Hm' : merge (s_n S') (node_constraints S' rhs) (s_hanging S') = Some c) by exact Hm.
  assert (L2 := proj1 (all_lines S' owns rhs sol' c HP Hm' (Hcl c eq_refl)) Hs'). destruct L2 as (_ & L2).
  assert (Eq : forall i, (i < s_n S)%nat -> c i = None -> equation_node S i).
  { intros i Hi Ni. unfold equation_node. rewrite <- (node_free S rhs C i Hi). unfold merge in Hm. destruct (existsb _ _); [discriminate|]. injection Hm as <-. cbv beta in Ni. unfold constrained.
    destruct (node_constraints S rhs i), (s_hanging S i); try discriminate; auto. }
  assert (Main : forall i, (i < s_n S)%nat -> Rabs (sol i - sol' i) <= M * err).
  { apply (St c (fun k => sol k - sol' k) err Hm'). intros i Hi. cbn in Hi. unfold homogeneous_row. destruct (c i) as [l|] eqn:Ci.
    - destruct (L1 i l Hi Ci) as (v & V1 & V2). destruct (L2 i l Hi Ci) as (v' & V1' & V2'). assert (v = v') by congruence. subst v'.
      assert (Q : sol i - sol' i - suml (l_entries l) (fun e => snd e * (sol (fst e) - sol' (fst e))) = 0).
      { rewrite V2 at 1. rewrite V2' at 1. assert (Z : suml (l_entries l) (fun e => snd e * (sol (fst e) - sol' (fst e))) = suml (l_entries l) (fun e => snd e * sol (fst e)) + -1 * suml (l_entries l) (fun e => snd e * sol' (fst e))) by (rewrite <- suml_scal, <- suml_plus; apply suml_ext; intros; ring). rewrite Z. ring. }
      rewrite Q, Rabs_R0. auto.
    - assert (Ei := Eq i Hi Ci). assert (R1 := B i Hi Ei). assert (R2 := B' i Hi Ei). unfold bie_row in R2. set (phi' := solved_phi S' phi0 sol') in *. set (dphi' := solved_dphi S' dphi0 sol') in *.
      change (s_dir S') with (s_dir S). change (s_N S') with (direct_layer I (Double nrm) shape JxW TN own) in *. change (s_D S') with (direct_layer I Single shape JxW TD own) in *.
      set (Nm := direct_layer I (Double nrm) shape JxW TN own) in *. set (Dm := direct_layer I Single shape JxW TD own) in *.
      assert (Ph : forall k, (if s_dir S k then 0 else sol k - sol' k) = 1 * phi k + -1 * phi' k).
      { intros k. unfold phi, phi'. rewrite (proj1 (solved_at S phi0 dphi0 sol k)), (proj1 (solved_at S' phi0 dphi0 sol' k)). cbn. destruct (s_dir S k); ring. }
      assert (Dh : forall k, (if s_dir S k then sol k - sol' k else 0) = 1 * dphi k + -1 * dphi' k).
      { intros k. unfold dphi, dphi'. rewrite (proj2 (solved_at S phi0 dphi0 sol k)), (proj2 (solved_at S' phi0 dphi0 sol' k)). cbn. destruct (s_dir S k); ring. }
      cbv zeta. rewrite (lin_comb (s_n S') Nm phi phi' _ 1 (-1) i LN' Hi (fun k _ => Ph k)), (lin_comb (s_n S') Dm dphi dphi' _ 1 (-1) i LD' Hi (fun k _ => Dh k)). rewrite (Ph i).
      replace (1 * Nm phi i + -1 * Nm phi' i - (1 * phi i + -1 * phi' i) * Nm (fun _ => 1) i - (1 * Dm dphi i + -1 * Dm dphi' i)) with (Nm phi i - phi i * Nm (fun _ => 1) i - Dm dphi i) by lra.
      eapply Rle_trans; [exact R1|]. apply Eb; auto. }
  intros i Hi. assert (Mi := Main i Hi). assert (Z : 0 <= M * err) by (eapply Rle_trans; [apply Rabs_pos|exact Mi]).
  rewrite (proj1 (solved_at S phi0 dphi0 sol i)), (proj1 (solved_at S' phi0 dphi0 sol' i)), (proj2 (solved_at S phi0 dphi0 sol i)), (proj2 (solved_at S' phi0 dphi0 sol' i)). cbn [with_layers S' s_dir].
  destruct (s_dir S i); split; auto; rewrite Rminus_diag_eq, Rabs_R0; auto.
Qed.

(** The hypotheses can be met: the mesh of C67_nonvacuous, Dirichlet everywhere, with a singular rule that is
    diagonal; the problem is stable with condition 1. *)
Definition cl_kern (i : nat) : R := code_kernel ex_oin Single i (if (i <? 2)%nat then 1 else 0)%nat.
Definition cl_t : R := 2 * (Rabs (cl_kern 0) + Rabs (cl_kern 1) + Rabs (cl_kern 2) + Rabs (cl_kern 3)) + 1.
Definition cl_rule : singular_rule := {| sr_n := fun _ => 1%nat; sr_kernel := fun _ _ _ _ => cl_t;
  sr_shape := fun idx _ j => if Nat.eqb idx j then 1 else 0; sr_jxw := fun _ _ _ => 1 |}.
Definition cl_sys : system := with_layers fex_sys (s_N fex_sys)
  (fmm_layer ex_oin 3 Single (fun _ _ => 1) (fun _ => 1) cl_rule (fun _ _ => true) (fun _ _ => seq_sched ex_oin) (fun _ _ => 0)).
Definition cl_sys' : system := with_layers cl_sys
  (direct_layer ex_oin (Double fex_nrm) (fun _ _ => 1) (fun _ => 1) (ex_rule 2) (fun _ _ => true))
  (direct_layer ex_oin Single (fun _ _ => 1) (fun _ => 1) cl_rule (fun _ _ => true)).
Lemma cl_row x i : (i < 4)%nat -> s_D cl_sys' x i = cl_t * x i + cl_kern i * (if (i <? 2)%nat then x 2%nat + x 3%nat else x 0%nat + x 1%nat).
Proof.
  intros Hi. destruct C60_agreement_met as (W & Wq & _). cbn [s_D cl_sys' with_layers]. unfold direct_layer.
  rewrite C60_assembled_matrix_is_the_direct_product by (auto; apply W).
  do 4 (destruct i as [|i]; [unfold direct_product, density, cl_kern; cbn -[code_kernel cl_t]; unfold singular_row; cbn -[code_kernel cl_t]; ring|]). lia.
Qed.
Lemma cl_C4 : coincidence 4 (fun i => [i]).
Proof. split; [|split]; [intros; left; auto|intros i j Hi [<-|[]]; auto|intros; repeat constructor; auto]. Qed.
Lemma cl_P4 : partition 4 [fun _ => true].
Proof. intros i Hi. reflexivity. Qed.
Lemma cl_sol : forall S, s_dir S = (fun _ => true) -> s_n S = 4%nat -> s_doubles S = (fun i => [i]) -> s_cont S = false -> s_hanging S = (fun _ => None) -> s_have_dirichlet S = true ->
    s_close S = (fun c => c) -> linear_op (s_n S) (s_N S) -> linear_op (s_n S) (s_D S) -> solves S [fun _ => true] (fun _ => 3) (fun _ => 0).
Proof.
  intros S Ed En Eb Ec Eh Ehd Ecl L1 L2.
    assert (C' : coincidence (s_n S) (s_doubles S)) by (rewrite En, Eb; exact cl_C4).
    assert (P' : partition (s_n S) [fun _ => true]) by (rewrite En; exact cl_P4).
    assert (Im' : imposed S (fun _ => 3) (fun _ => 3) (fun _ => 3)) by (intros i Hi; destruct (s_dir S i); reflexivity).
    assert (Cl' : forall c, merge (s_n S) (node_constraints S (fun _ => 3)) (s_hanging S) = Some c -> closes (s_n S) c (s_close S c)) by (intros; rewrite Ecl; split; tauto).
    apply (C65_solve_system S _ _ (fun _ => 3) (fun _ => 3) _ Ehd L1 L2 C' P' Im' Cl').
    assert (At : forall i, solved_phi S (fun _ => 3) (fun _ => 0) i = 3 /\ solved_dphi S (fun _ => 3) (fun _ => 0) i = 0).
    { intros i. destruct (solved_at S (fun _ => 3) (fun _ => 3) (fun _ => 0) i) as (A1 & A2). rewrite A1, A2, Ed. auto. }
    split; [rewrite Eh; discriminate|]. unfold discrete_problem, discrete_problem_with. rewrite Ed, Eh, Ec, Eb. split; [|split; [|split; [|split; [|split]]]]; try discriminate.
    - intros i Hi _. unfold bie_row.
      rewrite (lin_comb _ _ (fun _ => 1) (fun _ => 1) (solved_phi S (fun _ => 3) (fun _ => 0)) 3 0 i L1 Hi) by (intros; rewrite (proj1 (At _)); lra).
      rewrite (lin_comb _ _ (fun _ => 1) (fun _ => 1) (solved_dphi S (fun _ => 3) (fun _ => 0)) 0 0 i L2 Hi) by (intros; rewrite (proj2 (At _)); lra).
      rewrite (proj1 (At i)). lra.
    - intros i f post Hi N. unfold neumann_group in N. rewrite Eb, Ed in N. specialize (N i (or_introl eq_refl)). discriminate.
Qed.
Lemma cl_LN' : linear_op 4 (s_N cl_sys').
Proof. destruct C60_agreement_met as (W & Wq & _). exact (direct_layer_linear ex_oin (Double fex_nrm) (fun _ _ => 1) (fun _ => 1) (ex_rule 2) (fun _ _ => true) W Wq (fun _ _ => eq_refl)). Qed.
Lemma cl_LD' : linear_op 4 (s_D cl_sys').
Proof. destruct C60_agreement_met as (W & Wq & _). exact (direct_layer_linear ex_oin Single (fun _ _ => 1) (fun _ => 1) cl_rule (fun _ _ => true) W Wq (fun _ _ => eq_refl)). Qed.
Lemma cl_LN : linear_op 4 (s_N cl_sys).
Proof.
  destruct C67_nonvacuous as (W & Wq & G1 & G2 & GS & _). assert (L : (3 <= 10)%nat) by lia.
  exact (fmm_layer_linear ex_oin 3 (fun _ _ => 1) (fun _ => 1) (fun _ _ => true) W Wq L (fun _ _ => eq_refl) (Double fex_nrm) (ex_rule 2) _ (fun _ _ => 0) G2 (fun _ _ => GS)).
Qed.
Lemma cl_LD : linear_op 4 (s_D cl_sys).
Proof.
  destruct C67_nonvacuous as (W & Wq & G1 & G2 & GS & _). assert (L : (3 <= 10)%nat) by lia.
  exact (fmm_layer_linear ex_oin 3 (fun _ _ => 1) (fun _ => 1) (fun _ _ => true) W Wq L (fun _ _ => eq_refl) Single cl_rule _ (fun _ _ => 0) G1 (fun _ _ => GS)).
Qed.
Lemma cl_hom S c x i : s_dir S = (fun _ => true) -> linear_op (s_n S) (s_N S) -> (i < s_n S)%nat -> c i = None -> homogeneous_row S c x i = - s_D S x i.
Proof.
  intros Ed L Hi Ci. unfold homogeneous_row. rewrite Ci, Ed. cbv beta zeta iota. change (fun k => x k) with x.
  rewrite (lin_comb _ _ (fun _ => 1) (fun _ => 1) (fun _ => 0) 0 0 i L Hi) by (intros; ring). ring.
Qed.
Lemma cl_stable_gen S rhs (tt : R) (kk : nat -> R) : s_n S = 4%nat -> s_dir S = (fun _ => true) -> s_doubles S = (fun i => [i]) -> s_cont S = false -> s_hanging S = (fun _ => None) ->
  linear_op 4 (s_N S) -> (forall x i, (i < 4)%nat -> s_D S x i = tt * x i + kk i * (if (i <? 2)%nat then x 2%nat + x 3%nat else x 0%nat + x 1%nat)) ->
  tt = 2 * (Rabs (kk 0%nat) + Rabs (kk 1%nat) + Rabs (kk 2%nat) + Rabs (kk 3%nat)) + 1 -> stable S rhs 1.
Proof.
  intros En Ed Eb Ec Eh LN ED Et c x r Hm Hr. rewrite En in *.
  assert (Nc : forall i, (i < 4)%nat -> c i = None).
  { intros i Hi. assert (N : node_constraints S rhs i = None).
    { assert (C' : coincidence (s_n S) (s_doubles S)) by (rewrite En, Eb; exact cl_C4). assert (F := node_free S rhs C' i). rewrite En in F. specialize (F Hi).
      assert (G : free_of_doubles S i) by (unfold free_of_doubles; rewrite Ed, Ec; auto). apply F in G. unfold constrained in G. destruct (node_constraints S rhs i); auto; discriminate. }
    unfold merge in Hm. destruct (existsb _ _); [discriminate|]. injection Hm as <-. cbv beta. rewrite N, Eh. reflexivity. }
  assert (Row : forall i, (i < 4)%nat -> Rabs (tt * x i + kk i * (if (i <? 2)%nat then x 2%nat + x 3%nat else x 0%nat + x 1%nat)) <= r).
  { intros i Hi. specialize (Hr i Hi). assert (LN' : linear_op (s_n S) (s_N S)) by (rewrite En; exact LN). assert (Hi' : (i < s_n S)%nat) by lia.
    rewrite (cl_hom S c x i Ed LN' Hi' (Nc i Hi)) in Hr. rewrite Rabs_Ropp, (ED x i Hi) in Hr. exact Hr. }
    assert (Mx : exists m, (m < 4)%nat /\ forall k, (k < 4)%nat -> Rabs (x k) <= Rabs (x m)).
    { assert (E : forall n, exists m, (m <= n)%nat /\ forall k, (k <= n)%nat -> Rabs (x k) <= Rabs (x m)).
      { induction n as [|n (m & Lm & Hm')]; [exists 0%nat; split; auto; intros k Hk; replace k with 0%nat by lia; lra|].
        destruct (Rle_dec (Rabs (x (Datatypes.S n))) (Rabs (x m))).
        - exists m. split; [lia|]. intros k Hk. destruct (Nat.eq_dec k (Datatypes.S n)); [subst; auto|apply Hm'; lia].
        - exists (Datatypes.S n). split; [lia|]. intros k Hk. destruct (Nat.eq_dec k (Datatypes.S n)); [subst; lra|]. specialize (Hm' k). assert (k <= n)%nat by lia. specialize (Hm' H). lra. }
      destruct (E 3%nat) as (m & Lm & E'). exists m. split; [lia|]. intros k Hk. apply E'. lia. }
    destruct Mx as (m & Lm & Mx). intros i Hi. eapply Rle_trans; [apply Mx, Hi|].
    assert (R0 := Row m Lm). set (y := (if (m <? 2)%nat then x 2%nat + x 3%nat else x 0%nat + x 1%nat)) in *.
    assert (Y : Rabs y <= 2 * Rabs (x m)).
    { unfold y. destruct (m <? 2)%nat; (eapply Rle_trans; [apply Rabs_triang|]).
      - assert (A := Mx 2%nat). assert (B := Mx 3%nat). assert (2 < 4)%nat by lia. assert (3 < 4)%nat by lia. specialize (A H). specialize (B H0). lra.
      - assert (A := Mx 0%nat). assert (B := Mx 1%nat). assert (0 < 4)%nat by lia. assert (1 < 4)%nat by lia. specialize (A H). specialize (B H0). lra. }
    assert (K : 2 * Rabs (kk m) + 1 <= tt).
    { rewrite Et. assert (A0 := Rabs_pos (kk 0%nat)). assert (A1 := Rabs_pos (kk 1%nat)). assert (A2 := Rabs_pos (kk 2%nat)). assert (A3 := Rabs_pos (kk 3%nat)).
      do 4 (destruct m as [|m]; [lra|]). lia. }
    assert (K0 := Rabs_pos (kk m)). assert (X0 := Rabs_pos (x m)).
    assert (T : Rabs (tt * x m) <= Rabs (tt * x m + kk m * y) + Rabs (kk m * y)).
    { replace (tt * x m) with ((tt * x m + kk m * y) + - (kk m * y)) at 1 by ring. eapply Rle_trans; [apply Rabs_triang|]. rewrite Rabs_Ropp. lra. }
    rewrite !Rabs_mult in T. rewrite (Rabs_pos_eq tt) in T by lra.
    assert (U : Rabs (kk m) * Rabs y <= Rabs (kk m) * (2 * Rabs (x m))) by (apply Rmult_le_compat_l; auto).
    assert (V : (2 * Rabs (kk m) + 1) * Rabs (x m) <= tt * Rabs (x m)) by (apply Rmult_le_compat_r; auto). lra.
Qed.
Lemma cl_stable : stable cl_sys' (fun _ => 3) 1.
Proof. exact (cl_stable_gen cl_sys' (fun _ => 3) cl_t cl_kern eq_refl eq_refl eq_refl eq_refl eq_refl cl_LN' cl_row eq_refl). Qed.
Example C67_close_nonvacuous :
  stable cl_sys' (fun _ => 3) 1 /\ solves cl_sys [fun _ => true] (fun _ => 3) (fun _ => 0) /\ solves cl_sys' [fun _ => true] (fun _ => 3) (fun _ => 0) /\
  coincidence (s_n cl_sys) (s_doubles cl_sys) /\ imposed cl_sys (fun _ => 3) (fun _ => 3) (fun _ => 3) /\
  (forall c, merge (s_n cl_sys) (node_constraints cl_sys (fun _ => 3)) (s_hanging cl_sys) = Some c -> closes (s_n cl_sys) c (s_close cl_sys c)).
Proof.
  split; [exact cl_stable|].
  split; [exact (cl_sol cl_sys eq_refl eq_refl eq_refl eq_refl eq_refl eq_refl eq_refl cl_LN cl_LD)|].
  split; [exact (cl_sol cl_sys' eq_refl eq_refl eq_refl eq_refl eq_refl eq_refl eq_refl cl_LN' cl_LD')|].
  split; [exact cl_C4|]. split; [intros i Hi; reflexivity|]. intros; split; tauto.
Qed.
