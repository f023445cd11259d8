(** Property theorems C67: what the solution computed in FMM mode is for the equations of the Direct mode. *)
From Coq Require Import Reals List Bool Arith Lia Lra.
From Verif Require Import LibSum ModelOctree SpecOctree ModelFmm SpecFmm ModelFmmExp SpecFmmAcc ModelAssemble PropFmmAcc PropAssemble.
From Verif Require Import ProofsFmm ProofsFmmAcc PropFmm PropOctree.
From Verif Require Import ModelBem ProofsBem ModelBc ProofsBc PropBem ModelSolve SpecSolve ProofsSolve PropSolve PropNeumann.
Import ListNotations.
Local Open Scope R_scope.

(** One layer operator as multipole_matr_vect_products applies it (bem_problem.cc 1624-1628, 1673-1677, 1572-1578):
    each product may run on its own schedule ([sch]), see other undefined values ([junk]); entry [i] is computed by
    the process whose owned set is [own i]. *)
Definition fmm_layer (I : oin) (p : nat) (ly : layer) shape JxW (T : singular_rule)
  (own : nat -> nat -> bool) (sch : vec -> nat -> sched) (junk : vec -> nat -> R) : vec -> vec :=
  fun x i => fmm_product (code_eops I (octree I) p ly (junk x i)) I (octree I) (code_kern I ly shape JxW (singular_of I T)) x (own i) (sch x i) i.
(** The same operator in Direct mode: the assembled matrix (1614-1618). *)
Definition direct_layer (I : oin) (ly : layer) shape JxW (T : singular_rule) (own : nat -> nat -> bool) : vec -> vec :=
  fun x i => direct_vmult I (code_kern I ly shape JxW (singular_of I T)) T (own i) x i.
(** sum of the sizes of the charges a density puts on the quadrature points *)
Definition charge (I : oin) (ly : layer) shape JxW (T : singular_rule) (x : vec) : R :=
  suml (seq 0 (o_nq I)) (fun q => Rabs (density I (code_kern I ly shape JxW (singular_of I T)) x q)).

Lemma direct_product_add I K x y k i : direct_product I K (fun d => x d + y d) k i = direct_product I K x k i + direct_product I K y k i.
Proof.
  unfold direct_product. rewrite <- suml_plus. apply suml_ext. intros c _. destruct (is_singular I i c).
  - rewrite <- suml_plus. apply suml_ext. intros; ring.
  - rewrite <- suml_plus. apply suml_ext. intros q _. unfold density. rewrite <- Rmult_plus_distr_l, <- suml_plus. f_equal. apply suml_ext. intros; ring.
Qed.
Lemma direct_product_scal I K s x k i : direct_product I K (fun d => s * x d) k i = s * direct_product I K x k i.
Proof.
  unfold direct_product. rewrite <- suml_scal. apply suml_ext. intros c _. destruct (is_singular I i c).
  - rewrite <- suml_scal. apply suml_ext. intros; ring.
  - rewrite <- suml_scal. apply suml_ext. intros q _. unfold density.
    replace (s * (k q * suml (dof_list I (cell_of I q)) (fun jd => shp K q (fst jd) * jxw K q * x (snd jd))))
      with (k q * (s * suml (dof_list I (cell_of I q)) (fun jd => shp K q (fst jd) * jxw K q * x (snd jd)))) by ring.
    f_equal. rewrite <- suml_scal. apply suml_ext. intros; ring.
Qed.
Lemma direct_product_ext I K x y k i : wf_in I -> (0 < o_nqc I)%nat -> (forall d, (d < o_nd I)%nat -> x d = y d) -> direct_product I K x k i = direct_product I K y k i.
Proof.
  intros W Hq E. unfold direct_product.
  assert (D : forall c jd, (c < o_nc I)%nat -> In jd (dof_list I c) -> x (snd jd) = y (snd jd)).
  { intros c [j d] Hc Hj. apply E. unfold dof_list in Hj. apply in_combine_r in Hj. cbn. apply W in Hj; auto. }
  apply suml_ext. intros c Hc. apply in_seq in Hc. destruct (is_singular I i c).
  - apply suml_ext. intros jd Hj. rewrite (D c jd); auto. lia.
  - apply suml_ext. intros q Hq'. apply (quads_cell_of I) in Hq'; [|lia]. destruct Hq' as (<- & _). unfold density. f_equal. apply suml_ext. intros jd Hj. rewrite (D (cell_of I q) jd); auto. lia.
Qed.

Section M.
  Variables (I : oin) (p : nat) (nrm : nat -> ModelExp.pt) (shape : nat -> nat -> R) (JxW : nat -> R).
  Variables (TN TD : singular_rule) (own : nat -> nat -> bool).
  Hypothesis W : wf_in I.
  Hypothesis Wq : (0 < o_nqc I)%nat.
  Hypothesis Lp : (p <= 10)%nat.
  Hypothesis Ho : forall i, (i < o_nd I)%nat -> own i i = true.

  Lemma fmm_layer_linear ly T sch junk : general_position I ly -> (forall x i, good_sched I (octree I) (sch x i)) ->
    linear_op (o_nd I) (fmm_layer I p ly shape JxW T own sch junk).
  Proof.
    intros GP GS. unfold fmm_layer. split; [|split].
    - intros x y i Hi. destruct (C59_fmm_product_is_a_fixed_matrix I p ly i W Wq Lp GP Hi) as (k & _ & E). cbv zeta in E. rewrite !E by auto. apply direct_product_add.
    - intros s x i Hi. destruct (C59_fmm_product_is_a_fixed_matrix I p ly i W Wq Lp GP Hi) as (k & _ & E). cbv zeta in E. rewrite !E by auto. apply direct_product_scal.
    - intros x y Exy i Hi. destruct (C59_fmm_product_is_a_fixed_matrix I p ly i W Wq Lp GP Hi) as (k & _ & E). cbv zeta in E. rewrite !E by auto. apply direct_product_ext; auto.
  Qed.
  Lemma layers_close ly T sch junk x i : general_position I ly -> (forall x i, good_sched I (octree I) (sch x i)) -> (i < o_nd I)%nat ->
    Rabs (fmm_layer I p ly shape JxW T own sch junk x i - direct_layer I ly shape JxW T own x i) <= far_error ly p (smallest_side I) * charge I ly shape JxW T x.
  Proof. intros GP GS Hi. apply (C60_direct_and_fmm_agree I p ly (junk x i) shape JxW T x (own i) (own i) (sch x i) i); auto. Qed.
End M.

(** Every exact solution of the FMM-mode system satisfies, at every equation node, the equation of the Direct mode up
    to the stated error; all other conditions (C65) hold exactly. *)
Theorem C67_fmm_solution_in_the_direct_equation :
  forall I p nrm shape JxW TN TD own schN schD junkN junkD S owns rhs phi0 dphi0 sol,
  wf_in I -> (0 < o_nqc I)%nat -> (p <= 10)%nat -> general_position I Single -> general_position I (Double nrm) ->
  (forall i, (i < o_nd I)%nat -> own i i = true) ->
  (forall x i, good_sched I (octree I) (schN x i)) -> (forall x i, good_sched I (octree I) (schD x i)) ->
  s_n S = o_nd I -> s_N S = fmm_layer I p (Double nrm) shape JxW TN own schN junkN -> s_D S = fmm_layer I p Single shape JxW TD own schD junkD ->
  s_have_dirichlet S = true -> coincidence (s_n S) (s_doubles S) -> partition (s_n S) owns -> imposed S rhs phi0 dphi0 ->
  (forall c, merge (s_n S) (node_constraints S rhs) (s_hanging S) = Some c -> closes (s_n S) c (s_close S c)) ->
  solves S owns rhs sol ->
  let phi := solved_phi S phi0 sol in let dphi := solved_dphi S dphi0 sol in
  let Nm := direct_layer I (Double nrm) shape JxW TN own in let Dm := direct_layer I Single shape JxW TD own in
  let cN := charge I (Double nrm) shape JxW TN in let cD := charge I Single shape JxW TD in
  (forall i, (i < s_n S)%nat -> equation_node S i ->
    Rabs (Nm phi i - phi i * Nm (fun _ => 1) i - Dm dphi i) <=
      far_error (Double nrm) p (smallest_side I) * (cN phi + Rabs (phi i) * cN (fun _ => 1)) + far_error Single p (smallest_side I) * cD dphi) /\
  discrete_problem S rhs phi dphi.
Proof.
  intros I p nrm shape JxW TN TD own schN schD junkN junkD S owns rhs phi0 dphi0 sol W Wq Lp G1 G2 Ho GN GD En EN ED Hh C HP Him Hcl Hs phi dphi Nm Dm cN cD.
  assert (LN : linear_op (s_n S) (s_N S)) by (rewrite En, EN; apply fmm_layer_linear; auto).
  assert (LD : linear_op (s_n S) (s_D S)) by (rewrite En, ED; apply fmm_layer_linear; auto).
  destruct (proj1 (C65_solve_system S owns rhs phi0 dphi0 sol Hh LN LD C HP Him Hcl) Hs) as (_ & P). fold phi dphi in P.
  split; [|exact P]. destruct P as (B & _). intros i Hi Ei. specialize (B i Hi Ei). unfold bie_row in B. rewrite EN, ED in B. rewrite En in Hi.
  assert (X1 := layers_close I p shape JxW own W Wq Lp Ho (Double nrm) TN schN junkN phi i G2 GN Hi).
  assert (X2 := layers_close I p shape JxW own W Wq Lp Ho (Double nrm) TN schN junkN (fun _ => 1) i G2 GN Hi).
  assert (X3 := layers_close I p shape JxW own W Wq Lp Ho Single TD schD junkD dphi i G1 GD Hi).
  fold Nm Dm cN cD in X1, X2, X3. fold cN in X1, X2. fold cD in X3.
  set (a := fmm_layer I p (Double nrm) shape JxW TN own schN junkN phi i) in *.
  set (b := fmm_layer I p (Double nrm) shape JxW TN own schN junkN (fun _ => 1) i) in *.
  set (d := fmm_layer I p Single shape JxW TD own schD junkD dphi i) in *.
  replace (Nm phi i - phi i * Nm (fun _ => 1) i - Dm dphi i) with (- (a - Nm phi i) + (phi i * (b - Nm (fun _ => 1) i) + (d - Dm dphi i))) by lra.
  eapply Rle_trans; [apply Rabs_triang|]. rewrite Rabs_Ropp.
  assert (Y : Rabs (phi i * (b - Nm (fun _ => 1) i) + (d - Dm dphi i)) <= Rabs (phi i) * (far_error (Double nrm) p (smallest_side I) * cN (fun _ => 1)) + far_error Single p (smallest_side I) * cD dphi).
  { eapply Rle_trans; [apply Rabs_triang|]. apply Rplus_le_compat; auto. rewrite Rabs_mult. apply Rmult_le_compat_l; auto. apply Rabs_pos. }
  lra.
Qed.

(** The hypotheses are met: constant potential 3 imposed on the whole boundary of the example of C59, order 3. *)
Definition fex_nrm : nat -> ModelExp.pt := fun _ => ModelExp.Pt 1 0 0.
Definition fex_sys : system := {|
  s_n := o_nd ex_oin; s_direct := false;
  s_N := fmm_layer ex_oin 3 (Double fex_nrm) (fun _ _ => 1) (fun _ => 1) (ex_rule 2) (fun _ _ => true) (fun _ _ => seq_sched ex_oin) (fun _ _ => 0);
  s_D := fmm_layer ex_oin 3 Single (fun _ _ => 1) (fun _ => 1) (ex_rule 3) (fun _ _ => true) (fun _ _ => seq_sched ex_oin) (fun _ _ => 0);
  s_dir := fun _ => true; s_have_dirichlet := true; s_doubles := fun i => [i]; s_normal := fun _ _ => 0; s_sgrad := fun _ _ _ => 0;
  s_cont := false; s_hanging := fun _ => None; s_close := fun c => c |}.
Example C67_nonvacuous :
  wf_in ex_oin /\ (0 < o_nqc ex_oin)%nat /\ general_position ex_oin Single /\ general_position ex_oin (Double fex_nrm) /\
  good_sched ex_oin (octree ex_oin) (seq_sched ex_oin) /\ (0 < s_n fex_sys)%nat /\ coincidence (s_n fex_sys) (s_doubles fex_sys) /\
  partition (s_n fex_sys) [fun _ => true] /\ imposed fex_sys (fun _ => 3) (fun _ => 3) (fun _ => 3) /\
  (forall c, merge (s_n fex_sys) (node_constraints fex_sys (fun _ => 3)) (s_hanging fex_sys) = Some c -> closes (s_n fex_sys) c (s_close fex_sys c)) /\
  solves fex_sys [fun _ => true] (fun _ => 3) (fun _ => 0).
Proof.
  destruct C60_agreement_met as (W & Wq & G1 & GS).
  assert (G2 : general_position ex_oin (Double fex_nrm)) by (apply C59_general_position_met; intros n E; injection E as <-; reflexivity).
  assert (C : coincidence (s_n fex_sys) (s_doubles fex_sys)).
  { split; [|split]; cbn; [intros; auto|intros i j Hi [<-|[]]; auto|intros; repeat constructor; auto]. }
  assert (P : partition (s_n fex_sys) [fun _ => true]) by (intros i Hi; reflexivity).
  assert (Im : imposed fex_sys (fun _ => 3) (fun _ => 3) (fun _ => 3)) by (intros i Hi; reflexivity).
  assert (Cl : forall c, merge (s_n fex_sys) (node_constraints fex_sys (fun _ => 3)) (s_hanging fex_sys) = Some c -> closes (s_n fex_sys) c (s_close fex_sys c)) by (intros; split; tauto).
  assert (LN : linear_op (s_n fex_sys) (s_N fex_sys)) by (apply fmm_layer_linear; auto; lia).
  assert (LD : linear_op (s_n fex_sys) (s_D fex_sys)) by (apply fmm_layer_linear; auto; lia).
  do 5 (split; [assumption|]). split; [cbn; lia|]. do 4 (split; [assumption|]).
  apply (C65_solve_system fex_sys _ _ (fun _ => 3) (fun _ => 3) _ eq_refl LN LD C P Im Cl).
  assert (At : forall i, solved_phi fex_sys (fun _ => 3) (fun _ => 0) i = 3 /\ solved_dphi fex_sys (fun _ => 3) (fun _ => 0) i = 0)
    by (intros i; exact (solved_at fex_sys (fun _ => 3) (fun _ => 3) (fun _ => 0) i)).
  split; [discriminate|]. unfold discrete_problem, discrete_problem_with. split; [|split; [|split; [|split; [|split]]]]; try discriminate.
  - intros i Hi _. unfold bie_row.
    rewrite (lin_comb _ _ (fun _ => 1) (fun _ => 1) (solved_phi fex_sys (fun _ => 3) (fun _ => 0)) 3 0 i LN Hi) by (intros; rewrite (proj1 (At _)); lra).
    rewrite (lin_comb _ _ (fun _ => 1) (fun _ => 1) (solved_dphi fex_sys (fun _ => 3) (fun _ => 0)) 0 0 i LD Hi) by (intros; rewrite (proj2 (At _)); lra).
    rewrite (proj1 (At i)). lra.
  - intros i f post Hi N. specialize (N i (or_introl eq_refl)). discriminate.
Qed.
