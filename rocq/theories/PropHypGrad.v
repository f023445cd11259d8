(** * C63: the second free term b; C64: gradients from the hypersingular equation. *)
From Coq Require Import Reals List Arith Bool Lia Lra Permutation.
From Coquelicot Require Import Coquelicot.
From Verif Require Import LibSum ModelKernel PropKernel.
From Verif Require ModelHyp SpecHyp PropHyp.
From Verif Require Import ModelHypGrad.
Import ListNotations.
Local Open Scope R_scope.

(** ** C63 *)
Section B.
Import ModelHyp.
(** contribution of all the cells that hold a node of the group of i *)
Definition b_total (M : hmesh) (d i : nat) : R :=
  suml (seq 0 (h_cells M)) (fun c => suml (seq 0 (length (h_dofs M c))) (fun il =>
    if in_dec Nat.eq_dec i (h_double M (nth il (h_dofs M c) 0%nat)) then comp (h_b M c il) d else 0)).
Theorem C63_free_term_is_the_sum_over_the_group M owner np b0 d i :
  (forall c il, (c < h_cells M)%nat -> (il < length (h_dofs M c))%nat -> (owner (nth il (h_dofs M c) 0%nat) < np)%nat) ->
  (forall g, NoDup (h_double M g)) -> b_vector M owner np b0 d i = b0 d i + b_total M d i.
Proof.
  intros O Nd. unfold b_vector, b_total, b_adds. f_equal.
  rewrite (suml_ext _ _ (fun me => suml (seq 0 (h_cells M)) (fun c => suml (seq 0 (length (h_dofs M c))) (fun il =>
    if Nat.eqb (owner (nth il (h_dofs M c) 0%nat)) me then (if in_dec Nat.eq_dec i (h_double M (nth il (h_dofs M c) 0%nat)) then comp (h_b M c il) d else 0) else 0)))).
  - rewrite suml_seq. rewrite <- (suml_seq np).
    assert (Sw : forall (A B : Type) (l : list A) (m : list B) f, suml l (fun a => suml m (fun b => f a b)) = suml m (fun b => suml l (fun a => f a b))).
    { clear. intros A B l m f. induction l as [|a l IH]; [symmetry; apply suml_zero; reflexivity|]. change (suml (a :: l) (fun a => suml m (fun b => f a b))) with (suml m (fun b => f a b) + suml l (fun a => suml m (fun b => f a b))). rewrite IH, <- suml_plus. reflexivity. }
    rewrite Sw. apply suml_ext. intros c Hc. apply in_seq in Hc. rewrite Sw. apply suml_ext. intros il Hl. apply in_seq in Hl.
    rewrite suml_seq, (sumn_single np (owner (nth il (h_dofs M c) 0%nat))); [rewrite Nat.eqb_refl; reflexivity|apply O; lia|]. intros me _ Ne. destruct (Nat.eqb_spec (owner (nth il (h_dofs M c) 0%nat)) me); [congruence|reflexivity].
  - intros me _. rewrite suml_flat_map. apply suml_ext. intros c _. rewrite suml_flat_map. apply suml_ext. intros il _. set (g := nth il (h_dofs M c) 0%nat). cbv zeta. destruct (Nat.eqb (owner g) me); [|reflexivity].
    rewrite suml_map. cbn [fst snd]. specialize (Nd g). generalize dependent (h_double M g). intros l Nd. induction l as [|x l IH]; [reflexivity|]. inversion Nd as [|? ? N1 N2]; subst.
    change (suml (x :: l) (fun x => if Nat.eqb x i then comp (h_b M c il) d else 0)) with ((if Nat.eqb x i then comp (h_b M c il) d else 0) + suml l (fun x => if Nat.eqb x i then comp (h_b M c il) d else 0)). rewrite IH by auto.
    destruct (Nat.eqb_spec x i) as [->|Ne].
    + destruct (in_dec Nat.eq_dec i l); [contradiction|]. destruct (in_dec Nat.eq_dec i (i :: l)) as [|N]; [ring|]. destruct N. left. auto.
    + destruct (in_dec Nat.eq_dec i l) as [Y|N]; destruct (in_dec Nat.eq_dec i (x :: l)) as [Y'|N']; try ring; [destruct N'; right; auto|]. destruct Y'; contradiction.
Qed.
Theorem C63_free_term_partition_independent M owner owner' np np' b0 d i :
  (forall c il, (c < h_cells M)%nat -> (il < length (h_dofs M c))%nat -> (owner (nth il (h_dofs M c) 0%nat) < np)%nat) ->
  (forall c il, (c < h_cells M)%nat -> (il < length (h_dofs M c))%nat -> (owner' (nth il (h_dofs M c) 0%nat) < np')%nat) ->
  (forall g, NoDup (h_double M g)) -> b_vector M owner np b0 d i = b_vector M owner' np' b0 d i.
Proof. intros O O' Nd. rewrite !C63_free_term_is_the_sum_over_the_group by auto. reflexivity. Qed.
Theorem C63_free_term_same_on_double_nodes M owner np b0 d i i' :
  (forall c il, (c < h_cells M)%nat -> (il < length (h_dofs M c))%nat -> (owner (nth il (h_dofs M c) 0%nat) < np)%nat) ->
  (forall g, NoDup (h_double M g)) -> (forall g, In i (h_double M g) <-> In i' (h_double M g)) -> b0 d i = b0 d i' ->
  b_vector M owner np b0 d i = b_vector M owner np b0 d i'.
Proof.
  intros O Nd S E. rewrite !C63_free_term_is_the_sum_over_the_group by auto. rewrite E. f_equal. unfold b_total. apply suml_ext. intros c _. apply suml_ext. intros il _.
  specialize (S (nth il (h_dofs M c) 0%nat)). destruct (in_dec Nat.eq_dec i _), (in_dec Nat.eq_dec i' _); tauto.
Qed.
(** finding: solve_system does not clear b; after k calls without reinit it is k times the free term *)
Fixpoint b_after (M : hmesh) (owner : nat -> nat) (np k : nat) : nat -> nat -> R :=
  match k with O => fun _ _ => 0 | S k => b_vector M owner np (b_after M owner np k) end.
Theorem C63_free_term_accumulates_over_solves M owner np k d i :
  (forall c il, (c < h_cells M)%nat -> (il < length (h_dofs M c))%nat -> (owner (nth il (h_dofs M c) 0%nat) < np)%nat) ->
  (forall g, NoDup (h_double M g)) -> b_after M owner np k d i = INR k * b_total M d i.
Proof.
  intros O Nd. induction k as [|k IH]; [cbn; ring|]. cbn [b_after]. rewrite C63_free_term_is_the_sum_over_the_group, IH by auto. rewrite S_INR. ring.
Qed.
Example C63_nonvacuous :
  (forall c il, (c < h_cells PropHyp.ex_hmesh)%nat -> (il < length (h_dofs PropHyp.ex_hmesh c))%nat -> (Nat.modulo (nth il (h_dofs PropHyp.ex_hmesh c) 0%nat) 2 < 2)%nat) /\
  (forall g, NoDup (h_double PropHyp.ex_hmesh g)) /\ b_after PropHyp.ex_hmesh (fun g => Nat.modulo g 2) 2 2 1 0 = 12.
Proof.
  assert (A : forall c il, (c < h_cells PropHyp.ex_hmesh)%nat -> (il < length (h_dofs PropHyp.ex_hmesh c))%nat -> (Nat.modulo (nth il (h_dofs PropHyp.ex_hmesh c) 0%nat) 2 < 2)%nat) by (intros; apply Nat.mod_upper_bound; lia).
  assert (B : forall g, NoDup (h_double PropHyp.ex_hmesh g)). { intros g. cbn [PropHyp.ex_hmesh h_double]. destruct (Nat.ltb g 3); repeat (constructor; [intros F; cbn [In] in F; repeat destruct F as [F|F]; try discriminate F; exact F|]); constructor. }
  split; [exact A|]. split; [exact B|]. rewrite (C63_free_term_accumulates_over_solves PropHyp.ex_hmesh (fun g => Nat.modulo g 2) 2 2 1 0 A B).
  unfold b_total, suml. cbn. lra.
Qed.
End B.

(** ** C64 *)
(** the singular cell rule applies at the first local node of the group *)
Theorem C64_singular_index_is_the_first G i c : match sing G i c with
  | Some s => (s < length (g_dofs G c))%nat /\ In (dof G c s) (g_double G i) /\ forall k, (k < s)%nat -> ~ In (dof G c k) (g_double G i)
  | None => forall k, (k < length (g_dofs G c))%nat -> ~ In (dof G c k) (g_double G i) end.
Proof.
  unfold sing. set (P := fun j => existsb (Nat.eqb (dof G c j)) (g_double G i)).
  assert (Sp : forall j, P j = true <-> In (dof G c j) (g_double G i)).
  { intros j. unfold P. rewrite existsb_exists. split; [intros (x & Hx & E); apply Nat.eqb_eq in E; rewrite E; auto|intros Hx; exists (dof G c j); split; auto; apply Nat.eqb_refl]. }
  assert (Q : forall n a, match find P (seq a n) with Some s => (a <= s < a + n)%nat /\ P s = true /\ forall k, (a <= k < s)%nat -> P k = false | None => forall k, (a <= k < a + n)%nat -> P k = false end).
  { induction n as [|n IH]; intros a; cbn [seq find]; [intros; lia|]. destruct (P a) eqn:E; [repeat split; auto; try lia; intros; lia|]. specialize (IH (S a)). destruct (find P (seq (S a) n)) as [s|].
    - destruct IH as (I1 & I2 & I3). repeat split; auto; try lia. intros k Hk. destruct (Nat.eq_dec k a) as [->|]; auto. apply I3. lia.
    - intros k Hk. destruct (Nat.eq_dec k a) as [->|]; auto. apply IH. lia. }
  specialize (Q (length (g_dofs G c)) 0%nat). destruct (find P _) as [s|].
  - destruct Q as (Q1 & Q2 & Q3). split; [lia|]. split; [apply Sp, Q2|]. intros k Hk X. apply Sp in X. rewrite Q3 in X by lia. discriminate.
  - intros k Hk X. apply Sp in X. rewrite Q in X by lia. discriminate.
Qed.
(** the computed gradient solves the vector equation of the node, C grad = integrals - b phi, whenever C is invertible *)
Theorem C64_gradient_solves_the_node_equation G C b phi dphi i : det (C i) <> 0 -> exists g, hyp_gradient G C b phi dphi i = Some g /\
  forall d, (d < 3)%nat -> suml (seq 0 3) (fun k => C i d k * g k) = integral G phi dphi i d - b i d * phi i.
Proof.
  intros D. unfold hyp_gradient, inv3. destruct (Req_EM_T (det (C i)) 0) as [E|_]; [contradiction|]. eexists. split; [reflexivity|]. intros d Hd.
  set (r := fun k => integral G phi dphi i k + - b i k * phi i). replace (integral G phi dphi i d - b i d * phi i) with (r d) by (unfold r; ring).
  unfold suml. cbn [seq fold_left fold_right nx]. change (integral G phi dphi i 0%nat + - b i 0%nat * phi i) with (r 0%nat). change (integral G phi dphi i 1%nat + - b i 1%nat * phi i) with (r 1%nat). change (integral G phi dphi i 2%nat + - b i 2%nat * phi i) with (r 2%nat).
  generalize dependent (C i). clearbody r. intros A D. destruct d as [|[|[|d]]]; try lia; unfold det in *; field; auto.
Qed.
Theorem C64_undefined_iff_C_singular G C b phi dphi i : hyp_gradient G C b phi dphi i = None <-> det (C i) = 0.
Proof. unfold hyp_gradient, inv3. destruct (Req_EM_T (det (C i)) 0); split; congruence. Qed.
(** linear in the data *)
Lemma integral_lin G a p p' dp dp' i d : integral G (fun k => p k + a * p' k) (fun k => dp k + a * dp' k) i d = integral G p dp i d + a * integral G p' dp' i d.
Proof.
  unfold integral. rewrite !fold_left_plus, !Rplus_0_l, <- suml_scal, <- suml_plus. apply suml_ext. intros c _. destruct (sing G i c) as [s|].
  - unfold singular_part. rewrite !fold_left_plus, !Rplus_0_l. rewrite Rmult_plus_distr_l, <- !suml_scal.
    match goal with |- ?A + ?B = ?X + ?Y + (?Z + ?W) => replace (X + Y + (Z + W)) with ((X + Z) + (Y + W)) by ring end. rewrite <- !suml_plus. apply suml_ext; intros; ring.
  - unfold regular_part.
    assert (N : forall (f : nat -> nat -> R) qs js a0, fold_left (fun a q => fold_left (fun a j => a + f q j) js a) qs a0 = a0 + suml qs (fun q => suml js (f q))).
    { clear. intros f qs js. induction qs as [|q qs IH]; intros a0; cbn [fold_left]; [unfold suml; cbn; ring|]. rewrite IH, fold_left_plus. change (suml (q :: qs) (fun q => suml js (f q))) with (suml js (f q) + suml qs (fun q => suml js (f q))). ring. }
    cbv zeta.
    rewrite (N (fun q j => - (p (dof G c j) + a * p' (dof G c j)) * Hn (fun k => g_q G c q k - g_x G i k) (g_n G c q) d * g_shape G c j q * g_jxw G c q + (dp (dof G c j) + a * dp' (dof G c j)) * kernelsH3_D (fun k => g_q G c q k - g_x G i k) d * g_shape G c j q * g_jxw G c q)).
    rewrite (N (fun q j => - p (dof G c j) * Hn (fun k => g_q G c q k - g_x G i k) (g_n G c q) d * g_shape G c j q * g_jxw G c q + dp (dof G c j) * kernelsH3_D (fun k => g_q G c q k - g_x G i k) d * g_shape G c j q * g_jxw G c q)).
    rewrite (N (fun q j => - p' (dof G c j) * Hn (fun k => g_q G c q k - g_x G i k) (g_n G c q) d * g_shape G c j q * g_jxw G c q + dp' (dof G c j) * kernelsH3_D (fun k => g_q G c q k - g_x G i k) d * g_shape G c j q * g_jxw G c q)).
    rewrite !Rplus_0_l, <- suml_scal, <- suml_plus. apply suml_ext. intros q _. rewrite <- suml_scal, <- suml_plus. apply suml_ext. intros j _. ring.
Qed.
Theorem C64_gradient_is_linear G C b a p p' dp dp' i g g' : hyp_gradient G C b p dp i = Some g -> hyp_gradient G C b p' dp' i = Some g' ->
  exists h, hyp_gradient G C b (fun k => p k + a * p' k) (fun k => dp k + a * dp' k) i = Some h /\ forall d, h d = g d + a * g' d.
Proof.
  unfold hyp_gradient. destruct (inv3 (C i)) as [Ci|]; [|discriminate]. intros E E'. injection E as E. injection E' as E'. eexists. split; [reflexivity|]. intros d. rewrite <- E, <- E'. cbn [seq fold_left]. rewrite !integral_lin. ring.
Qed.
(** on the cells away from the node the code sums the gradient, with respect to the node position, of the discrete
    representation formula used by the direct assembly: sum over the points of dphi/dn d(R) - phi D(R).n *)
Definition potential (G : hgrad) (phi dphi : nat -> R) (c : nat) (x : vec) : R :=
  suml (seq 0 (g_points G)) (fun q => let r : vec := fun k => g_q G c q k - x k in
    suml (seq 0 (length (g_dofs G c))) (fun j =>
      (dphi (dof G c j) * kernels3_d r - phi (dof G c j) * suml (seq 0 3) (fun k => kernels3_D r k * g_n G c q k)) * g_shape G c j q * g_jxw G c q)).
Lemma is_derive_suml {A} (l : list A) (f : A -> R -> R) (df : A -> R) t : (forall a, In a l -> is_derive (f a) t (df a)) -> is_derive (fun s => suml l (fun a => f a s)) t (suml l df).
Proof.
  induction l as [|a l IH]; intros D; [apply (is_derive_ext (fun _ => 0)); [reflexivity|apply is_derive_Reals, derivable_pt_lim_const]|].
  apply (is_derive_plus (f a) (fun s => suml l (fun a => f a s))); [apply D; left; auto|apply IH; intros; apply D; right; auto].
Qed.
Lemma kernel_shift (F : vec -> R) (y x : vec) d L : partial F d (fun k => y k - x k) L -> (forall v w, (forall k, v k = w k) -> F v = F w) ->
  is_derive (fun t => F (fun k => y k - upd x d t k)) (x d) (- L).
Proof.
  intros P E. unfold partial in P. replace (- L) with (scal (-1) L) by (unfold scal; cbn; unfold mult; cbn; ring).
  apply (is_derive_ext (fun t => F (upd (fun k => y k - x k) d (y d - t)))).
  - intros t. apply E. intros k. unfold upd. destruct (Nat.eqb_spec k d) as [->|]; reflexivity.
  - apply (is_derive_comp (fun u => F (upd (fun k => y k - x k) d u)) (fun t => y d - t)); [exact P|]. auto_derive; auto; ring.
Qed.
Lemma sign_all v k : kernels3_D v k = - kernelsH3_D v k.
Proof.
  unfold kernels3_D, kernelsH3_D. cbv zeta. set (r := norm 3 v). destruct (Req_dec r 0) as [->|N]; [unfold Rdiv; rewrite !Rmult_0_r, Rinv_0; ring|]. assert (P := PI_RGT_0). field. lra.
Qed.
Theorem C64_far_cells_differentiate_the_representation G phi dphi i c d : (d < 3)%nat ->
  (forall q, (q < g_points G)%nat -> nonzero 3 (fun k => g_q G c q k - g_x G i k)) ->
  partial (potential G phi dphi c) d (g_x G i) (regular_part G phi dphi i c d).
Proof.
  intros Hd Nz. unfold partial, potential.
  assert (N : regular_part G phi dphi i c d = suml (seq 0 (g_points G)) (fun q => suml (seq 0 (length (g_dofs G c))) (fun j =>
     - phi (dof G c j) * Hn (fun k => g_q G c q k - g_x G i k) (g_n G c q) d * g_shape G c j q * g_jxw G c q + dphi (dof G c j) * kernelsH3_D (fun k => g_q G c q k - g_x G i k) d * g_shape G c j q * g_jxw G c q))).
  { unfold regular_part. cbv zeta.
    assert (N : forall (f : nat -> nat -> R) qs js a0, fold_left (fun a q => fold_left (fun a j => a + f q j) js a) qs a0 = a0 + suml qs (fun q => suml js (f q))).
    { clear. intros f qs js. induction qs as [|q qs IH]; intros a0; cbn [fold_left]; [unfold suml; cbn; ring|]. rewrite IH, fold_left_plus. change (suml (q :: qs) (fun q => suml js (f q))) with (suml js (f q) + suml qs (fun q => suml js (f q))). ring. }
    rewrite (N (fun q j => - phi (dof G c j) * Hn (fun k => g_q G c q k - g_x G i k) (g_n G c q) d * g_shape G c j q * g_jxw G c q + dphi (dof G c j) * kernelsH3_D (fun k => g_q G c q k - g_x G i k) d * g_shape G c j q * g_jxw G c q)). apply Rplus_0_l. }
  rewrite N. apply (is_derive_suml (seq 0 (g_points G)) (fun q t => _)). intros q Hq. apply in_seq in Hq. cbv zeta. specialize (Nz q ltac:(lia)). set (r := fun k => g_q G c q k - g_x G i k) in *.
  assert (D1 : is_derive (fun t => kernels3_d (fun k => g_q G c q k - upd (g_x G i) d t k)) (g_x G i d) (kernelsH3_D r d)).
  { rewrite (proj1 (C13_three_output_kernel_has_opposite_sign_in_3d r d Nz)). apply kernel_shift; [apply (proj2 (C13_double_layer_is_the_gradient r)); auto|].
    intros v w E. unfold kernels3_d, norm, square. cbn. rewrite !E. reflexivity. }
  assert (D2 : forall k, (k < 3)%nat -> is_derive (fun t => kernels3_D (fun k => g_q G c q k - upd (g_x G i) d t k) k) (g_x G i d) (kernelsH3_H r k d)).
  { intros k Hk. replace (kernelsH3_H r k d) with (- - kernelsH3_H r k d) by ring. apply (kernel_shift (fun v => kernels3_D v k)).
    - unfold partial. assert (P := proj2 (C14_H_is_the_jacobian_of_D r k d) Nz Hk Hd). unfold partial in P.
      apply (is_derive_ext (fun t => - kernelsH3_D (upd r d t) k)); [intros t; symmetry; apply sign_all|].
      apply (is_derive_opp (fun t => kernelsH3_D (upd r d t) k)). exact P.
    - intros v w E. unfold kernels3_D, norm, square. cbn. rewrite !E. reflexivity. }
  apply (is_derive_suml (seq 0 (length (g_dofs G c))) (fun j t => _)). intros j _.
  set (A := dphi (dof G c j)). set (P := phi (dof G c j)). set (w := g_shape G c j q). set (J := g_jxw G c q).
  assert (D3 : is_derive (fun t => suml (seq 0 3) (fun k => kernels3_D (fun k => g_q G c q k - upd (g_x G i) d t k) k * g_n G c q k)) (g_x G i d) (suml (seq 0 3) (fun k => kernelsH3_H r k d * g_n G c q k))).
  { apply (is_derive_suml (seq 0 3) (fun k t => _)). intros k Hk. apply in_seq in Hk.
    apply (is_derive_ext (fun t => scal (g_n G c q k) (kernels3_D (fun k => g_q G c q k - upd (g_x G i) d t k) k))); [intros t; unfold scal; cbn; unfold mult; cbn; ring|].
    replace (kernelsH3_H r k d * g_n G c q k) with (scal (g_n G c q k) (kernelsH3_H r k d)) by (unfold scal; cbn; unfold mult; cbn; ring).
    apply (is_derive_scal (fun t => kernels3_D (fun k => g_q G c q k - upd (g_x G i) d t k) k)). apply D2. lia. }
  assert (Hs : Hn r (g_n G c q) d = suml (seq 0 3) (fun k => kernelsH3_H r k d * g_n G c q k)).
  { unfold Hn. rewrite fold_left_plus, Rplus_0_l. apply suml_ext. intros k _. rewrite (proj1 (proj2 (C14_symmetric_and_trace_free r)) d k). reflexivity. }
  rewrite Hs. set (S' := suml (seq 0 3) (fun k => kernelsH3_H r k d * g_n G c q k)) in *.
  replace (- P * S' * w * J + A * kernelsH3_D r d * w * J) with (w * J * (A * kernelsH3_D r d - P * S')) by ring.
  apply (is_derive_ext (fun t => w * J * (A * kernels3_d (fun k => g_q G c q k - upd (g_x G i) d t k) - P * suml (seq 0 3) (fun k => kernels3_D (fun k => g_q G c q k - upd (g_x G i) d t k) k * g_n G c q k)))); [intros t; match goal with |- @eq _ ?a ?b => change (@eq R a b) end; ring|].
  apply (is_derive_scal (fun t => A * kernels3_d (fun k => g_q G c q k - upd (g_x G i) d t k) - P * suml (seq 0 3) (fun k => kernels3_D (fun k => g_q G c q k - upd (g_x G i) d t k) k * g_n G c q k))).
  apply (is_derive_minus (fun t => A * kernels3_d (fun k => g_q G c q k - upd (g_x G i) d t k)) (fun t => P * suml (seq 0 3) (fun k => kernels3_D (fun k => g_q G c q k - upd (g_x G i) d t k) k * g_n G c q k))).
  - apply (is_derive_scal (fun t => kernels3_d (fun k => g_q G c q k - upd (g_x G i) d t k))). exact D1.
  - apply (is_derive_scal (fun t => suml (seq 0 3) (fun k => kernels3_D (fun k => g_q G c q k - upd (g_x G i) d t k) k * g_n G c q k))). exact D3.
Qed.

(** The whole equation of a node, cell by cell: the terms of a cell containing the node (or one at its place) are the
    singular integrals of that cell for the first such local index, the others differentiate the representation. *)
Theorem C64_node_equation_by_cells G C b phi dphi i : det (C i) <> 0 -> exists g, hyp_gradient G C b phi dphi i = Some g /\
  forall d, (d < 3)%nat -> exists t : nat -> R,
    suml (seq 0 3) (fun k => C i d k * g k) + b i d * phi i = suml (seq 0 (g_cells G)) t /\
    forall c, (c < g_cells G)%nat ->
      (forall s, (s < length (g_dofs G c))%nat -> In (nth s (g_dofs G c) 0%nat) (g_double G i) -> (forall k, (k < s)%nat -> ~ In (nth k (g_dofs G c) 0%nat) (g_double G i)) ->
        t c = suml (seq 0 (length (g_dofs G c))) (fun j => dphi (nth j (g_dofs G c) 0%nat) * g_W G c s j d - phi (nth j (g_dofs G c) 0%nat) * g_V G c s j d)) /\
      ((forall k, (k < length (g_dofs G c))%nat -> ~ In (nth k (g_dofs G c) 0%nat) (g_double G i)) ->
        (forall q, (q < g_points G)%nat -> nonzero 3 (fun k => g_q G c q k - g_x G i k)) -> partial (potential G phi dphi c) d (g_x G i) (t c)).
Proof.
  intros D. destruct (C64_gradient_solves_the_node_equation G C b phi dphi i D) as (g & E & S). exists g. split; auto. intros d Hd.
  exists (fun c => match sing G i c with Some s => singular_part G phi dphi c s d | None => regular_part G phi dphi i c d end). split.
  - rewrite (S d Hd). unfold integral. rewrite fold_left_plus, Rplus_0_l. ring.
  - intros c Hc. assert (X := C64_singular_index_is_the_first G i c). unfold dof in X. destruct (sing G i c) as [s0|].
    + destruct X as (A & B & F). split.
      * intros s P1 P2 P3. assert (s = s0) by (destruct (Nat.lt_trichotomy s s0) as [L|[L|L]]; auto; exfalso; [exact (F s L P2)|exact (P3 s0 L B)]). subst s0.
        unfold singular_part, dof. rewrite !fold_left_plus, !Rplus_0_l, <- suml_plus. apply suml_ext. intros; ring.
      * intros R. exfalso. exact (R s0 A B).
    + split; [intros s P1 P2 _; exfalso; exact (X s P1 P2)|]. intros _ Nz. apply C64_far_cells_differentiate_the_representation; auto.
Qed.

(** non-vacuity: one far cell with one point, smooth node *)
Definition ex_hgrad : hgrad := {|
  g_nodes := 2; g_cells := 2; g_points := 1; g_dofs := fun c => [c]; g_x := fun i k => if Nat.eqb i 0 then 0 else if Nat.eqb k 0 then 1 else 0;
  g_double := fun i => [i]; g_q := fun c _ k => if Nat.eqb k 0 then INR c else 0; g_n := fun _ _ k => if Nat.eqb k 2 then 1 else 0;
  g_jxw := fun _ _ => 1; g_shape := fun _ _ _ => 1; g_V := fun _ _ _ _ => 2; g_W := fun _ _ _ _ => 3 |}.
Example C64_nonvacuous : sing ex_hgrad 0 0 = Some 0%nat /\ sing ex_hgrad 0 1 = None /\ nonzero 3 (fun k => g_q ex_hgrad 1 0 k - g_x ex_hgrad 0 k) /\
  (det (fun i j => if Nat.eqb i j then 1 / 2 else 0) <> 0) /\
  exists g, hyp_gradient ex_hgrad (fun _ i j => if Nat.eqb i j then 1 / 2 else 0) (fun _ _ => 0) (fun i => if Nat.eqb i 0 then 1 else 0) (fun _ => 0) 0 = Some g /\ g 0%nat = -4.
Proof.
  split; [reflexivity|]. split; [reflexivity|]. split; [exists 0%nat; split; [lia|cbn; lra]|]. split; [unfold det; cbn; lra|].
  destruct (C64_gradient_solves_the_node_equation ex_hgrad (fun _ i j => if Nat.eqb i j then 1 / 2 else 0) (fun _ _ => 0) (fun i => if Nat.eqb i 0 then 1 else 0) (fun _ => 0) 0) as (g & E & S); [unfold det; cbn; lra|].
  exists g. split; auto. specialize (S 0%nat ltac:(lia)). unfold suml in S. cbn in S. unfold integral, regular_part, singular_part, Hn in S. cbn in S. lra.
Qed.
