(** * Units and placement of the mesh in FMM mode (C76). *)
From Coq Require Import QArith Qabs Qreals Qminmax Reals ZArith List Lia Lra Arith Bool.
From Verif Require Import LibSum ModelOctree SpecOctree ModelFmm SpecFmm PropOctree PropFmm ModelFmmExp SpecFmmAcc ProofsFmmCover ProofsFmmFar ProofsOctFacts ProofsOctGeom ProofsOctMore ProofsFmmGeo ProofsFmmAcc ProofsSmall ProofsScale.
From Verif Require ModelExp PropFmmAcc.
Import ListNotations.
Local Open Scope nat_scope.

(** ** C76 *)
(** The tree does not depend on the unit: the same blocks with the same parents, children, nodes and quadrature
    points; corners and sides are multiplied by the factor.  Holds whatever the rounding, if rounding commutes with the
    factor (exact arithmetic; powers of two in floating point). *)
Theorem C76_tree_is_scale_free : forall s I I', scaled_input s I I' ->
  num_blocks (octree I') = num_blocks (octree I) /\ st_childless (octree I') = st_childless (octree I) /\
  (forall k, k < num_blocks (octree I) -> let b := blk (octree I) k in let b' := blk (octree I') k in
     b_level b' = b_level b /\ b_parent b' = b_parent b /\ b_kids b' = b_kids b /\ b_nodes b' = b_nodes b /\ b_quads b' = b_quads b /\
     (forall a, a < 3 -> (axis a (b_min b') == s * axis a (b_min b))%Q) /\ (b_delta b' == s * b_delta b)%Q) /\
  (forall d, st_dtb (octree I') d = st_dtb (octree I) d) /\ (forall q, st_qtb (octree I') q = st_qtb (octree I) q).
Proof.
  intros s I I' SI. destruct (octree_scaled s I I' SI) as (B & Qt & Dt & E1 & E2 & E3 & E4 & E5 & E6).
  split; [symmetry; apply (F2_length _ _ _ B)|]. split; [exact E2|]. split; [|split; auto].
  intros k Hk b b'. destruct (getb_scaled s _ _ k B) as (G1 & G2 & G3 & G4 & G5 & (G6 & G7 & G8) & G9). unfold b, b', blk. repeat split; auto.
  intros a Ha. destruct a as [|[|[|a]]]; cbn [axis]; auto; lia.
Qed.

(** The interaction lists do depend on it, because the tolerance of the neighbour tests is the absolute length 1/1000:
    a mesh with all coordinates below 4/10000 has no far field at all, however fine it is. *)
Theorem C76_small_meshes_have_no_far_field : forall I e, wf_in I -> rounding_within I e ->
  ((24 # 10) * max_coord I + (2 * inject_Z (Z.of_nat (o_N I)) + 5) * e <= 1 # 1000)%Q ->
  (forall k s, 0 < k < num_blocks (octree I) -> s < near_levels I (octree I) k -> nonint_list I (octree I) k s = []) /\
  (forall i q, i < o_nd I -> q < o_nq I -> exists b, In b (st_childless (octree I)) /\ In i (b_nodes (blk (octree I) b)) /\ ways I (octree I) i q = [Near b]).
Proof. intros I e W RE Sm. split; [intros k s; apply (no_far I W e RE Sm)|]. intros i q. apply (all_ways_near I W e RE Sm). Qed.

Local Open Scope R_scope.
(** no expansion used: the FMM product is the direct one, to the last digit *)
Lemma direct_if_near I p ly junk K phi owned s i : wf_in I -> (0 < o_nqc I)%nat -> (p <= 10)%nat -> general_position I ly -> kd K = code_kernel I ly ->
  good_sched I (octree I) s -> (i < o_nd I)%nat -> owned i = true ->
  (forall q w, (q < o_nq I)%nat -> In w (ways I (octree I) i q) -> exists b, w = Near b \/ w = Big b) ->
  fmm_product (code_eops I (octree I) p ly junk) I (octree I) K phi owned s i = direct_product I K phi (code_kernel I ly i) i.
Proof.
  intros W Wq Lp GP EK Hs Hi Ho Hw. destruct (leaf_of_node I W i Hi) as (b & Hb & Hib). destruct (parts I ly GP) as (P0 & P1). assert (RX : exact_arithmetic I) by (destruct GP as (_ & _ & _ & _ & _ & RX); exact RX).
  rewrite (code_product I W p Lp ly junk); auto.
  - rewrite (C40_exact_expansions_give_the_direct_product I (gf I p ly) K phi owned s i b (leafq I)); auto.
    + rewrite EK. reflexivity.
    + apply gf_lin.
    + intros q Lq. apply (leafq_facts I W); auto.
    + intros q w Hq Iw. destruct (Hw q w Hq Iw) as (b' & [-> | ->]); reflexivity.
  - apply (normal_ok I ly GP).
  - intros b' q Hb' Hq'. destruct GP as (_ & G2 & _). specialize (G2 b' q Hb' Hq'). unfold cen. rewrite center_centre. exact G2.
  - intros b' j Hb' Hj'. destruct GP as (_ & _ & G3 & _). specialize (G3 b' j Hb' Hj'). unfold cen. rewrite center_centre. exact G3.
Qed.
Theorem C76_small_meshes_get_the_direct_product : forall I p ly junk shape JxW singular phi owned s i, let K := code_kern I ly shape JxW singular in
  wf_in I -> (0 < o_nqc I)%nat -> (p <= 10)%nat -> general_position I ly -> ((24 # 10) * max_coord I <= 1 # 1000)%Q ->
  good_sched I (octree I) s -> (i < o_nd I)%nat -> owned i = true ->
  fmm_product (code_eops I (octree I) p ly junk) I (octree I) K phi owned s i = direct_product I K phi (code_kernel I ly i) i.
Proof.
  intros I p ly junk shape JxW singular phi owned s i K W Wq Lp GP Sm Hs Hi Ho. assert (RX : exact_arithmetic I) by (destruct GP as (_ & _ & _ & _ & _ & RX); exact RX).
  apply direct_if_near; auto. intros q w Hq Iw.
  destruct (C76_small_meshes_have_no_far_field I 0 W (exact_rounding I RX)) as (_ & F); [rewrite Qmult_0_r, Qplus_0_r; exact Sm|].
  destruct (F i q Hi Hq) as (b & _ & _ & E). rewrite E in Iw. destruct Iw as [<-|[]]. exists b. auto.
Qed.
(** And they depend on the placement, because the root box is centred at the origin: pairs closer, along every axis,
    than the side of the finest boxes, 2.2 * max_coord / 2^num_octree_levels, are never treated by an expansion ... *)
Theorem C76_expansions_only_beyond_the_finest_side : forall I i q w, wf_in I -> exact_arithmetic I -> (forall k, (k < o_nq I)%nat -> inside (o_qpos I k) (blk (octree I) 0)) ->
  In w (ways I (octree I) i q) -> (forall b, w <> Near b /\ w <> Big b) ->
  exists a, (a < 3)%nat /\ 22 / 10 * Q2R (max_coord I) / 2 ^ o_N I <= Rabs (Q2R (axis a (o_pos I i)) - Q2R (axis a (o_qpos I q))).
Proof.
  intros I i q w W RX HR Iw Nw.
  assert (Rs : Q2R (b_delta (blk (octree I) 0)) = 22 / 10 * Q2R (max_coord I)).
  { unfold blk. rewrite (proj2 (root_fields I W)). unfold root_block. cbn [b_delta].
    rewrite (Qeq_eqR _ ((22 # 10) * max_coord I)) by (eapply Qeq_trans; [apply RX|]; apply Qmult_comp; [apply RX|reflexivity]). rewrite Q2R_mult. unfold Q2R at 1. simpl. lra. }
  assert (SL : forall k, (k < num_blocks (octree I))%nat -> 22 / 10 * Q2R (max_coord I) / 2 ^ o_N I <= Q2R (b_delta (blk (octree I) k))).
  { intros k Hk. assert (S := side_least I W RX k Hk). unfold least_side, root_side, side in S. unfold blk in Rs. rewrite Rs in S. exact S. }
  assert (G : exists b c g, (b < num_blocks (octree I))%nat /\ (c < num_blocks (octree I))%nat /\ In i (b_nodes (blk (octree I) b)) /\ In q (b_quads (blk (octree I) c)) /\ 22 / 10 * Q2R (max_coord I) / 2 ^ o_N I <= Q2R g /\ gap g (blk (octree I) b) (blk (octree I) c)).
  { destruct w as [b|b|b c|b c]; [destruct (Nw b) as (N1 & _); congruence|destruct (Nw b) as (_ & N1); congruence| |].
    - apply (m2l_facts I W RX) in Iw. destruct Iw as (F1 & F2 & F3 & F4 & F5 & F6 & F7). exists b, c, (b_delta (blk (octree I) b)). unfold blk in *. auto 10.
    - apply (meval_facts I W RX) in Iw. destruct Iw as (F1 & F2 & F3 & F4 & F5 & F6 & F7). exists b, c, (b_delta (blk (octree I) c)). unfold blk in *. auto 10. }
  destruct G as (b & c & g & Hb & Hc & Hi & Hq & Lg & a & Ha & G). exists a. split; auto. eapply Rle_trans; [exact Lg|].
  destruct (C33_nodes_lie_in_their_block I b i W RX Hb Hi a Ha) as (N1 & N2). destruct (C33_quadrature_points_lie_in_their_block I c q W RX Hc HR Hq a Ha) as (Q1 & Q2).
  apply Qle_Rle in N1, N2, Q1, Q2. rewrite Q2R_plus in N2, Q2.
  destruct G as [G|G]; apply Qle_Rle in G; rewrite !Q2R_plus in G; unfold Rabs; destruct (Rcase_abs _); lra.
Qed.
(** ... so a mesh that is small against its distance from the origin gets the direct product. *)
Theorem C76_distant_meshes_get_the_direct_product : forall I p ly junk shape JxW singular phi owned s i, let K := code_kern I ly shape JxW singular in
  wf_in I -> (0 < o_nqc I)%nat -> (p <= 10)%nat -> general_position I ly -> 
  (forall q a, (q < o_nq I)%nat -> (a < 3)%nat -> Rabs (Q2R (axis a (o_pos I i)) - Q2R (axis a (o_qpos I q))) < 22 / 10 * Q2R (max_coord I) / 2 ^ o_N I) ->
  good_sched I (octree I) s -> (i < o_nd I)%nat -> owned i = true ->
  fmm_product (code_eops I (octree I) p ly junk) I (octree I) K phi owned s i = direct_product I K phi (code_kernel I ly i) i.
Proof.
  intros I p ly junk shape JxW singular phi owned s i K W Wq Lp GP Sm Hs Hi Ho. assert (RX : exact_arithmetic I) by (destruct GP as (_ & _ & _ & _ & _ & RX); exact RX).
  apply direct_if_near; auto. intros q w Hq Iw.
  assert (D : (exists b, w = Near b \/ w = Big b) \/ forall b, w <> Near b /\ w <> Big b).
  { destruct w as [b|b|b c|b c]; [left; exists b; auto|left; exists b; auto|right; split; discriminate|right; split; discriminate]. }
  destruct D as [D|D]; [exact D|exfalso].
  destruct (C76_expansions_only_beyond_the_finest_side I i q w W RX (proj1 GP) Iw D) as (a & Ha & L). specialize (Sm q a Hq Ha). lra.
Qed.

(** ** Concrete cases *)
Local Open Scope nat_scope.
(** the mesh of [ex_oin] multiplied by s and displaced by t along the x axis *)
Definition placed (s t : Q) : oin := {|
  o_N := 3; o_max := 1; o_nd := 4;
  o_pos := fun d => let p := o_pos ex_oin d in mkpt (s * px p + t)%Q (s * py p)%Q (s * pz p)%Q;
  o_nc := 2; o_nqc := 1;
  o_qpos := fun q => let p := o_qpos ex_oin q in mkpt (s * px p + t)%Q (s * py p)%Q (s * pz p)%Q;
  o_dbl := fun d => [d]; o_cdofs := fun c => [2 * c; 2 * c + 1]; o_rnd := fun x => x; o_old := fun _ => [] |}.
Example C76_placed_scaled : forall s, (0 < s)%Q -> scaled_input s ex_oin (placed s 0).
Proof.
  intros s Hs. constructor; auto; cbn; try reflexivity; try (intros; reflexivity); try (intros x; reflexivity).
  - intros i. unfold pt_scaled. cbn. repeat split; ring.
  - intros i. unfold pt_scaled. cbn. repeat split; ring.
Qed.
(** the lists are not those of the mesh in other units or in another place, although the trees are the same *)
Theorem C76_lists_depend_on_the_unit_refuted : exists s I I' i q b c, scaled_input s I I' /\ wf_in I /\ wf_in I' /\ exact_arithmetic I /\ exact_arithmetic I' /\ i < o_nd I /\ q < o_nq I /\
  ways I (octree I) i q = [M2L b c] /\ exists b', ways I' (octree I') i q = [Near b'].
Proof.
  exists (1 # 10000)%Q, ex_oin, (placed (1 # 10000) 0), 0, 1, 3, 4. split; [apply C76_placed_scaled; reflexivity|]. split; [exact ex_oin_wf|].
  split; [repeat split; try (simpl; lia); intros; simpl in *; try (left; reflexivity); intuition (subst; try lia; auto)|].
  split; [intros x; reflexivity|]. split; [intros x; reflexivity|]. split; [cbn; lia|]. split; [cbn; lia|]. split; [vm_compute; reflexivity|]. eexists. vm_compute. reflexivity.
Qed.
Theorem C76_lists_depend_on_the_place_refuted : exists t I I' i q b c, wf_in I /\ wf_in I' /\ exact_arithmetic I /\ exact_arithmetic I' /\ i < o_nd I /\ q < o_nq I /\
  o_N I' = o_N I /\ o_max I' = o_max I /\ o_nd I' = o_nd I /\ o_nc I' = o_nc I /\ o_nqc I' = o_nqc I /\ (forall d, o_dbl I' d = o_dbl I d) /\ (forall k, o_cdofs I' k = o_cdofs I k) /\
  (forall d a, a < 3 -> (axis a (o_pos I' d) == axis a (o_pos I d) + axis a t)%Q) /\ (forall d a, a < 3 -> (axis a (o_qpos I' d) == axis a (o_qpos I d) + axis a t)%Q) /\
  ways I (octree I) i q = [M2L b c] /\ exists b', ways I' (octree I') i q = [Near b'].
Proof.
  exists (mkpt 1000 0 0), ex_oin, (placed 1 1000), 0, 1, 3, 4. split; [exact ex_oin_wf|].
  split; [repeat split; try (simpl; lia); intros; simpl in *; try (left; reflexivity); intuition (subst; try lia; auto)|].
  split; [intros x; reflexivity|]. split; [intros x; reflexivity|]. split; [cbn; lia|]. split; [cbn; lia|].
  split; [reflexivity|]. split; [reflexivity|]. split; [reflexivity|]. split; [reflexivity|]. split; [reflexivity|]. split; [reflexivity|]. split; [reflexivity|].
  split; [intros d a Ha; destruct a as [|[|[|a]]]; cbn [axis placed o_pos px py pz]; try lia; ring|].
  split; [intros d a Ha; destruct a as [|[|[|a]]]; cbn [axis placed o_qpos px py pz]; try lia; ring|].
  split; [vm_compute; reflexivity|]. eexists. vm_compute. reflexivity.
Qed.
Example C76_small_nonvacuous : rounding_within (placed (1 # 10000) 0) 0 /\ ((24 # 10) * max_coord (placed (1 # 10000) 0) + (2 * inject_Z (Z.of_nat 3) + 5) * 0 <= 1 # 1000)%Q /\
  num_blocks (octree (placed (1 # 10000) 0)) = 7.
Proof. split; [apply exact_rounding; intros x; reflexivity|]. split; [vm_compute; discriminate|vm_compute; reflexivity]. Qed.
Lemma small_position : general_position (placed (1 # 10000) 0) Single.
Proof.
  set (I := placed (1 # 10000) 0).
  assert (Q2 : forall q, (q < o_nq I)%nat -> q = 0%nat \/ q = 1%nat) by (intros q Lq; vm_compute in Lq; lia).
  assert (E : st_childless (octree I) = [5; 6]%nat) by (vm_compute; reflexivity).
  split; [|split; [|split; [|split; [|split]]]].
  - intros q Lq a La. destruct (Q2 q Lq) as [-> | ->]; destruct a as [|[|[|a]]]; try lia; vm_compute; split; discriminate.
  - intros b q Hb Hq. rewrite E in Hb. cbv zeta. apply PropFmmAcc.rpt_x.
    destruct Hb as [<-|[<-|[]]]; vm_compute in Hq; destruct Hq as [<-|[]]; vm_compute; discriminate.
  - intros b i Hb Hi. rewrite E in Hb. apply PropFmmAcc.rpt_x.
    destruct Hb as [<-|[<-|[]]]; vm_compute in Hi; destruct Hi as [<-|[<-|[]]]; vm_compute; discriminate.
  - exact Logic.I.
  - unfold smallest_side. assert (D : (b_delta (blk (octree I) 0) == 22 # 100000)%Q) by (vm_compute; reflexivity). rewrite (Qeq_eqR _ _ D). unfold Q2R. cbn. lra.
  - intros x. reflexivity.
Qed.
Lemma distant_position : general_position (placed 1 1000) Single /\ exists b, st_childless (octree (placed 1 1000)) = [b].
Proof.
  set (I := placed 1 1000).
  assert (Q2 : forall q, (q < o_nq I)%nat -> q = 0%nat \/ q = 1%nat) by (intros q Lq; vm_compute in Lq; lia).
  assert (E : exists b, st_childless (octree I) = [b]) by (eexists; vm_compute; reflexivity).
  split; [|exact E]. assert (E' : st_childless (octree I) = [3]%nat) by (vm_compute; reflexivity).
  split; [|split; [|split; [|split; [|split]]]].
  - intros q Lq a La. destruct (Q2 q Lq) as [-> | ->]; destruct a as [|[|[|a]]]; try lia; vm_compute; split; discriminate.
  - intros b q Hb Hq. rewrite E' in Hb. cbv zeta. apply PropFmmAcc.rpt_x.
    destruct Hb as [<-|[]]; vm_compute in Hq; destruct Hq as [<-|[<-|[]]]; vm_compute; discriminate.
  - intros b i Hb Hi. rewrite E' in Hb. apply PropFmmAcc.rpt_x.
    destruct Hb as [<-|[]]; vm_compute in Hi; destruct Hi as [<-|[<-|[<-|[<-|[]]]]]; vm_compute; discriminate.
  - exact Logic.I.
  - unfold smallest_side. assert (D : (b_delta (blk (octree I) 0) == (22 # 10) * 1001)%Q) by (vm_compute; reflexivity). rewrite (Qeq_eqR _ _ D). unfold Q2R. cbn. lra.
  - intros x. reflexivity.
Qed.
Example C76_products_nonvacuous :
  wf_in (placed (1 # 10000) 0) /\ general_position (placed (1 # 10000) 0) Single /\ ((24 # 10) * max_coord (placed (1 # 10000) 0) <= 1 # 1000)%Q /\
  wf_in (placed 1 1000) /\ general_position (placed 1 1000) Single /\
  forall i q a, i < 4 -> q < 2 -> a < 3 -> (Rabs (Q2R (axis a (o_pos (placed 1 1000) i)) - Q2R (axis a (o_qpos (placed 1 1000) q))) < 22 / 10 * Q2R (max_coord (placed 1 1000)) / 2 ^ 3)%R.
Proof.
  split; [repeat split; try (simpl; lia); intros; simpl in *; try (left; reflexivity); intuition (subst; try lia; auto)|].
  split; [exact small_position|]. split; [vm_compute; discriminate|].
  split; [repeat split; try (simpl; lia); intros; simpl in *; try (left; reflexivity); intuition (subst; try lia; auto)|].
  split; [apply distant_position|].
  intros i q a Hi Hq Ha. assert (M : (max_coord (placed 1 1000) == 1001)%Q) by (vm_compute; reflexivity). rewrite (Qeq_eqR _ _ M).
  rewrite <- Q2R_minus. apply Rabs_def1.
  - apply Rle_lt_trans with (Q2R 2); [apply Qle_Rle|unfold Q2R; cbn; lra].
    destruct i as [|[|[|[|i]]]]; try lia; destruct q as [|[|q]]; try lia; destruct a as [|[|[|a]]]; try lia; vm_compute; discriminate.
  - apply Rlt_le_trans with (Q2R (-2)); [unfold Q2R; cbn; lra|apply Qle_Rle].
    destruct i as [|[|[|[|i]]]]; try lia; destruct q as [|[|q]]; try lia; destruct a as [|[|[|a]]]; try lia; vm_compute; discriminate.
Qed.
