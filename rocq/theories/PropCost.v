(** * Work of a fast product (C77). *)
From Coq Require Import QArith Qabs Qminmax ZArith List Lia Arith Bool Lqa.
From Verif Require Import ModelOctree SpecOctree ModelFmm SpecWorkload ProofsOctTree ProofsOctFacts ProofsOctLists ProofsFmmCover ProofsFmmFar ProofsOctGeom ProofsOctMore ProofsSmall ProofsWorkload PropOctree PropFmm PropUnitsFmm.
Import ListNotations.
Local Open Scope nat_scope.

(** ** C77 *)
Lemma exact_grid I a k : wf_in I -> exact_arithmetic I -> k < num_blocks (octree I) -> (axis a (b_min (blk (octree I) k)) == gx I a (X I a k))%Q /\
  (axis a (b_min (blk (octree I) k)) + b_delta (blk (octree I) k) == gx I a (X I a k + wid I k))%Q.
Proof.
  intros W RX Hk. assert (RE := exact_rounding I RX). assert (P := pos_grid I W 0 RE a k Hk). assert (T := top_grid I W 0 RE a k Hk).
  assert (Z : (lq I 0 k == 0)%Q) by (unfold lq; ring). rewrite Z in P, T. change axis with co. unfold blk. split; lra.
Qed.
Lemma touch_grid I k j : wf_in I -> exact_arithmetic I -> (0 < finest_side I)%Q -> k < num_blocks (octree I) -> j < num_blocks (octree I) ->
  (boxes_touch (blk (octree I) k) (blk (octree I) j) <-> gmeet I k j).
Proof.
  intros W RX Hp Hk Hj. assert (RE := exact_rounding I RX).
  assert (Es : (finest_side I == hgrid I)%Q) by (unfold finest_side, blk; rewrite (proj2 (root_fields I W)); unfold hgrid, wz; rewrite Nat.sub_0_r; reflexivity).
  assert (Gn : forall a x y, (x < y)%Z -> (gx I a x < gx I a y)%Q).
  { intros a x y L. assert (G := gx_le I 0 RE a (x + 1) y ltac:(lia)). rewrite (gx_add I) in G. change (inject_Z 1) with 1%Q in G. lra. }
  unfold boxes_touch, gmeet. split; intros M a Ha; destruct (M a Ha) as (M1 & M2); destruct (exact_grid I a k W RX Hk) as (E1 & E2); destruct (exact_grid I a j W RX Hj) as (E3 & E4).
  - rewrite E1, E4 in M1. rewrite E2, E3 in M2. split.
    + destruct (Z_le_gt_dec (X I a k) (X I a j + wid I j)) as [|G]; auto. assert (Y := Gn a (X I a j + wid I j)%Z (X I a k) ltac:(lia)). lra.
    + destruct (Z_le_gt_dec (X I a j) (X I a k + wid I k)) as [|G]; auto. assert (Y := Gn a (X I a k + wid I k)%Z (X I a j) ltac:(lia)). lra.
  - assert (G1 := gx_le I 0 RE a _ _ M1). assert (G2 := gx_le I 0 RE a _ _ M2). split; lra.
Qed.
(** The neighbour list of a block at the s-th sublevel: the blocks of that cut of the tree whose boxes touch it, if the
    finest boxes are larger than the tolerance. *)
Theorem C77_neighbours_are_the_touching_blocks : forall I k s j, wf_in I -> exact_arithmetic I -> finer_than_tolerance I 0 ->
  0 < k < num_blocks (octree I) -> s < near_levels I (octree I) k ->
  (In j (near I (octree I) k s) <-> In j (cut (octree I) (b_level (blk (octree I) k) + s)) /\ boxes_touch (blk (octree I) k) (blk (octree I) j)).
Proof.
  intros I k s j W RX Sd Hk Hs. rewrite cut_front. rewrite (near_exact I W 0 (exact_rounding I RX) Sd k s j Hk Hs).
  assert (P : (0 < finest_side I)%Q) by (unfold finer_than_tolerance in Sd; lra).
  split; intros (F & M); split; auto; apply (touch_grid I k j W RX P); auto; try lia; apply F.
Qed.
(** The interaction list is the same set if, besides, the cells are shorter than the finest boxes. *)
Theorem C77_interactions_are_the_touching_blocks : forall I k s j, wf_in I -> exact_arithmetic I -> finer_than_tolerance I 0 ->
  quads_in_root I -> cells_shorter_than I (finest_side I) -> 0 < k < num_blocks (octree I) -> s < near_levels I (octree I) k ->
  (In j (int_list I (octree I) k s) <-> In j (cut (octree I) (b_level (blk (octree I) k) + s)) /\ boxes_touch (blk (octree I) k) (blk (octree I) j)).
Proof.
  intros I k s j W RX Sd QR Fit Hk Hs. rewrite cut_front.
  assert (Fit' : cells_shorter_than I (finest_side I - 3 * inject_Z (Z.of_nat (o_N I)) * 0)%Q).
  { intros n c q a H1 H2 H3 H4 H5 H6. assert (Y := Fit n c q a H1 H2 H3 H4 H5 H6). rewrite Qmult_0_r. unfold Qminus. rewrite Qplus_0_r. exact Y. }
  rewrite (int_exact I W 0 (exact_rounding I RX) Sd QR Fit' k s j Hk Hs).
  assert (P : (0 < finest_side I)%Q) by (unfold finer_than_tolerance in Sd; lra).
  split; intros (F & M); split; auto; apply (touch_grid I k j W RX P); auto; try lia; apply F.
Qed.

(** A fast product goes through a bounded number of pairs per block, rounding included: *)
Definition regular_tree (I : oin) (e : Q) : Prop :=
  wf_in I /\ rounding_within I e /\ finer_than_tolerance I e /\ quads_in_root I /\ cells_shorter_than I (finest_side I - 3 * inject_Z (Z.of_nat (o_N I)) * e)%Q.
(** at most 189 conversions into one block, 27 larger blocks integrated directly for one block, *)
Theorem C77_pairs_per_target : forall I e b, regular_tree I e -> b < num_blocks (octree I) ->
  length (filter (fun p => Nat.eqb (fst p) b) (m2l_pairs I)) <= 189 /\
  length (filter (fun p => Nat.eqb (fst p) b) (bigger_pairs I)) <= 27.
Proof.
  intros I e b (W & RE & Sd & QR & Fit) Hb. split.
  - apply fiber_first; [apply (over_nodup I W e RE Sd QR Fit (t_same I))|]. intros L ND HL. apply (m2l_per_block I W e RE Sd QR Fit b); auto.
  - apply fiber_first; [apply (over_nodup I W e RE Sd QR Fit (t_big I))|]. intros L ND HL. apply (bigger_per_block I W e RE Sd QR Fit b); auto.
Qed.
(** 27 evaluations of the expansion of one block, *)
Theorem C77_evaluations_per_source : forall I e c, regular_tree I e -> c < num_blocks (octree I) ->
  length (filter (fun p => Nat.eqb (snd p) c) (evaluation_pairs I)) <= 27.
Proof.
  intros I e c (W & RE & Sd & QR & Fit) Hc. apply fiber_second; [apply (over_nodup I W e RE Sd QR Fit (t_small I))|]. intros L ND HL. apply (evaluation_per_block I W e RE Sd QR Fit c); auto.
Qed.
(** in all at most 297 pairs for each block, no pair twice, *)
Theorem C77_work_is_linear_in_the_blocks : forall I e, regular_tree I e ->
  length (m2l_pairs I) <= 189 * num_blocks (octree I) /\ length (evaluation_pairs I) <= 27 * num_blocks (octree I) /\
  length (bigger_pairs I) <= 27 * num_blocks (octree I) /\ length (near_pairs I) <= 54 * num_blocks (octree I) /\
  block_pairs I <= 297 * num_blocks (octree I) /\
  NoDup (m2l_pairs I) /\ NoDup (evaluation_pairs I) /\ NoDup (bigger_pairs I) /\ NoDup (near_pairs I).
Proof.
  intros I e (W & RE & Sd & QR & Fit). assert (A1 := m2l_total I W e RE Sd QR Fit). assert (A2 := evaluation_total I W e RE Sd QR Fit).
  assert (A3 := bigger_total I W e RE Sd QR Fit). assert (A4 := near_total I W e RE Sd QR Fit). repeat (split; [assumption|]).
  split; [unfold block_pairs; generalize dependent (length (m2l_pairs I)); generalize dependent (length (evaluation_pairs I)); generalize dependent (length (bigger_pairs I)); generalize dependent (length (near_pairs I)); intros; lia|].
  split; [apply (over_nodup I W e RE Sd QR Fit (t_same I))|]. split; [apply (over_nodup I W e RE Sd QR Fit (t_small I))|]. split; [apply (over_nodup I W e RE Sd QR Fit (t_big I))|].
  apply (near_pairs_nodup I W).
Qed.
(** hence linear in the number of nodes for a given number of levels, whatever the mesh. *)
Theorem C77_work_is_linear_in_the_nodes : forall I e, regular_tree I e ->
  block_pairs I <= 297 * (9 + (o_N I - 1) * (8 * (2 * o_nd I / (2 * o_max I + 1)))).
Proof.
  intros I e R. destruct (C77_work_is_linear_in_the_blocks I e R) as (_ & _ & _ & _ & A & _). assert (C := C34_number_of_blocks_bound I (proj1 R)).
  eapply Nat.le_trans; [exact A|]. apply Nat.mul_le_mono_l. eapply Nat.le_trans; [exact C|]. apply Nat.add_le_mono_l. apply Nat.mul_le_mono_l. apply Nat.le_min_r.
Qed.
(** Without the hypothesis on the sides: on a mesh smaller than the tolerance every leaf is paired with every leaf. *)
Theorem C77_small_meshes_pair_all_leaves_refuted : forall I e b, wf_in I -> rounding_within I e ->
  ((24 # 10) * max_coord I + (2 * inject_Z (Z.of_nat (o_N I)) + 5) * e <= 1 # 1000)%Q ->
  In b (st_childless (octree I)) -> b_level (blk (octree I) b) <> 1 ->
  (forall c, In c (last_int I (octree I) b) <-> In c (st_childless (octree I))) /\ length (last_int I (octree I) b) = length (st_childless (octree I)).
Proof.
  intros I e b W RE Sm Hb L1. assert (B0 := childless_pos I W b Hb). assert (B1 := F_cl I W b Hb). assert (NL := near_levels_pos I W b ltac:(lia)).
  assert (EN : b_level (getb (st_blocks (octree I)) b) + (near_levels I (octree I) b - 1) = o_N I).
  { rewrite (near_levels_eq I W b ltac:(lia)). destruct (Nat.eqb_spec (b_level (getb (st_blocks (octree I)) b)) 1) as [E|_]; [contradiction|].
    assert (K := proj2 (F_leaf I W b B1) Hb). rewrite K. assert (Y := F_level_le I W b B1). lia. }
  assert (E : forall c, In c (last_int I (octree I) b) <-> In c (st_childless (octree I))).
  { intros c. rewrite (childless_front I W). unfold last_int. split.
    - intros Hc. apply (int_front I W) in Hc; [|lia|lia]. rewrite EN in Hc. exact Hc.
    - intros F. apply (near_in_int I W); [lia|lia|]. apply (all_near I W e RE Sm); [lia|lia|]. rewrite EN. exact F. }
  split; auto. apply Nat.le_antisymm; apply NoDup_incl_length.
  - apply int_nodup.
  - intros c Hc. apply E. exact Hc.
  - apply (F_cl_nodup I W).
  - intros c Hc. apply E. exact Hc.
Qed.
(** Nor does the bound hold when cells are longer than the finest boxes, whatever the tolerance: the leaves in which one cell
    has nodes and quadrature points are all paired with each other. *)
Lemma last_int_leaves I b c : wf_in I -> In b (st_childless (octree I)) -> b_level (blk (octree I) b) <> 1 -> In c (last_int I (octree I) b) -> In c (st_childless (octree I)).
Proof.
  intros W Hb L1 Hc. assert (B0 := childless_pos I W b Hb). assert (B1 := F_cl I W b Hb). assert (NL := near_levels_pos I W b ltac:(lia)).
  rewrite (childless_front I W). unfold last_int in Hc. apply (int_front I W) in Hc; [|lia|lia].
  rewrite (near_levels_eq I W b ltac:(lia)) in Hc. destruct (Nat.eqb_spec (b_level (getb (st_blocks (octree I)) b)) 1) as [E|_]; [contradiction|].
  assert (K := proj2 (F_leaf I W b B1) Hb). rewrite K in Hc. assert (Y := F_level_le I W b B1).
  replace (b_level (getb (st_blocks (octree I)) b) + (S (o_N I - b_level (getb (st_blocks (octree I)) b)) - 1)) with (o_N I) in Hc by lia. exact Hc.
Qed.
Theorem C77_long_cells_pair_all_their_leaves_refuted : forall I c L, wf_in I -> 0 < o_nqc I -> NoDup L ->
  (forall b, In b L -> In b (st_childless (octree I)) /\ b_level (blk (octree I) b) <> 1 /\
     (exists n d, In n (b_nodes (blk (octree I) b)) /\ In d (o_dbl I n) /\ In d (o_cdofs I c)) /\
     (exists q, In q (b_quads (blk (octree I) b)) /\ cell_of I q = c)) ->
  (forall b b', In b L -> In b' L -> In b' (last_int I (octree I) b)) /\ length L * length L <= length (near_pairs I).
Proof.
  intros I c L W Wq ND HL.
  assert (A : forall b b', In b L -> In b' L -> In b' (last_int I (octree I) b)).
  { intros b b' Hb Hb'. destruct (HL b Hb) as (B1 & B2 & (n & d & N1 & N2 & N3) & _). destruct (HL b' Hb') as (B1' & _ & _ & q & Q1 & Q2).
    assert (Hn : n < o_nd I) by (apply (node_bound I W b); auto; apply (F_cl I W); auto).
    assert (Hq : q < o_nq I) by (apply (quad_bound I W b'); auto; apply (F_cl I W); auto).
    destruct (C38_singular_cells_are_direct I n q b W Wq Hn Hq ltac:(exists d; rewrite Q2; auto) B1 N1) as (Nq & _).
    unfold near_quads, quads_of_blocks in Nq. rewrite nub_in, in_flat_map in Nq. destruct Nq as (z & Hz & Qz).
    assert (Lz := last_int_leaves I b z W B1 B2 Hz). replace b' with z; auto.
    rewrite <- (leafq_unique I W q z Lz Qz). apply (leafq_unique I W q b' B1' Q1). }
  split; auto. rewrite <- prod_length. apply NoDup_incl_length.
  - clear A HL.
    assert (NoDup_app : forall (u v : list (nat * nat)), NoDup u -> NoDup v -> (forall x, In x u -> ~ In x v) -> NoDup (u ++ v)).
    { intros u v Hu Hv. induction Hu as [|x u Nx Hu IH]; intros D; auto. simpl. constructor.
      - rewrite in_app_iff. intros [E|E]; [auto|apply (D x (or_introl eq_refl) E)].
      - apply IH. intros y Hy. apply D. right. exact Hy. }
    assert (G : forall M : list nat, NoDup M -> NoDup (list_prod M L)).
    { intros M NM. induction NM as [|x M Nx NM IH]; [constructor|]. simpl. apply NoDup_app; auto.
      - apply FinFun.Injective_map_NoDup; auto. intros u v E. congruence.
      - intros p Hp Hp'. apply in_map_iff in Hp. destruct Hp as (y & <- & _). apply in_prod_iff in Hp'. tauto. }
    apply G; auto.
  - intros (b & b') Hp. apply in_prod_iff in Hp. destruct Hp as (Hb & Hb'). unfold near_pairs. apply in_flat_map. exists b. split; [apply HL; auto|]. apply in_map. auto.
Qed.

(** The trees of ex_oin, in exact arithmetic and with rounding, are regular *)
Ltac fin_in := repeat match goal with Hx : In _ _ |- _ => cbn in Hx; destruct Hx as [<-|Hx] | Hx : False |- _ => destruct Hx end.
Lemma ex_quads I : (forall q, o_qpos I q = o_qpos ex_oin q) -> o_nq I = 2 ->
  (px (b_min (blk (octree I) 0)) <= -1 /\ 1 <= px (b_min (blk (octree I) 0)) + b_delta (blk (octree I) 0) /\
   py (b_min (blk (octree I) 0)) <= 0 /\ 0 <= py (b_min (blk (octree I) 0)) + b_delta (blk (octree I) 0) /\
   pz (b_min (blk (octree I) 0)) <= 0 /\ 0 <= pz (b_min (blk (octree I) 0)) + b_delta (blk (octree I) 0))%Q -> quads_in_root I.
Proof.
  intros E N (G1 & G2 & G3 & G4 & G5 & G6) q Hq a Ha. rewrite E. rewrite N in Hq.
  destruct q as [|[|q]]; [| |lia]; destruct a as [|[|[|a]]]; try lia; cbn [axis o_qpos ex_oin px py pz]; split; lra.
Qed.
Lemma ex_cells I : (forall q, o_qpos I q = o_qpos ex_oin q) -> (forall d, o_pos I d = o_pos ex_oin d) -> (forall d, o_dbl I d = [d]) -> (forall d, o_old I d = []) ->
  (forall c, o_cdofs I c = [2 * c; 2 * c + 1]) -> o_nqc I = 1 -> o_nd I = 4 -> o_nc I = 2 -> cells_shorter_than I (1 # 10).
Proof.
  intros E1 E2 E3 E4 E5 E6 E7 E8 n c q a Hn Hc (d & D1 & D2) Hq Hcq Ha. rewrite E1, E2. rewrite E3 in D1. destruct D1 as [<-|[]]. rewrite E4, E5 in D2. destruct D2 as [[]|D2].
  unfold cell_of in Hcq. rewrite E6, Nat.div_1_r in Hcq. subst q. rewrite E8 in Hc. apply Qabs_case; intros _;
  destruct c as [|[|c]]; try lia; cbn [In Nat.mul Nat.add] in D2; destruct D2 as [<-|[<-|[]]]; destruct a as [|[|[|a]]]; try lia; cbn; reflexivity.
Qed.
Example C77_nonvacuous : regular_tree ex_oin 0 /\ block_pairs ex_oin = 4 /\ num_blocks (octree ex_oin) = 7.
Proof.
  split; [|vm_compute; auto]. split; [apply ex_oin_wf|]. split; [apply exact_rounding; intros x; reflexivity|]. split; [vm_compute; reflexivity|]. split.
  - apply ex_quads; [reflexivity|reflexivity|]. vm_compute. repeat split; discriminate.
  - assert (C := ex_cells ex_oin ltac:(reflexivity) ltac:(reflexivity) ltac:(reflexivity) ltac:(reflexivity) ltac:(reflexivity) eq_refl eq_refl eq_refl).
    intros n c q a H1 H2 H3 H4 H5 H6. specialize (C n c q a H1 H2 H3 H4 H5 H6). eapply Qlt_le_trans; [exact C|]. vm_compute. discriminate.
Qed.
Example C77_nonvacuous_rounded : regular_tree ex_rnd (1 # 2097152).
Proof.
  split; [apply ex_rnd_wf|]. split; [apply ex_rnd_rounding|]. split; [vm_compute; reflexivity|]. split.
  - apply ex_quads; [reflexivity|reflexivity|]. vm_compute. repeat split; discriminate.
  - assert (C := ex_cells ex_rnd ltac:(reflexivity) ltac:(reflexivity) ltac:(reflexivity) ltac:(reflexivity) ltac:(reflexivity) eq_refl eq_refl eq_refl).
    intros n c q a H1 H2 H3 H4 H5 H6. specialize (C n c q a H1 H2 H3 H4 H5 H6). eapply Qlt_le_trans; [exact C|]. vm_compute. discriminate.
Qed.
(** the same mesh in a unit 10^4 times larger: its two leaves, which do not touch, are paired *)
Example C77_small_mesh_met : wf_in (placed (1 # 10000) 0) /\ exact_arithmetic (placed (1 # 10000) 0) /\
  ((24 # 10) * max_coord (placed (1 # 10000) 0) + (2 * 3 + 5) * 0 <= 1 # 1000)%Q /\
  st_childless (octree (placed (1 # 10000) 0)) = [5; 6] /\ length (near_pairs (placed (1 # 10000) 0)) = 4 /\ length (near_pairs ex_oin) = 2.
Proof. split; [apply ex_oin_wf|]. split; [intros x; reflexivity|]. split; [vm_compute; discriminate|]. vm_compute. auto. Qed.
(** the same mesh as a single cell *)
Definition one_cell : oin := {|
  o_N := 3; o_max := 1; o_nd := 4; o_pos := o_pos ex_oin; o_nc := 1; o_nqc := 2; o_qpos := o_qpos ex_oin;
  o_dbl := fun d => [d]; o_cdofs := fun _ => [0; 1; 2; 3]; o_rnd := fun x => x; o_old := fun _ => [] |}.
Example C77_long_cell_met : wf_in one_cell /\ finer_than_tolerance one_cell 0 /\ st_childless (octree one_cell) = [5; 6] /\ ~ boxes_touch (blk (octree one_cell) 5) (blk (octree one_cell) 6) /\
  (forall b, In b [5; 6] -> In b (st_childless (octree one_cell)) /\ b_level (blk (octree one_cell) b) <> 1 /\
     (exists n d, In n (b_nodes (blk (octree one_cell) b)) /\ In d (o_dbl one_cell n) /\ In d (o_cdofs one_cell 0)) /\
     (exists q, In q (b_quads (blk (octree one_cell) b)) /\ cell_of one_cell q = 0)).
Proof.
  split; [|split; [vm_compute; reflexivity|split; [vm_compute; reflexivity|split]]].
  - repeat split; try (simpl; lia); intros; simpl in *; try (left; reflexivity); intuition (subst; try lia; auto).
  - intros T. destruct (T 0 ltac:(lia)) as (T1 & T2). revert T2. vm_compute. intros T2. apply T2. reflexivity.
  - intros b [<-|[<-|[]]].
    + split; [vm_compute; auto|]. split; [vm_compute; discriminate|]. split; [exists 0, 0|exists 0]; vm_compute; tauto.
    + split; [vm_compute; auto|]. split; [vm_compute; discriminate|]. split; [exists 2, 2|exists 1]; vm_compute; tauto.
Qed.
