(** * Properties of the octree (C30-C36, C39). *)
From Coq Require Import QArith Qabs Qround Qminmax ZArith List Lia Arith Bool Permutation Lqa.
From Verif Require Import ModelOctree SpecOctree ModelFmm ProofsOctTree ProofsOctLevels ProofsOctFacts ProofsOctLists ProofsFmmCover ProofsOctGeom ProofsOctMore.
Import ListNotations.
Local Open Scope nat_scope.

(** A concrete input: four nodes and two one-point cells at the two ends of the x axis, three
    levels, one node per block. *)
Definition ex_oin : oin := {|
  o_N := 3; o_max := 1; o_nd := 4;
  o_pos := fun d => mkpt (match d with 0%nat => -1 | 1%nat => -(9 # 10) | 2%nat => 9 # 10 | _ => 1 end)%Q 0 0;
  o_nc := 2; o_nqc := 1;
  o_qpos := fun q => mkpt (match q with 0%nat => -(95 # 100) | _ => 95 # 100 end)%Q 0 0;
  o_dbl := fun d => [d]; o_cdofs := fun c => [2 * c; 2 * c + 1]; o_rnd := fun x => x; o_old := fun _ => [] |}.
Example ex_oin_wf : wf_in ex_oin.
Proof.
  repeat split; try (simpl; lia); intros; simpl in *; try (left; reflexivity); intuition (subst; try lia; auto).
Qed.
Example ex_oin_shape :
  num_blocks (octree ex_oin) = 7 /\ st_childless (octree ex_oin) = [5; 6] /\ b_nodes (blk (octree ex_oin) 3) = [0; 1] /\
  ways ex_oin (octree ex_oin) 0 1 = [M2L 3 4] /\ ways ex_oin (octree ex_oin) 0 0 = [Near 5].
Proof. vm_compute. repeat split. Qed.

(** An unbalanced input: one node alone, three close together. *)
Definition ex_unb : oin := {|
  o_N := 3; o_max := 1; o_nd := 4;
  o_pos := fun d => mkpt (match d with 0%nat => -1 | 1%nat => -(5 # 100) | 2%nat => -(4 # 100) | _ => -(3 # 100) end)%Q 0 0;
  o_nc := 2; o_nqc := 1;
  o_qpos := fun q => mkpt (match q with 0%nat => -1 | _ => -(35 # 1000) end)%Q 0 0;
  o_dbl := fun d => [d]; o_cdofs := fun c => match c with 0 => [0] | _ => [1; 2; 3] end; o_rnd := fun x => x; o_old := fun _ => [] |}.
Example ex_unb_wf : wf_in ex_unb.
Proof.
  split; [simpl; lia|]. split; [simpl; lia|]. split.
  - intros d Hd. simpl. split; [auto|]. intros e [<-|[]]. auto.
  - intros c Hc d Hd. simpl in *. destruct c as [|[|c]]; simpl in Hd; intuition lia.
Qed.
Example ex_unb_ways : ways ex_unb (octree ex_unb) 0 1 = [MEval 3 4] /\ ways ex_unb (octree ex_unb) 1 0 = [Big 4].
Proof. vm_compute. repeat split. Qed.

(** The same input in fixed point arithmetic with 20 binary digits: rounding errors up to 2^-21. *)
Definition round20 (x : Q) : Q := (inject_Z (Qfloor (x * 1048576 + (1 # 2))) / 1048576)%Q.
Definition ex_rnd : oin := {|
  o_N := o_N ex_oin; o_max := o_max ex_oin; o_nd := o_nd ex_oin; o_pos := o_pos ex_oin; o_nc := o_nc ex_oin; o_nqc := o_nqc ex_oin;
  o_qpos := o_qpos ex_oin; o_dbl := o_dbl ex_oin; o_cdofs := o_cdofs ex_oin; o_rnd := round20; o_old := o_old ex_oin |}.
Example ex_rnd_wf : wf_in ex_rnd. Proof. exact ex_oin_wf. Qed.
Example ex_rnd_rounding : rounding_within ex_rnd (1 # 2097152).
Proof.
  assert (M : (max_coord ex_rnd == 1)%Q) by (vm_compute; reflexivity).
  split; [discriminate|]. split; [discriminate|]. split; [rewrite M; discriminate|].
  intros x _. cbn [o_rnd ex_rnd]. unfold round20. assert (A := Qfloor_le (x * 1048576 + (1 # 2))). assert (C := Qlt_floor (x * 1048576 + (1 # 2))).
  rewrite inject_Z_plus in C. change (inject_Z 1) with 1%Q in C. set (f := inject_Z (Qfloor (x * 1048576 + (1 # 2)))) in *.
  assert (E : (f / 1048576 == f * (1 # 1048576))%Q) by field. rewrite E. apply Qabs_Qle_condition. lra.
Qed.
Example ex_rnd_differs : ~ (px (b_min (blk (octree ex_rnd) 0)) == - (11 # 10))%Q /\ num_blocks (octree ex_rnd) = 7 /\ ways ex_rnd (octree ex_rnd) 0 1 = [M2L 3 4].
Proof. split; [vm_compute; discriminate|]. vm_compute. repeat split. Qed.

(** ** C30 *)
Theorem C30_every_level_holds_every_point_once : forall I l, wf_in I -> l <= o_N I ->
  Permutation (flat_map (fun b => b_nodes (blk (octree I) b)) (cut (octree I) l)) (seq 0 (o_nd I)) /\
  Permutation (flat_map (fun b => b_quads (blk (octree I) b)) (cut (octree I) l)) (seq 0 (o_nq I)).
Proof. intros I l W Hl. split; [apply cut_nodes|apply cut_quads]; auto. Qed.
Theorem C30_children_share_out_their_parent : forall I b, wf_in I -> b < num_blocks (octree I) -> b_kids (blk (octree I) b) <> [] ->
  Permutation (b_nodes (blk (octree I) b)) (flat_map (fun k => b_nodes (blk (octree I) k)) (b_kids (blk (octree I) b))) /\
  Permutation (b_quads (blk (octree I) b)) (flat_map (fun k => b_quads (blk (octree I) k)) (b_kids (blk (octree I) b))).
Proof. intros I b W Hb K. split; [apply (nodes_kids_perm I _ (F_tree I W))|apply (quads_kids_perm I _ (F_tree I W))]; auto. Qed.
Example C30_nonvacuous : cut (octree ex_oin) 2 = [3; 4] /\ b_kids (blk (octree ex_oin) 3) = [5].
Proof. vm_compute. repeat split. Qed.

(** ** C31 *)
Theorem C31_levels_are_contiguous : forall I, wf_in I ->
  startL (octree I) 0 = 0 /\ endL (octree I) 0 = 0 /\ S (endL (octree I) (o_N I)) = num_blocks (octree I) /\
  (forall l, l < o_N I -> startL (octree I) (S l) = S (endL (octree I) l) /\ endL (octree I) l <= endL (octree I) (S l)) /\
  (forall b l, b < num_blocks (octree I) -> l <= o_N I ->
     (b_level (blk (octree I) b) = l <-> startL (octree I) l <= b <= endL (octree I) l)) /\
  (forall b, b < num_blocks (octree I) -> b_level (blk (octree I) b) <= o_N I).
Proof.
  intros I W. split; [apply (F_start0 I W)|]. split; [apply (F_start0 I W)|]. split; [apply (F_end I W)|].
  split; [apply (F_next I W)|]. split; [intros; apply (F_level_iff I W); auto|apply (F_level_le I W)].
Qed.
Theorem C31_parent_and_child_links : forall I b, wf_in I -> 0 < b < num_blocks (octree I) ->
  let p := b_parent (blk (octree I) b) in
  p < b /\ b_level (blk (octree I) b) = S (b_level (blk (octree I) p)) /\
  count_occ Nat.eq_dec (b_kids (blk (octree I) p)) b = 1 /\
  (b_delta (blk (octree I) b) == b_delta (blk (octree I) p) / 2)%Q /\
  (exists cx cy cz : bool, let o := fun (c : bool) (x : Q) => if c then o_rnd I (x + b_delta (blk (octree I) b))%Q else x in
     px (b_min (blk (octree I) b)) = o cx (px (b_min (blk (octree I) p))) /\
     py (b_min (blk (octree I) b)) = o cy (py (b_min (blk (octree I) p))) /\
     pz (b_min (blk (octree I) b)) = o cz (pz (b_min (blk (octree I) p)))) /\
  1 <= length (b_nodes (blk (octree I) b)) + length (b_quads (blk (octree I) b)).
Proof.
  intros I b W Hb p. destruct (parent_info I _ (F_tree I W) b Hb) as (A & C). destruct (kid_fields I W b Hb) as (E1 & E2).
  split; [exact A|]. split; [apply (parent_level I _ (F_tree I W)); auto|].
  split; [apply count_nodup; auto; apply (kids_nodup I _ (F_tree I W)); unfold p, blk, num_blocks in *; lia|].
  split; [unfold blk at 1; rewrite E2; reflexivity|]. split; [|apply (block_nonempty I W); unfold num_blocks in *; lia].
  assert (Hc := proj1 (code_ok I W b Hb)).
  exists (Z.eqb (bit 0 (code I b)) 1), (Z.eqb (bit 1 (code I b)) 1), (Z.eqb (bit 2 (code I b)) 1). cbv zeta.
  assert (X : forall a, co a (b_min (blk (octree I) b)) = if Z.eqb (bit a (code I b)) 1 then o_rnd I (co a (b_min (blk (octree I) p)) + b_delta (blk (octree I) b))%Q else co a (b_min (blk (octree I) p))).
  { intros a. unfold blk. rewrite E1, (child_min_co _ _ _ _ a Hc). rewrite <- E2. reflexivity. }
  split; [exact (X 0)|split; [exact (X 1)|exact (X 2)]].
Qed.
Theorem C31_at_most_eight_children : forall I b, wf_in I -> b < num_blocks (octree I) ->
  length (b_kids (blk (octree I) b)) <= 8 /\ NoDup (b_kids (blk (octree I) b)) /\
  (forall k, In k (b_kids (blk (octree I) b)) <-> 0 < k < num_blocks (octree I) /\ b_parent (blk (octree I) k) = b).
Proof.
  intros I b W Hb. destruct (kids_nodup I _ (F_tree I W) b Hb) as (K1 & K2). split; auto. split; auto. intros k. split.
  - intros Hk. destruct (kid_info I _ (F_tree I W) b k Hb Hk) as (A & C & _). unfold num_blocks, blk in *. split; [lia|auto].
  - intros (Hk & <-). apply (parent_info I _ (F_tree I W)); auto.
Qed.
Example C31_nonvacuous : b_parent (blk (octree ex_oin) 5) = 3 /\ startL (octree ex_oin) 2 = 3 /\ endL (octree ex_oin) 2 = 4.
Proof. vm_compute. repeat split. Qed.

(** ** C32 *)
Theorem C32_childless_blocks_partition_the_points : forall I, wf_in I ->
  NoDup (st_childless (octree I)) /\
  Permutation (flat_map (fun b => b_nodes (blk (octree I) b)) (st_childless (octree I))) (seq 0 (o_nd I)) /\
  Permutation (flat_map (fun b => b_quads (blk (octree I) b)) (st_childless (octree I))) (seq 0 (o_nq I)).
Proof.
  intros I W. split; [apply (F_cl_nodup I W)|]. split; [rewrite <- (cut_nodes I W (o_N I)) by auto|rewrite <- (cut_quads I W (o_N I)) by auto]; apply Permutation_flat_map; apply childless_cut; auto.
Qed.
Theorem C32_childless_list_is_the_childless_blocks : forall I b, wf_in I ->
  (In b (st_childless (octree I)) <-> b < num_blocks (octree I) /\ b_kids (blk (octree I) b) = []).
Proof.
  intros I b W. split.
  - intros H. assert (Hb := F_cl I W b H). split; auto. apply (F_leaf I W); auto.
  - intros (Hb & K). apply (F_leaf I W); auto.
Qed.
(** a block below the root and above the last level is split exactly when its rounded node weight
    exceeds the capacity; the root is always split; the last level never *)
Theorem C32_split_iff_too_many_nodes : forall I b, wf_in I -> 0 < b < num_blocks (octree I) -> b_level (blk (octree I) b) < o_N I ->
  (b_kids (blk (octree I) b) <> [] <-> (inject_Z (Z.of_nat (o_max I)) + (1 # 2) <= weight I (b_nodes (blk (octree I) b)))%Q).
Proof.
  intros I b W Hb Hl. unfold blk. rewrite (split_rule I W b Hb Hl). split; intros H.
  - apply Qnot_lt_le. rewrite <- small_iff. congruence.
  - destruct (small I (getb (st_blocks (octree I)) b)) eqn:S; auto. apply small_iff in S. apply Qle_not_lt in H. contradiction.
Qed.
Theorem C32_root_split_last_level_not : forall I b, wf_in I -> b < num_blocks (octree I) ->
  (b = 0 -> b_kids (blk (octree I) b) <> []) /\ (b_level (blk (octree I) b) = o_N I -> b_kids (blk (octree I) b) = []).
Proof. intros I b W Hb. split; [intros ->; apply (root_split I W)|apply (last_level_childless I W); auto]. Qed.
Example C32_nonvacuous : (weight ex_oin (b_nodes (blk (octree ex_oin) 3)) == 2)%Q /\ b_level (blk (octree ex_oin) 3) = 2.
Proof. vm_compute. repeat split. Qed.

(** ** C33 *)
(** with rounding errors of at most e: the lower sides are respected exactly, the upper sides up to
    one e per level *)
Theorem C33_root_box_holds_all_nodes : forall I d e, wf_in I -> rounding_within I e -> d < o_nd I -> inside (o_pos I d) (blk (octree I) 0).
Proof.
  intros I d e W RE Hd a Ha. destruct (nodes_in_root I e RE d Hd a Ha) as (A & C). destruct (root_fields I W) as (E1 & E2).
  unfold blk. rewrite E1, E2. split; auto.
Qed.
Theorem C33_nodes_lie_in_their_block_rounded : forall I b d e, wf_in I -> rounding_within I e -> b < num_blocks (octree I) ->
  In d (b_nodes (blk (octree I) b)) -> inside_within (inject_Z (Z.of_nat (b_level (blk (octree I) b))) * e) (o_pos I d) (blk (octree I) b).
Proof. intros I b d e W RE Hb Hd. exact (nodes_in_box I W e RE b d Hb ltac:(intros; apply (nodes_in_root I e RE); auto) Hd). Qed.
(** the root box is built from the nodes alone: for the quadrature points it is an assumption *)
Theorem C33_quadrature_points_lie_in_their_block_rounded : forall I b q e, wf_in I -> rounding_within I e -> b < num_blocks (octree I) ->
  (forall q, q < o_nq I -> inside (o_qpos I q) (blk (octree I) 0)) ->
  In q (b_quads (blk (octree I) b)) -> inside_within (inject_Z (Z.of_nat (b_level (blk (octree I) b))) * e) (o_qpos I q) (blk (octree I) b).
Proof.
  intros I b q e W RE Hb HR Hq. assert (HR' : forall q, q < o_nq I -> inside (o_qpos I q) (root_block I)).
  { intros q' Hq' a' Ha'. destruct (HR q' Hq' a' Ha') as (A & C). unfold blk in A, C. destruct (root_fields I W) as (E1 & E2). rewrite E1 in A. rewrite E1, E2 in C. split; auto. }
  exact (quads_in_box I W e RE b q Hb HR' Hq).
Qed.
Theorem C33_blocks_do_not_overlap_rounded : forall I b c l e, wf_in I -> rounding_within I e -> In b (cut (octree I) l) -> In c (cut (octree I) l) -> b <> c ->
  gap (- (2 * (inject_Z (Z.of_nat (o_N I)) * e))) (blk (octree I) b) (blk (octree I) c).
Proof. intros I b c l e W RE Hb Hc NE. apply cut_front in Hb. apply cut_front in Hc. exact (front_disjoint I W e RE l b c Hb Hc NE). Qed.
(** exact arithmetic *)
Theorem C33_nodes_lie_in_their_block : forall I b d, wf_in I -> exact_arithmetic I -> b < num_blocks (octree I) ->
  In d (b_nodes (blk (octree I) b)) -> inside (o_pos I d) (blk (octree I) b).
Proof.
  intros I b d W RX Hb Hd a Ha. destruct (C33_nodes_lie_in_their_block_rounded I b d 0 W (exact_rounding I RX) Hb Hd a Ha) as (A & C).
  split; auto. rewrite Qmult_0_r, Qplus_0_r in C. exact C.
Qed.
Theorem C33_quadrature_points_lie_in_their_block : forall I b q, wf_in I -> exact_arithmetic I -> b < num_blocks (octree I) ->
  (forall q, q < o_nq I -> inside (o_qpos I q) (blk (octree I) 0)) ->
  In q (b_quads (blk (octree I) b)) -> inside (o_qpos I q) (blk (octree I) b).
Proof.
  intros I b q W RX Hb HR Hq a Ha. destruct (C33_quadrature_points_lie_in_their_block_rounded I b q 0 W (exact_rounding I RX) Hb HR Hq a Ha) as (A & C).
  split; auto. rewrite Qmult_0_r, Qplus_0_r in C. exact C.
Qed.
Theorem C33_blocks_do_not_overlap : forall I b c l, wf_in I -> exact_arithmetic I -> In b (cut (octree I) l) -> In c (cut (octree I) l) -> b <> c ->
  interiors_disjoint (blk (octree I) b) (blk (octree I) c).
Proof.
  intros I b c l W RX Hb Hc NE. destruct (C33_blocks_do_not_overlap_rounded I b c l 0 W (exact_rounding I RX) Hb Hc NE) as (a & Ha & G).
  exists a. split; auto. rewrite !Qmult_0_r, !Qplus_0_r in G. exact G.
Qed.
Theorem C33_side_halves_at_each_level : forall I b, wf_in I -> b < num_blocks (octree I) ->
  (b_delta (blk (octree I) b) * inject_Z (2 ^ Z.of_nat (b_level (blk (octree I) b))) == b_delta (blk (octree I) 0))%Q.
Proof.
  intros I b W Hb. unfold blk, num_blocks in *. revert b Hb. induction b as [b IH] using lt_wf_ind. intros Hb. destruct (Nat.eq_dec b 0) as [->|Nb].
  - rewrite (proj2 (level_pos I _ (F_tree I W) 0 Hb) eq_refl). change (inject_Z (2 ^ Z.of_nat 0)) with 1%Q. ring.
  - destruct (parent_info I _ (F_tree I W) b ltac:(lia)) as (A & _). rewrite <- (IH (b_parent (getb (st_blocks (octree I)) b))) by lia.
    rewrite (parent_level I _ (F_tree I W) b) by lia. rewrite (proj2 (kid_fields I W b ltac:(lia))). rewrite Nat2Z.inj_succ, Z.pow_succ_r, inject_Z_mult by lia.
    change (inject_Z 2) with 2%Q. field.
Qed.
Example C33_nonvacuous : inside (o_qpos ex_oin 1) (blk (octree ex_oin) 0) /\ (b_delta (blk (octree ex_oin) 5) == 11 # 40)%Q.
Proof. split; [intros [|[|[|]]] H; try lia; vm_compute; split; discriminate|vm_compute; reflexivity]. Qed.

(** ** C34 *)
(** the allocation o_storage = levels * cells * points per cell is not always enough: one cell
    with four quadrature points and one level needs five blocks (root and four children) *)
Definition ex_tiny : oin := {|
  o_N := 1; o_max := 10; o_nd := 4;
  o_pos := fun d => mkpt (match d with 0%nat | 2%nat => -1 | _ => 1 end)%Q (match d with 0%nat | 1%nat => -1 | _ => 1 end)%Q 0;
  o_nc := 1; o_nqc := 4;
  o_qpos := fun q => mkpt (match q with 0%nat | 2%nat => -(1 # 2) | _ => 1 # 2 end)%Q (match q with 0%nat | 1%nat => -(1 # 2) | _ => 1 # 2 end)%Q 0;
  o_dbl := fun d => [d]; o_cdofs := fun _ => [0; 1; 2; 3]; o_rnd := fun x => x; o_old := fun _ => [] |}.
Theorem C34_storage_bound_refuted : exists I, wf_in I /\ 0 < o_nqc I /\ 0 < o_storage I < num_blocks (octree I).
Proof.
  exists ex_tiny. split; [|vm_compute; lia].
  repeat split; try (simpl; lia); intros; simpl in *; try (left; reflexivity); intuition (subst; try lia; auto).
Qed.
Theorem C34_number_of_blocks_bound : forall I, wf_in I ->
  num_blocks (octree I) <= 9 + (o_N I - 1) * Nat.min (o_nd I + o_nq I) (8 * (2 * o_nd I / (2 * o_max I + 1))).
Proof. intros I W. apply (num_blocks_bound I W). Qed.
Theorem C34_storage_suffices_when : forall I, wf_in I ->
  9 + (o_N I - 1) * Nat.min (o_nd I + o_nq I) (8 * (2 * o_nd I / (2 * o_max I + 1))) <= o_N I * o_nc I * o_nqc I ->
  num_blocks (octree I) <= o_storage I.
Proof. intros I W H. assert (X := num_blocks_bound I W). unfold o_storage. lia. Qed.
(** the bound holds e.g. for 1000 bilinear cells, 16 points each, 10 levels, 60 nodes per block *)
Example C34_nonvacuous : 9 + (10 - 1) * Nat.min (1002 + 1000 * 16) (8 * (2 * 1002 / (2 * 60 + 1))) <= 10 * 1000 * 16.
Proof. apply Nat.leb_le. vm_compute. reflexivity. Qed.

(** ** C35 *)
Theorem C35_quadrature_point_to_block : forall I q l, wf_in I -> q < o_nq I -> l <= o_N I ->
  length (st_qtb (octree I) q) = S (o_N I) /\
  let b := nth l (st_qtb (octree I) q) 0 in
  b < num_blocks (octree I) /\ In q (b_quads (blk (octree I) b)) /\
  (b_level (blk (octree I) b) = l \/ (b_level (blk (octree I) b) < l /\ b_kids (blk (octree I) b) = [])) /\
  (forall c, In c (cut (octree I) l) -> In q (b_quads (blk (octree I) c)) -> c = b).
Proof.
  intros I q l W Hq Hl. split; [apply (qtb_length I W); auto|]. cbv zeta. destruct (qb_front I W q l Hq Hl) as (F & Q). fold (qb I q l).
  split; [apply F|]. split; [exact Q|]. split; [apply F|]. intros c Hc Hi. apply cut_front in Hc. apply (front_unique_q I W l c (qb I q l) q); auto.
Qed.
Example C35_nonvacuous : st_qtb (octree ex_oin) 1 = [0; 2; 4; 6].
Proof. vm_compute. reflexivity. Qed.

(** ** C36 *)
(** exact content of dof_to_block: a block with children that contains the node appears once per
    child (the root once more), the childless block that contains it once per level below it *)
Theorem C36_dof_to_block_counts : forall I d b, wf_in I -> d < o_nd I -> b < num_blocks (octree I) ->
  count_occ Nat.eq_dec (st_dtb (octree I) d) b =
    if in_dec Nat.eq_dec d (b_nodes (blk (octree I) b)) then
      match b_kids (blk (octree I) b) with
      | [] => o_N I - b_level (blk (octree I) b)
      | _ => length (b_kids (blk (octree I) b)) + (if Nat.eqb b 0 then 1 else 0)
      end
    else 0.
Proof. intros I d b W Hd Hb. apply (dtb_count I W); auto. Qed.
Theorem C36_dof_to_block_lists_only_containing_blocks : forall I d b, wf_in I -> d < o_nd I -> In b (st_dtb (octree I) d) ->
  b < num_blocks (octree I) /\ In d (b_nodes (blk (octree I) b)).
Proof.
  intros I d b W Hd Hi. assert (Hb : b < num_blocks (octree I)) by (destruct (Nat.lt_ge_cases b (num_blocks (octree I))); auto; exfalso; apply (dtb_outside I W d b); auto).
  split; auto. assert (C := C36_dof_to_block_counts I d b W Hd Hb). apply (count_occ_In Nat.eq_dec) in Hi.
  destruct (in_dec Nat.eq_dec d (b_nodes (blk (octree I) b))); auto. lia.
Qed.
(** "once each per level" never holds: the root is listed at least twice *)
Theorem C36_once_per_level_refuted : forall I d, wf_in I -> d < o_nd I -> 2 <= count_occ Nat.eq_dec (st_dtb (octree I) d) 0.
Proof.
  intros I d W Hd. assert (P := F_pos I W). rewrite (C36_dof_to_block_counts I d 0 W Hd P). unfold blk.
  assert (R0 : In d (b_nodes (getb (st_blocks (octree I)) 0))) by (apply (root_nodes I _ (F_tree I W)); auto).
  destruct (in_dec Nat.eq_dec d (b_nodes (getb (st_blocks (octree I)) 0))); [|contradiction].
  assert (K := root_split I W). destruct (b_kids (getb (st_blocks (octree I)) 0)); [congruence|]. cbn [length Nat.eqb]. lia.
Qed.
(** a childless block of the last level is not listed for its own nodes *)
Theorem C36_last_level_block_missing : forall I d b, wf_in I -> d < o_nd I -> b < num_blocks (octree I) ->
  b_level (blk (octree I) b) = o_N I -> ~ In b (st_dtb (octree I) d).
Proof.
  intros I d b W Hd Hb L Hi. apply (count_occ_In Nat.eq_dec) in Hi. rewrite (C36_dof_to_block_counts I d b W Hd Hb) in Hi.
  rewrite (proj2 (C32_root_split_last_level_not I b W Hb) L) in Hi. destruct (in_dec Nat.eq_dec d _); lia.
Qed.
Example C36_nonvacuous : st_dtb (octree ex_oin) 0 = [0; 0; 0; 1; 3].
Proof. vm_compute. reflexivity. Qed.

(** ** C39 *)
(** with rounding errors of at most e per operation: separation by one side, up to 2 e per level *)
Theorem C39_m2l_blocks_well_separated_rounded : forall I i q b c e, wf_in I -> rounding_within I e -> In (M2L b c) (ways I (octree I) i q) ->
  b_level (blk (octree I) c) = b_level (blk (octree I) b) /\ (b_delta (blk (octree I) c) == b_delta (blk (octree I) b))%Q /\
  gap (b_delta (blk (octree I) b) - 2 * (inject_Z (Z.of_nat (o_N I)) * e)) (blk (octree I) b) (blk (octree I) c).
Proof. intros I i q b c e W RE H. assert (G := m2l_facts_r I W e RE i q b c H). apply (m2l_comb I W) in H. unfold blk. split; [tauto|]. split; [tauto|exact G]. Qed.
Theorem C39_multipole_evaluated_outside_its_block_rounded : forall I i q b c e, wf_in I -> rounding_within I e -> In (MEval b c) (ways I (octree I) i q) ->
  b_level (blk (octree I) b) < b_level (blk (octree I) c) /\
  gap (b_delta (blk (octree I) c) - 2 * (inject_Z (Z.of_nat (o_N I)) * e)) (blk (octree I) b) (blk (octree I) c).
Proof. intros I i q b c e W RE H. assert (G := meval_facts_r I W e RE i q b c H). apply (meval_comb I W) in H. unfold blk. split; [tauto|exact G]. Qed.
Theorem C39_non_interaction_lists_do_not_touch_rounded : forall I b c s e, wf_in I -> rounding_within I e -> 0 < b < num_blocks (octree I) -> s < near_levels I (octree I) b ->
  In c (nonint_list I (octree I) b s) ->
  gap (Qmin (b_delta (blk (octree I) b)) (b_delta (blk (octree I) c)) - 2 * (inject_Z (Z.of_nat (o_N I)) * e)) (blk (octree I) b) (blk (octree I) c).
Proof. intros I b c s e W RE Hb Hs Hc. apply (far_gap' I W e RE b s c); auto. Qed.
(** exact arithmetic *)
Theorem C39_m2l_blocks_well_separated : forall I i q b c, wf_in I -> exact_arithmetic I -> In (M2L b c) (ways I (octree I) i q) ->
  b_level (blk (octree I) c) = b_level (blk (octree I) b) /\ (b_delta (blk (octree I) c) == b_delta (blk (octree I) b))%Q /\
  gap (b_delta (blk (octree I) b)) (blk (octree I) b) (blk (octree I) c).
Proof. intros I i q b c W RX H. apply (m2l_facts I W RX) in H. unfold blk. tauto. Qed.
Theorem C39_multipole_evaluated_outside_its_block : forall I i q b c, wf_in I -> exact_arithmetic I -> In (MEval b c) (ways I (octree I) i q) ->
  b_level (blk (octree I) b) < b_level (blk (octree I) c) /\ gap (b_delta (blk (octree I) c)) (blk (octree I) b) (blk (octree I) c).
Proof. intros I i q b c W RX H. apply (meval_facts I W RX) in H. unfold blk. tauto. Qed.
(** every entry of a non-interaction list, whatever it is used for *)
Theorem C39_non_interaction_lists_do_not_touch : forall I b c s, wf_in I -> exact_arithmetic I -> 0 < b < num_blocks (octree I) -> s < near_levels I (octree I) b ->
  In c (nonint_list I (octree I) b s) -> gap (Qmin (b_delta (blk (octree I) b)) (b_delta (blk (octree I) c))) (blk (octree I) b) (blk (octree I) c).
Proof. intros I b c s W RX Hb Hs Hc. apply (gap_eq (Qmin (b_delta (blk (octree I) b)) (b_delta (blk (octree I) c)) - 2 * (NQ I * 0))); [ring|]. apply (far_gap' I W 0 (exact_rounding I RX) b s c); auto. Qed.
(** so the series used converge: the node and the source are closer to the centres of expansion
    than the centres (or the evaluation point) are to each other, with ratio at most sqrt 3 / 2
    and sqrt 3 / 3 *)
Theorem C39_m2l_converges : forall I i q b c, wf_in I -> exact_arithmetic I -> In (M2L b c) (ways I (octree I) i q) ->
  (forall q, q < o_nq I -> inside (o_qpos I q) (blk (octree I) 0)) ->
  let d := b_delta (blk (octree I) b) in
  (4 * dist2 (o_pos I i) (centre (blk (octree I) b)) <= 3 * (d * d) /\
   4 * dist2 (o_qpos I q) (centre (blk (octree I) c)) <= 3 * (d * d) /\
   4 * (d * d) <= dist2 (centre (blk (octree I) b)) (centre (blk (octree I) c)))%Q.
Proof.
  intros I i q b c W RX H HR d. apply (m2l_facts I W RX) in H. destruct H as (Hi & Hq & Hb & Hc & _ & D & G).
  assert (P := delta_nonneg I W 0 (exact_rounding I RX) c Hc). split; [|split].
  - apply inside_centre. apply C33_nodes_lie_in_their_block; auto.
  - assert (X := inside_centre _ _ (C33_quadrature_points_lie_in_their_block I c q W RX Hc HR Hq)). unfold blk in *. rewrite D in X. exact X.
  - apply gap_centres; auto.
Qed.
Theorem C39_evaluation_converges : forall I i q b c, wf_in I -> exact_arithmetic I -> In (MEval b c) (ways I (octree I) i q) ->
  (forall q, q < o_nq I -> inside (o_qpos I q) (blk (octree I) 0)) ->
  let d := b_delta (blk (octree I) c) in
  (4 * dist2 (o_qpos I q) (centre (blk (octree I) c)) <= 3 * (d * d) /\
   9 * (d * d) <= 4 * dist2 (o_pos I i) (centre (blk (octree I) c)))%Q.
Proof.
  intros I i q b c W RX H HR d. apply (meval_facts I W RX) in H. destruct H as (Hi & Hq & Hb & Hc & _ & _ & G).
  assert (P := delta_nonneg I W 0 (exact_rounding I RX) c Hc). split.
  - apply inside_centre. apply C33_quadrature_points_lie_in_their_block; auto.
  - apply (gap_point _ (blk (octree I) b)); auto. apply C33_nodes_lie_in_their_block; auto.
Qed.
Example C39_nonvacuous : In (M2L 3 4) (ways ex_oin (octree ex_oin) 0 1) /\ In (MEval 3 4) (ways ex_unb (octree ex_unb) 0 1).
Proof. vm_compute. auto. Qed.
