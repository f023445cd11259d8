(** * Distances between block centres, nodes and quadrature points, as real numbers. *)
From Coq Require Import QArith Qminmax Qreals Reals ZArith List Lia Lra Arith Bool.
From Verif Require Import ModelOctree SpecOctree ModelFmm ProofsOctTree ProofsOctLevels ProofsOctFacts ProofsOctLists ProofsFmmCover ProofsOctGeom ProofsOctMore PropOctree ModelFmmExp.
From Verif Require ModelExp.
Import ListNotations.
Local Open Scope nat_scope.

Lemma Q2R_half x : Q2R (x / 2) = (Q2R x / 2)%R.
Proof. unfold Qdiv. rewrite Q2R_mult. unfold Rdiv. f_equal. unfold Q2R, Qinv; simpl. lra. Qed.
Lemma center_centre b : block_center b = rpt (centre b).
Proof. unfold block_center, rpt, centre. cbn [px py pz]. rewrite !Q2R_plus, !Q2R_half. reflexivity. Qed.
Lemma square_dist2 p q : ModelExp.square (ModelExp.psub (rpt p) (rpt q)) = Q2R (dist2 p q).
Proof. unfold dist2, ModelExp.square, ModelExp.psub, rpt. cbn [ModelExp.cx ModelExp.cy ModelExp.cz]. rewrite !Q2R_plus, !Q2R_mult, !Q2R_minus. reflexivity. Qed.
Lemma dist_ge p q (r : R) : (0 <= r)%R -> (r * r <= Q2R (dist2 p q))%R -> (r <= ModelExp.distance (rpt p) (rpt q))%R.
Proof. intros Hr H0. unfold ModelExp.distance. rewrite square_dist2. rewrite <- (sqrt_square r) at 1 by auto. apply sqrt_le_1_alt. auto. Qed.
Lemma dist_upper p q (r : R) : (0 <= r)%R -> (Q2R (dist2 p q) <= r * r)%R -> (ModelExp.distance (rpt p) (rpt q) <= r)%R.
Proof. intros Hr H0. unfold ModelExp.distance. rewrite square_dist2. rewrite <- (sqrt_square r) by auto. apply sqrt_le_1_alt. auto. Qed.
Lemma dist2_sym p q : (dist2 p q == dist2 q p)%Q. Proof. unfold dist2. ring. Qed.
Lemma distance_sym x y : ModelExp.distance x y = ModelExp.distance y x.
Proof. unfold ModelExp.distance, ModelExp.square, ModelExp.psub. cbn. f_equal. ring. Qed.
Lemma distance_refl x : ModelExp.distance x x = 0%R.
Proof. unfold ModelExp.distance, ModelExp.square, ModelExp.psub. cbn. rewrite <- sqrt_0. f_equal. ring. Qed.
Lemma Q2R_num (z : Z) : Q2R (inject_Z z) = IZR z. Proof. unfold Q2R, inject_Z. simpl. lra. Qed.

Section Geo.
  Variable I : oin.
  Hypothesis W : wf_in I.
  Hypothesis RX : exact_arithmetic I.
  Notation st := (octree I).
  Notation bs := (st_blocks (octree I)).
  Notation B := (getb (st_blocks (octree I))).
  Definition side (k : nat) : R := Q2R (b_delta (B k)).
  Definition cen (k : nat) : ModelExp.pt := block_center (B k).
  Definition root_side : R := Q2R (b_delta (B 0)).
  Definition least_side : R := (root_side / 2 ^ o_N I)%R.
  Lemma side_level k : k < length bs -> (side k * 2 ^ b_level (B k) = root_side)%R.
  Proof.
    intros Hk. assert (E := C33_side_halves_at_each_level I k W Hk). apply Qeq_eqR in E. rewrite Q2R_mult, Q2R_num in E. unfold blk in E. unfold side, root_side. rewrite <- E. f_equal.
    rewrite <- pow_IZR. f_equal.
  Qed.
  Lemma side_nonneg k : k < length bs -> (0 <= side k)%R.
  Proof. intros Hk. unfold side. replace 0%R with (Q2R 0) by (unfold Q2R; simpl; lra). apply Qle_Rle. apply (delta_nonneg I W 0 (exact_rounding I RX)); auto. Qed.
  Lemma side_least k : k < length bs -> (least_side <= side k)%R.
  Proof.
    intros Hk. assert (E := side_level k Hk). assert (P := side_nonneg k Hk). assert (L := F_level_le I W k Hk). unfold least_side. rewrite <- E.
    assert (P1 : (0 < 2 ^ o_N I)%R) by (apply pow_lt; lra). apply (Rmult_le_reg_r (2 ^ o_N I)); auto. unfold Rdiv. rewrite Rmult_assoc, Rinv_l by lra. rewrite Rmult_1_r.
    apply Rmult_le_compat_l; auto. apply Rle_pow; lra || lia.
  Qed.
  Lemma parent_side k : 0 < k < length bs -> side k = (side (b_parent (B k)) / 2)%R.
  Proof. intros Hk. unfold side. rewrite (proj2 (kid_fields I W k Hk)) at 1. apply Q2R_half. Qed.
  Lemma parent_distance k : 0 < k < length bs -> (side k / 2 <= ModelExp.distance (cen k) (cen (b_parent (B k))))%R.
  Proof.
    intros Hk. unfold cen. rewrite !center_centre. assert (P := side_nonneg k ltac:(lia)). apply dist_ge; [lra|].
    destruct (kid_fields I W k Hk) as (E1 & E2). set (pa := B (b_parent (B k))) in *.
    assert (Ex : forall x y, (Q2R ((x - y) * (x - y)) = (Q2R x - Q2R y) * (Q2R x - Q2R y))%R) by (intros; rewrite Q2R_mult, Q2R_minus; reflexivity).
    unfold dist2. rewrite !Q2R_plus, !Ex.
    assert (X : ((Q2R (px (centre (B k))) - Q2R (px (centre pa))) * (Q2R (px (centre (B k))) - Q2R (px (centre pa))) = (side k / 2) * (side k / 2))%R).
    { unfold centre. cbn [px]. rewrite !Q2R_plus, !Q2R_half. assert (M := child_min_co (o_rnd I) (b_min pa) (b_delta pa / 2) (code I k) 0 (proj1 (code_ok I W k Hk))). rewrite <- E1 in M. cbn [co] in M.
      assert (M' : (px (b_min (B k)) == px (b_min pa) + inject_Z (bit 0 (code I k)) * (b_delta pa / 2))%Q) by (rewrite M; unfold rshift; destruct (bit01 0 (code I k)) as [-> | ->]; cbn [Z.eqb Pos.eqb]; [change (inject_Z 0) with 0%Q|rewrite (RX _); change (inject_Z 1) with 1%Q]; ring).
      clear M. rename M' into M. apply Qeq_eqR in M.
      rewrite Q2R_plus, Q2R_mult, Q2R_half in M. assert (S2 := parent_side k Hk). unfold side in *. fold pa in S2. rewrite M. destruct (bit01 0 (code I k)) as [-> | ->]; rewrite Q2R_num, S2; field. }
    rewrite X. assert (Y := Rle_0_sqr (Q2R (py (centre (B k))) - Q2R (py (centre pa)))). assert (Z := Rle_0_sqr (Q2R (pz (centre (B k))) - Q2R (pz (centre pa)))). unfold Rsqr in *. lra.
  Qed.
  Lemma gap_apart g b c : b < length bs -> c < length bs -> (0 < least_side)%R -> (0 <= g)%Q -> gap g (B b) (B c) -> cen c <> cen b.
  Proof.
    intros Hb Hc P Hg (a & Ha & G) E. assert (P1 := Rlt_le_trans _ _ _ P (side_least b Hb)). assert (P2 := Rlt_le_trans _ _ _ P (side_least c Hc)).
    assert (Pg : (0 <= Q2R g)%R) by (replace 0%R with (Q2R 0) by (unfold Q2R; simpl; lra); apply Qle_Rle; auto).
    unfold cen, block_center, side in *. assert (Ex := f_equal ModelExp.cx E). assert (Ey := f_equal ModelExp.cy E). assert (Ez := f_equal ModelExp.cz E). cbn [ModelExp.cx ModelExp.cy ModelExp.cz] in Ex, Ey, Ez. clear E.
    destruct a as [|[|a]]; cbn [axis] in G; destruct G as [G|G]; apply Qle_Rle in G; rewrite !Q2R_plus in G; lra.
  Qed.
  Lemma nonint_bound l b c t : 1 <= l <= o_N I -> In b (nth l (st_dfill st) []) -> t < near_levels I st b -> In c (nonint_list I st b t) -> 0 < b < length bs /\ c < length bs.
  Proof.
    intros Hl Hb Ht Hc. apply (dfill_in I W) in Hb; [|lia]. destruct Hb as (Hb & Lb & _).
    assert (B0 : 0 < b) by (destruct (Nat.eq_dec b 0) as [->|]; [assert (Z := proj2 (level_pos I bs (F_tree I W) 0 Hb) eq_refl); lia|lia]). split; [lia|].
    destruct (Nat.eq_dec (b_level (B b)) 1) as [L1|L1]; [rewrite (nonint_1 I) in Hc by auto; destruct Hc|]. apply (nonint_front I W b t c ltac:(lia) L1 Ht Hc).
  Qed.
  Lemma nonint_apart l b c t : (0 < least_side)%R -> 1 <= l <= o_N I -> In b (nth l (st_dfill st) []) -> t < near_levels I st b -> In c (nonint_list I st b t) -> cen c <> cen b.
  Proof.
    intros P Hl Hb Ht Hc. destruct (nonint_bound l b c t Hl Hb Ht Hc) as (Hb' & Hc'). refine (gap_apart _ b c ltac:(lia) Hc' P _ (C39_non_interaction_lists_do_not_touch I b c t W RX Hb' Ht Hc)).
    apply Q.min_glb; apply (delta_nonneg I W 0 (exact_rounding I RX)); lia.
  Qed.
  Lemma nonint_node l b c t i : (0 < least_side)%R -> 1 <= l <= o_N I -> In b (nth l (st_dfill st) []) -> t < near_levels I st b -> In c (nonint_list I st b t) -> In i (b_nodes (B b)) -> rpt (o_pos I i) <> cen c.
  Proof.
    intros P Hl Hb Ht Hc Hi E. destruct (nonint_bound l b c t Hl Hb Ht Hc) as (Hb' & Hc'). destruct (C39_non_interaction_lists_do_not_touch I b c t W RX Hb' Ht Hc) as (a & Ha & G).
    assert (In1 := C33_nodes_lie_in_their_block I b i W RX ltac:(unfold num_blocks; lia) Hi a Ha). unfold blk in *.
    assert (Pg : (0 <= Q2R (Qmin (b_delta (B b)) (b_delta (B c))))%R) by (replace 0%R with (Q2R 0) by (unfold Q2R; simpl; lra); apply Qle_Rle; apply Q.min_glb; apply (delta_nonneg I W 0 (exact_rounding I RX)); lia).
    assert (P2 := Rlt_le_trans _ _ _ P (side_least c Hc')). unfold side in P2. destruct In1 as (I1 & I2). apply Qle_Rle in I1, I2. rewrite Q2R_plus in I2.
    unfold cen, block_center, rpt in E. assert (Ex := f_equal ModelExp.cx E). assert (Ey := f_equal ModelExp.cy E). assert (Ez := f_equal ModelExp.cz E). cbn [ModelExp.cx ModelExp.cy ModelExp.cz] in Ex, Ey, Ez. clear E.
    destruct a as [|[|a]]; cbn [axis] in *; destruct G as [G|G]; apply Qle_Rle in G; rewrite !Q2R_plus in G; lra.
  Qed.
End Geo.
