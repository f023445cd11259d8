(** Facts about the finished octree. *)
From Coq Require Import QArith Qabs Qminmax Qround ZArith List Lia Arith Bool Permutation Lqa.
From Verif Require Import ModelOctree ProofsOctTree ProofsOctLevels.
Import ListNotations.
Local Open Scope nat_scope.

Section Final.
  Variable I : oin.
  Hypothesis W : wf_in I.
  Notation st := (octree I).
  Notation bs := (st_blocks (octree I)).
  Notation B := (getb (st_blocks (octree I))).
  Notation N := (o_N I).

  Definition FL : LI I N (fst (levels I N)) (snd (levels I N)) := LI_levels I N W (le_n _).

  Lemma bs_eq : bs = st_blocks (fst (levels I N)).
  Proof. reflexivity. Qed.
  Lemma cl_eq : st_childless st = st_childless (fst (levels I N)) ++ st_parents (fst (levels I N)).
  Proof. reflexivity. Qed.
  Lemma F_tree : tree I bs.
  Proof. apply (g_tree _ _ _ (li_G _ _ _ _ FL)). Qed.
  Lemma F_pos : 0 < length bs.
  Proof. apply F_tree. Qed.
  Lemma F_level_le i : i < length bs -> b_level (B i) <= N.
  Proof. intros H. apply (li_lv _ _ _ _ FL i H). Qed.
  Lemma F_level_range i : i < length bs -> startL st (b_level (B i)) <= i <= endL st (b_level (B i)).
  Proof. intros H. apply (li_lv _ _ _ _ FL i H). Qed.
  Lemma F_start0 : startL st 0 = 0 /\ endL st 0 = 0.
  Proof. apply (li_0 _ _ _ _ FL). Qed.
  Lemma F_next k : k < N -> startL st (S k) = S (endL st k) /\ endL st k <= endL st (S k).
  Proof. apply (li_next _ _ _ _ FL). Qed.
  Lemma F_end : S (endL st N) = length bs.
  Proof. apply (li_end _ _ _ _ FL). Qed.
  Lemma F_end_mono a b : a <= b <= N -> endL st a <= endL st b.
  Proof.
    intros H. replace b with (a + (b - a)) by lia. assert (X : a + (b - a) <= N) by lia. revert X.
    generalize (b - a). induction n; intros X; [rewrite Nat.add_0_r; lia|].
    destruct (F_next (a + n) ltac:(lia)). rewrite Nat.add_succ_r. specialize (IHn ltac:(lia)). lia.
  Qed.
  Lemma F_level_iff i k : i < length bs -> k <= N -> (b_level (B i) = k <-> startL st k <= i <= endL st k).
  Proof.
    intros Hi Hk. assert (R := F_level_range i Hi). assert (L := F_level_le i Hi). split; [intros <-; auto|].
    intros K. destruct (Nat.lt_trichotomy (b_level (B i)) k) as [X|[X|X]]; auto; exfalso.
    - assert (Y := F_end_mono (b_level (B i)) (k - 1) ltac:(lia)). destruct (F_next (k - 1) ltac:(lia)) as (E & _).
      replace (S (k - 1)) with k in E by lia. lia.
    - assert (Y := F_end_mono k (b_level (B i) - 1) ltac:(lia)). destruct (F_next (b_level (B i) - 1) ltac:(lia)) as (E & _).
      replace (S (b_level (B i) - 1)) with (b_level (B i)) in E by lia. lia.
  Qed.
  Lemma F_end_lt k : k <= N -> endL st k < length bs.
  Proof. intros H. assert (X := F_end_mono k N ltac:(lia)). assert (Y := F_end). lia. Qed.
  Lemma F_level_ids i k : k <= N -> (In i (level_ids st k) <-> i < length bs /\ b_level (B i) = k).
  Proof.
    intros Hk. unfold level_ids. rewrite in_seq. split.
    - intros H. assert (E := F_end_lt k Hk). assert (i < length bs) by lia. split; auto. apply F_level_iff; auto. lia.
    - intros (Hi & Hl). apply F_level_iff in Hl; auto. lia.
  Qed.

  Lemma F_leaf i : i < length bs -> (b_kids (B i) = [] <-> In i (st_childless st)).
  Proof. intros Hi. rewrite (g_leaf _ _ _ (li_G _ _ _ _ FL) i Hi). simpl. rewrite in_app_iff. tauto. Qed.
  Lemma F_cl i : In i (st_childless st) -> i < length bs.
  Proof.
    simpl. rewrite in_app_iff. intros [H|H].
    - apply (g_cl _ _ _ (li_G _ _ _ _ FL) i H). - apply (g_open _ _ _ (li_G _ _ _ _ FL) i H).
  Qed.
  Lemma F_cl_nodup : NoDup (st_childless st).
  Proof.
    simpl. assert (HG := li_G _ _ _ _ FL). assert (Hn := g_nodup _ _ _ HG). assert (Hp := li_parnd _ _ _ _ FL).
    assert (Hd : forall x, In x (st_childless (fst (levels I N))) -> ~ In x (st_parents (fst (levels I N)))).
    { intros x Hx. apply (g_cl _ _ _ HG x Hx). }
    revert Hn Hp Hd. generalize (st_childless (fst (levels I N))) (st_parents (fst (levels I N))). intros a b Ha Hb Hd.
    induction a; simpl; auto. inversion Ha; subst. constructor.
    - rewrite in_app_iff. intros [X|X]; [auto|]. apply (Hd a); auto. left; auto.
    - apply IHa; auto. intros x X. apply Hd. right; auto.
  Qed.

  Lemma F_qtb b q : In b (st_childless st) -> In q (b_quads (B b)) ->
    st_qtb st q = ancestors bs b ++ repeat b (S (N - b_level (B b))).
  Proof.
    rewrite cl_eq, in_app_iff. assert (HG := li_G _ _ _ _ FL). intros [H|H] Hq.
    - exact (g_qc _ _ _ HG b q H Hq).
    - assert (L : b_level (B b) = N) by exact (li_par _ _ _ _ FL b H). rewrite L, Nat.sub_diag.
      exact (g_qo _ _ _ HG b q H Hq).
  Qed.
  Lemma F_dtb b d : In b (st_childless st) -> In d (b_nodes (B b)) ->
    st_dtb st d = dpushes bs b ++ repeat b (N - b_level (B b)).
  Proof.
    rewrite cl_eq, in_app_iff. assert (HG := li_G _ _ _ _ FL). intros [H|H] Hq.
    - exact (g_dc _ _ _ HG b d H Hq).
    - assert (L : b_level (B b) = N) by exact (li_par _ _ _ _ FL b H). rewrite L, Nat.sub_diag, app_nil_r.
      exact (g_do _ _ _ HG b d H Hq).
  Qed.

  (** ancestors as positions on the path *)
  Lemma anc_nth b k : b < length bs -> k < b_level (B b) ->
    let a := nth k (ancestors bs b) 0 in
    a < length bs /\ b_level (B a) = k /\ b_kids (B a) <> [] /\
    (forall q, In q (b_quads (B b)) -> In q (b_quads (B a))) /\
    (forall q, In q (b_nodes (B b)) -> In q (b_nodes (B a))).
  Proof.
    assert (HT := F_tree). intros Hb Hk. remember (b_level (B b)) as n. revert b Hb Heqn Hk.
    induction n; intros b Hb En Hk; [lia|].
    assert (b <> 0) by (intros ->; assert (Z := proj2 (level_pos I bs HT 0 Hb) eq_refl); lia).
    assert (L := parent_level I bs HT b ltac:(lia)). destruct (parent_info I bs HT b ltac:(lia)) as (A & C).
    rewrite (ancestors_parent I bs b HT) by lia. cbv zeta.
    assert (AL := ancestors_length I bs (b_parent (B b)) HT ltac:(lia)).
    destruct (Nat.eq_dec k n) as [->|Nk].
    - rewrite app_nth2 by lia. rewrite AL. replace (n - b_level (B (b_parent (B b)))) with 0 by lia. cbn [nth].
      split; [lia|]. split; [lia|]. split; [intros E; rewrite E in C; destruct C|]. split.
      + intros q Hq. apply (quads_parent I bs HT); auto; lia.
      + intros q Hq. apply (nodes_parent I bs HT); auto; lia.
    - rewrite app_nth1 by lia. destruct (IHn (b_parent (B b)) ltac:(lia) ltac:(lia) ltac:(lia)) as (X1 & X2 & X3 & X4 & X5).
      repeat split; auto; intros q Hq.
      + apply X4. apply (quads_parent I bs HT); auto; lia.
      + apply X5. apply (nodes_parent I bs HT); auto; lia.
  Qed.

  (** the leaf of a quadrature point, of a node *)
  Lemma leaf_of_quad q : q < o_nq I -> exists b, In b (st_childless st) /\ In q (b_quads (B b)).
  Proof.
    intros H. destruct (quads_leaf I bs F_tree q (proj2 (root_quads I bs F_tree q) H)) as (b & A & C & D).
    exists b. split; auto. apply F_leaf; auto.
  Qed.
  Lemma leaf_of_node d : d < o_nd I -> exists b, In b (st_childless st) /\ In d (b_nodes (B b)).
  Proof.
    intros H. destruct (nodes_leaf I bs F_tree d (proj2 (root_nodes I bs F_tree d) H)) as (b & A & C & D).
    exists b. split; auto. apply F_leaf; auto.
  Qed.
  Lemma quad_bound b q : b < length bs -> In q (b_quads (B b)) -> q < o_nq I.
  Proof. intros H Hq. apply (root_quads I bs F_tree). apply (quads_to_root I bs F_tree b); auto. Qed.
  Lemma node_bound b q : b < length bs -> In q (b_nodes (B b)) -> q < o_nd I.
  Proof. intros H Hq. apply (root_nodes I bs F_tree). apply (nodes_to_root I bs F_tree b); auto. Qed.

  (** frontier of level l: blocks of that level and childless blocks above *)
  Definition front (l b : nat) : Prop :=
    b < length bs /\ (b_level (B b) = l \/ (b_level (B b) < l /\ b_kids (B b) = [])).

  Definition qb (q l : nat) : nat := nth l (st_qtb st q) 0.

  Lemma qtb_length q : q < o_nq I -> length (st_qtb st q) = S N.
  Proof.
    intros H. destruct (leaf_of_quad q H) as (b & Hb & Hq). rewrite (F_qtb b q Hb Hq).
    rewrite app_length, repeat_length, (ancestors_length I bs b F_tree (F_cl b Hb)).
    assert (X := F_level_le b (F_cl b Hb)). lia.
  Qed.
  Lemma nth_repeat' (x : nat) n k d : k < n -> nth k (repeat x n) d = x.
  Proof. revert k; induction n; intros k H; [lia|]. destruct k; simpl; auto. apply IHn; lia. Qed.

  Lemma qb_front q l : q < o_nq I -> l <= N -> front l (qb q l) /\ In q (b_quads (B (qb q l))).
  Proof.
    intros H Hl. destruct (leaf_of_quad q H) as (b & Hb & Hq). unfold qb. rewrite (F_qtb b q Hb Hq).
    assert (Hbl := F_cl b Hb). assert (AL := ancestors_length I bs b F_tree Hbl).
    destruct (Nat.lt_ge_cases l (b_level (B b))) as [X|X].
    - rewrite app_nth1 by lia. destruct (anc_nth b l Hbl X) as (A1 & A2 & A3 & A4 & _). split; auto. split; auto.
    - rewrite app_nth2 by lia. rewrite AL. assert (Y := F_level_le b Hbl). rewrite nth_repeat' by lia.
      split; auto. split; auto. apply F_leaf in Hb; auto. destruct (Nat.eq_dec (b_level (B b)) l); [auto|right; split; auto; lia].
  Qed.

  Lemma front_unique_q l b b' q : front l b -> front l b' -> In q (b_quads (B b)) -> In q (b_quads (B b')) -> b = b'.
  Proof.
    assert (HT := F_tree).
    assert (Wl : forall a c, front l a -> front l c -> b_level (B a) < b_level (B c) -> In q (b_quads (B a)) -> In q (b_quads (B c)) -> False).
    { intros a c (Ha & Fa) (Hc & Fc) L Qa Qc. destruct Fa as [Fa|(Fa & Ka)]; [destruct Fc; lia|].
      destruct (anc_nth c (b_level (B a)) Hc L) as (X1 & X2 & X3 & X4 & _).
      assert (a = nth (b_level (B a)) (ancestors bs c) 0) by (apply (quads_same_level I bs HT a _ q); auto). congruence. }
    intros F F' H H'. destruct (Nat.lt_trichotomy (b_level (B b)) (b_level (B b'))) as [X|[X|X]].
    - exfalso; apply (Wl b b'); auto.
    - apply (quads_same_level I bs HT b b' q); auto; [apply F|apply F'].
    - exfalso; apply (Wl b' b); auto.
  Qed.
  Lemma front_unique_n l b b' q : front l b -> front l b' -> In q (b_nodes (B b)) -> In q (b_nodes (B b')) -> b = b'.
  Proof.
    assert (HT := F_tree).
    assert (Wl : forall a c, front l a -> front l c -> b_level (B a) < b_level (B c) -> In q (b_nodes (B a)) -> In q (b_nodes (B c)) -> False).
    { intros a c (Ha & Fa) (Hc & Fc) L Qa Qc. destruct Fa as [Fa|(Fa & Ka)]; [destruct Fc; lia|].
      destruct (anc_nth c (b_level (B a)) Hc L) as (X1 & X2 & X3 & _ & X4).
      assert (a = nth (b_level (B a)) (ancestors bs c) 0) by (apply (nodes_same_level I bs HT a _ q); auto). congruence. }
    intros F F' H H'. destruct (Nat.lt_trichotomy (b_level (B b)) (b_level (B b'))) as [X|[X|X]].
    - exfalso; apply (Wl b b'); auto.
    - apply (nodes_same_level I bs HT b b' q); auto; [apply F|apply F'].
    - exfalso; apply (Wl b' b); auto.
  Qed.
  Lemma qb_iff l b q : front l b -> l <= N -> (In q (b_quads (B b)) <-> q < o_nq I /\ qb q l = b).
  Proof.
    intros F Hl. split.
    - intros Hq. assert (H := quad_bound b q (proj1 F) Hq). split; auto. destruct (qb_front q l H Hl) as (A & C).
      apply (front_unique_q l _ _ q); auto.
    - intros (H & <-). apply qb_front; auto.
  Qed.

  (** node analogue: the frontier block of a node *)
  Lemma node_front d l : d < o_nd I -> l <= N -> exists b, front l b /\ In d (b_nodes (B b)).
  Proof.
    intros H Hl. destruct (leaf_of_node d H) as (b & Hb & Hq). assert (Hbl := F_cl b Hb).
    destruct (Nat.lt_ge_cases l (b_level (B b))) as [X|X].
    - destruct (anc_nth b l Hbl X) as (A1 & A2 & A3 & _ & A4). eexists. split; [split; [exact A1|left; exact A2]|auto].
    - exists b. split; auto. split; auto. apply F_leaf in Hb; auto. destruct (Nat.eq_dec (b_level (B b)) l); [auto|right; split; auto; lia].
  Qed.

  (** refinement of a frontier *)
  Lemma refine1_front l b b' : front l b -> S l <= N -> In b' (refine1 bs b) -> front (S l) b'.
  Proof.
    intros (Hb & F) Hl H. unfold refine1 in H. destruct (b_kids (B b)) as [|k ks] eqn:E.
    - destruct H as [<-|[]]. split; auto. right. split; auto. destruct F as [|[]]; lia.
    - rewrite <- E in H. destruct (kid_info I bs F_tree b b' Hb H) as (A1 & _ & A2 & _).
      split; [lia|]. left. destruct F as [|[? F]]; [lia|congruence].
  Qed.
  Lemma refine1_quads l b b' q : front l b -> In b' (refine1 bs b) -> In q (b_quads (B b')) -> In q (b_quads (B b)).
  Proof.
    intros (Hb & F) H Hq. unfold refine1 in H. destruct (b_kids (B b)) as [|k ks] eqn:E.
    - destruct H as [<-|[]]. auto.
    - rewrite <- E in H. apply (quads_kid I bs F_tree b b'); auto.
  Qed.
  Lemma refine1_qb q l : q < o_nq I -> S l <= N -> In (qb q (S l)) (refine1 bs (qb q l)).
  Proof.
    intros H Hl. destruct (qb_front q l H ltac:(lia)) as (F & Hq). unfold refine1.
    destruct (b_kids (B (qb q l))) as [|k ks] eqn:E.
    - left. apply (front_unique_q (S l) _ _ q); auto; try (apply qb_front; auto).
      destruct F as (F1 & F2). split; auto. right. split; auto. destruct F2 as [|[]]; lia.
    - rewrite <- E. destruct (quads_some_kid I bs F_tree (qb q l) q (proj1 F) ltac:(congruence) Hq) as (c & Hc & Hqc).
      assert (c = qb q (S l)); [|subst; auto].
      apply (front_unique_q (S l) _ _ q); auto; try (apply qb_front; auto).
      apply (refine1_front l (qb q l)); auto. unfold refine1. rewrite E, <- E. auto.
  Qed.
  Lemma refine1_leaf l b : front l b -> S l <= N -> refine1 bs b <> [].
  Proof. intros _ _. unfold refine1. destruct (b_kids (B b)); discriminate. Qed.

  (** dofs_filled_blocks *)
  Lemma weight_nonneg n : (0 <= 1 / inject_Z (Z.of_nat n))%Q.
  Proof.
    destruct n; [unfold Qle; simpl; lia|]. apply Qle_shift_div_l; [unfold Qlt; simpl; lia|]. lra.
  Qed.
  Lemma weight_pos n : 0 < n -> (0 < 1 / inject_Z (Z.of_nat n))%Q.
  Proof.
    intros H. apply Qlt_shift_div_l; [unfold Qlt; simpl; lia|]. lra.
  Qed.
  Lemma fold_weight l w : (0 <= w)%Q ->
    (w <= fold_left (fun w n => w + 1 / inject_Z (Z.of_nat (length (o_dbl I n)))) l w)%Q.
  Proof.
    revert w; induction l as [|a l IH]; intros w H; simpl; [lra|].
    assert (X := weight_nonneg (length (o_dbl I a))).
    eapply Qle_trans; [|apply IH]; lra.
  Qed.
  Lemma has_weight_iff b : b < length bs -> (has_weight I (B b) = true <-> b_nodes (B b) <> []).
  Proof.
    intros Hb. unfold has_weight. rewrite negb_true_iff. split.
    - intros H E. unfold block_weight in H. rewrite E in H. simpl in H. discriminate.
    - intros H. destruct (Qle_bool (block_weight I (B b)) 0%Q) eqn:E; auto. apply Qle_bool_iff in E. exfalso.
      unfold block_weight in E. destruct (b_nodes (B b)) as [|d r] eqn:En; [congruence|].
      assert (Hd : d < o_nd I) by (apply (node_bound b); auto; rewrite En; left; auto).
      simpl fold_left in E. destruct W as (_ & _ & W1 & _). destruct (W1 d Hd) as (W2 & _).
      assert (0 < length (o_dbl I d)) by (destruct (o_dbl I d); [destruct W2|simpl; lia]).
      assert (X := weight_pos (length (o_dbl I d)) H0).
      assert (Y := fold_weight r (0 + 1 / inject_Z (Z.of_nat (length (o_dbl I d))))%Q ltac:(lra)). lra.
  Qed.
  Lemma dfill_in b l : 0 < l <= N -> (In b (nth l (st_dfill st) []) <-> b < length bs /\ b_level (B b) = l /\ b_nodes (B b) <> []).
  Proof.
    intros Hl. destruct (li_df _ _ _ _ FL) as (_ & _ & E). change (st_dfill st) with (st_dfill (fst (levels I N))).
    rewrite (E l Hl). rewrite filter_In. change (level_ids (fst (levels I N)) l) with (level_ids st l).
    rewrite F_level_ids by lia. rewrite <- bs_eq. split.
    - intros ((A & C) & D). repeat split; auto. apply has_weight_iff; auto.
    - intros (A & C & D). repeat split; auto. apply has_weight_iff; auto.
  Qed.
  Lemma dfill_nodup l : l <= N -> NoDup (nth l (st_dfill st) []).
  Proof.
    intros Hl. destruct (li_df _ _ _ _ FL) as (_ & Z & E). change (st_dfill st) with (st_dfill (fst (levels I N))).
    destruct (Nat.eq_dec l 0) as [->|N0]; [rewrite Z; constructor|]. rewrite (E l) by lia. apply NoDup_filter, seq_NoDup.
  Qed.
End Final.
