(** The level loop of the octree generation: invariants of the whole state. *)
From Coq Require Import QArith Qabs Qminmax Qround ZArith List Lia Arith Bool Permutation.
From Verif Require Import ModelOctree ProofsOctTree.
From Verif Require Export SpecOctree.
Import ListNotations.
Local Open Scope nat_scope.

(** strict ancestors, root first *)
Fixpoint spath (bs : list block) (n b : nat) : list nat :=
  match n with 0 => [] | S m => spath bs m (b_parent (getb bs b)) ++ [b_parent (getb bs b)] end.
Definition ancestors (bs : list block) (b : nat) : list nat := spath bs (b_level (getb bs b)) b.

Lemma quads_root I ks : NoDup (b_quads (with_kids (root_block I) ks)).
Proof. apply seq_NoDup. Qed.
Lemma nodes_root I ks : NoDup (b_nodes (with_kids (root_block I) ks)).
Proof. apply seq_NoDup. Qed.
Lemma quads_ne b x : In x (b_quads b) -> nonempty b = true.
Proof. unfold nonempty. intros H. apply Nat.ltb_lt. destruct (b_quads b); [destruct H|simpl; lia]. Qed.
Lemma nodes_ne b x : In x (b_nodes b) -> nonempty b = true.
Proof. unfold nonempty. intros H. apply Nat.ltb_lt. destruct (b_nodes b); [destruct H|simpl; lia]. Qed.

Section QuadFacts.
  Variable I : oin.
  Variable bs : list block.
  Hypothesis HT : tree I bs.
  Notation B := (getb bs).
  Definition quads_kid i k x := pts_kid I bs HT b_quads (o_qpos I) (fun _ _ => eq_refl) (fun _ _ _ _ _ => eq_refl) i k x.
  Definition nodes_kid i k x := pts_kid I bs HT b_nodes (o_pos I) (fun _ _ => eq_refl) (fun _ _ _ _ _ => eq_refl) i k x.
  Definition quads_parent k x := pts_parent I bs HT b_quads (o_qpos I) (fun _ _ => eq_refl) (fun _ _ _ _ _ => eq_refl) k x.
  Definition nodes_parent k x := pts_parent I bs HT b_nodes (o_pos I) (fun _ _ => eq_refl) (fun _ _ _ _ _ => eq_refl) k x.
  Definition quads_nodup i := pts_nodup I bs HT b_quads (o_qpos I) (quads_root I) (fun _ _ => eq_refl) (fun _ _ _ _ _ => eq_refl) i.
  Definition nodes_nodup i := pts_nodup I bs HT b_nodes (o_pos I) (nodes_root I) (fun _ _ => eq_refl) (fun _ _ _ _ _ => eq_refl) i.
  Definition quads_some_kid i x := pts_some_kid I bs HT b_quads (o_qpos I) (fun _ _ => eq_refl) quads_ne (fun _ _ _ _ _ => eq_refl) i x.
  Definition nodes_some_kid i x := pts_some_kid I bs HT b_nodes (o_pos I) (fun _ _ => eq_refl) nodes_ne (fun _ _ _ _ _ => eq_refl) i x.
  Definition quads_one_kid i k k' x := pts_one_kid I bs HT b_quads (o_qpos I) (fun _ _ => eq_refl) (fun _ _ _ _ _ => eq_refl) i k k' x.
  Definition nodes_one_kid i k k' x := pts_one_kid I bs HT b_nodes (o_pos I) (fun _ _ => eq_refl) (fun _ _ _ _ _ => eq_refl) i k k' x.
  Definition quads_same_level b b' x := pts_same_level I bs HT b_quads (o_qpos I) (fun _ _ => eq_refl) (fun _ _ _ _ _ => eq_refl) b b' x.
  Definition nodes_same_level b b' x := pts_same_level I bs HT b_nodes (o_pos I) (fun _ _ => eq_refl) (fun _ _ _ _ _ => eq_refl) b b' x.
  Definition quads_leaf_unique b b' x := pts_leaf_unique I bs HT b_quads (o_qpos I) (fun _ _ => eq_refl) (fun _ _ _ _ _ => eq_refl) b b' x.
  Definition nodes_leaf_unique b b' x := pts_leaf_unique I bs HT b_nodes (o_pos I) (fun _ _ => eq_refl) (fun _ _ _ _ _ => eq_refl) b b' x.
  Definition quads_to_root i x := pts_root I bs HT b_quads (o_qpos I) (fun _ _ => eq_refl) (fun _ _ _ _ _ => eq_refl) i x.
  Definition nodes_to_root i x := pts_root I bs HT b_nodes (o_pos I) (fun _ _ => eq_refl) (fun _ _ _ _ _ => eq_refl) i x.
  Definition quads_leaf x := pts_leaf I bs HT b_quads (o_qpos I) (fun _ _ => eq_refl) quads_ne (fun _ _ _ _ _ => eq_refl) x.
  Definition nodes_leaf x := pts_leaf I bs HT b_nodes (o_pos I) (fun _ _ => eq_refl) nodes_ne (fun _ _ _ _ _ => eq_refl) x.
  Definition quads_kids_perm i := kids_perm I bs HT b_quads (o_qpos I) (quads_root I) (fun _ _ => eq_refl) quads_ne (fun _ _ _ _ _ => eq_refl) i.
  Definition nodes_kids_perm i := kids_perm I bs HT b_nodes (o_pos I) (nodes_root I) (fun _ _ => eq_refl) nodes_ne (fun _ _ _ _ _ => eq_refl) i.

  Lemma root_quads x : In x (b_quads (B 0)) <-> x < o_nq I.
  Proof. destruct HT as (_ & (k & E) & _). rewrite E. simpl. rewrite in_seq. lia. Qed.
  Lemma root_nodes x : In x (b_nodes (B 0)) <-> x < o_nd I.
  Proof. destruct HT as (_ & (k & E) & _). rewrite E. simpl. rewrite in_seq. lia. Qed.

  Lemma nonempty_child j : nonempty (B j) = true -> cs_of I bs j <> [].
  Proof.
    intros H E. unfold nonempty in H. apply Nat.ltb_lt in H.
    assert (X : exists c, In c (cs_of I bs j)).
    { destruct (b_nodes (B j)) as [|n r] eqn:En.
      - destruct (b_quads (B j)) as [|q r] eqn:Eq; [simpl in H; lia|].
        exists (octant (o_rnd I) (b_min (B j)) (b_delta (B j) / 2)%Q (o_qpos I q)). apply cs_of_in. split; [apply octant_lt|].
        apply quads_ne with (x := q). simpl. apply filter_In. rewrite Eq. split; [left; auto|apply Nat.eqb_refl].
      - exists (octant (o_rnd I) (b_min (B j)) (b_delta (B j) / 2)%Q (o_pos I n)). apply cs_of_in. split; [apply octant_lt|].
        apply nodes_ne with (x := n). simpl. apply filter_In. rewrite En. split; [left; auto|apply Nat.eqb_refl]. }
    rewrite E in X. destruct X as (c & []).
  Qed.
End QuadFacts.

Lemma spath_eq I bs bs' : tree I bs ->
  (forall i, i < length bs -> exists ks, getb bs' i = with_kids (getb bs i) ks) ->
  forall n b, b < length bs -> spath bs' n b = spath bs n b.
Proof.
  intros HT H. induction n; intros b Hb; [reflexivity|]. simpl.
  destruct (H b Hb) as (ks & E). rewrite E. simpl b_parent.
  assert (P : b_parent (getb bs b) < length bs).
  { destruct (Nat.eq_dec b 0) as [->|N].
    - rewrite (root_parent I bs HT). lia.
    - assert (A := proj1 (parent_info I bs HT b ltac:(lia))). lia. }
  rewrite IHn; auto.
Qed.

Lemma ancestors_in I bs : tree I bs -> forall b a, b < length bs -> In a (ancestors bs b) ->
  a < length bs /\ b_kids (getb bs a) <> [] /\ b_level (getb bs a) < b_level (getb bs b).
Proof.
  intros HT b. remember (b_level (getb bs b)) as n. revert b Heqn.
  induction n; intros b En a Hb Ha; unfold ancestors in Ha; rewrite <- En in Ha; [destruct Ha|].
  assert (N : b <> 0) by (intros ->; assert (Z := proj2 (level_pos I bs HT 0 Hb) eq_refl); lia).
  destruct (parent_info I bs HT b ltac:(lia)) as (A & C).
  assert (L := parent_level I bs HT b ltac:(lia)).
  simpl in Ha. apply in_app_iff in Ha. destruct Ha as [Ha|[<-|[]]].
  - assert (Ep : n = b_level (getb bs (b_parent (getb bs b)))) by lia.
    destruct (IHn (b_parent (getb bs b)) Ep a) as (X & Y & Z); auto; try lia.
    unfold ancestors. rewrite <- Ep. exact Ha.
  - split; [lia|]. split; [intros E; rewrite E in C; destruct C|]. lia.
Qed.

Lemma ancestors_parent I bs b : tree I bs -> 0 < b < length bs ->
  ancestors bs b = ancestors bs (b_parent (getb bs b)) ++ [b_parent (getb bs b)].
Proof.
  intros HT Hb. unfold ancestors at 1. rewrite (parent_level I bs HT b Hb). reflexivity.
Qed.

Lemma ancestors_length I bs b : tree I bs -> b < length bs -> length (ancestors bs b) = b_level (getb bs b).
Proof.
  intros HT Hb. unfold ancestors. generalize (b_level (getb bs b)). intros n. revert b Hb.
  induction n; intros b Hb; [reflexivity|]. simpl. rewrite app_length, IHn; [simpl; lia|].
  destruct (Nat.eq_dec b 0) as [->|N].
  - rewrite (root_parent I bs HT). lia.
  - assert (A := proj1 (parent_info I bs HT b ltac:(lia))). lia.
Qed.

(** quadrature points: what quad_point_to_block must be *)
Definition dpushes (bs : list block) (b : nat) : list nat :=
  0 :: flat_map (fun a => repeat a (length (b_kids (getb bs a)))) (ancestors bs b).

Record G (I : oin) (open : nat -> Prop) (st : ost) : Prop := {
  g_tree : tree I (st_blocks st);
  g_leaf : forall i, i < length (st_blocks st) ->
             (b_kids (getb (st_blocks st) i) = [] <-> In i (st_childless st) \/ open i);
  g_open : forall i, open i -> i < length (st_blocks st) /\ nonempty (getb (st_blocks st) i) = true;
  g_cl : forall i, In i (st_childless st) -> i < length (st_blocks st) /\ ~ open i;
  g_nodup : NoDup (st_childless st);
  g_qo : forall b q, open b -> In q (b_quads (getb (st_blocks st) b)) ->
           st_qtb st q = ancestors (st_blocks st) b ++ [b];
  g_qc : forall b q, In b (st_childless st) -> In q (b_quads (getb (st_blocks st) b)) ->
           st_qtb st q = ancestors (st_blocks st) b ++ [b] ++ repeat b (o_N I - b_level (getb (st_blocks st) b));
  g_do : forall b d, open b -> In d (b_nodes (getb (st_blocks st) b)) ->
           st_dtb st d = dpushes (st_blocks st) b;
  g_dc : forall b d, In b (st_childless st) -> In d (b_nodes (getb (st_blocks st) b)) ->
           st_dtb st d = dpushes (st_blocks st) b ++ repeat b (o_N I - b_level (getb (st_blocks st) b))
}.

Lemma G_ext I o o' st : (forall i, o i <-> o' i) -> G I o st -> G I o' st.
Proof.
  intros E [A1 A2 A3 A4 A5 A6 A7 A8 A9]. constructor; auto.
  - intros i Hi. rewrite (A2 i Hi), E. tauto.
  - intros i Hi. apply A3, E; auto.
  - intros i Hi. rewrite <- E. auto.
  - intros b q Hb. apply A6, E; auto.
  - intros b q Hb. apply A8, E; auto.
Qed.

Lemma count_nodup l x : NoDup l -> In x l -> count_occ Nat.eq_dec l x = 1.
Proof. intros. apply NoDup_count_occ'; auto. Qed.
Lemma count_notin l x : ~ In x l -> count_occ Nat.eq_dec l x = 0.
Proof. intros. apply count_occ_not_In; auto. Qed.

(** pushes made while splitting: exactly the id of the child that contains q *)
Lemma flat_map_seq_single (n i : nat) (f : nat -> list nat) :
  i < n -> (forall j, j < n -> j <> i -> f j = []) -> flat_map f (seq 0 n) = f i.
Proof.
  intros Hi H. replace n with (i + (1 + (n - i - 1))) by lia.
  rewrite !seq_app, !flat_map_app. simpl flat_map at 2. rewrite app_nil_r.
  assert (E : forall s k, (forall j, s <= j < s + k -> f j = []) -> flat_map f (seq s k) = []).
  { intros s k. revert s; induction k; intros s X; [reflexivity|]. simpl. rewrite (X s) by lia. apply IHk. intros; apply X; lia. }
  rewrite (E 0 i), (E (0 + i + 1)); [rewrite app_nil_r; reflexivity| |]; intros j Hj; apply H; lia.
Qed.
Lemma flat_map_seq_none (n : nat) (f : nat -> list nat) : (forall j, j < n -> f j = []) -> flat_map f (seq 0 n) = [].
Proof.
  intros H. assert (E : forall s k, (forall j, s <= j < s + k -> f j = []) -> flat_map f (seq s k) = []).
  { intros s k. revert s; induction k; intros s X; [reflexivity|]. simpl. rewrite (X s) by lia. apply IHk. intros; apply X; lia. }
  apply E. intros; apply H; lia.
Qed.

Section SplitStep.
  Variable I : oin.
  Variables (open : nat -> Prop) (st : ost) (j : nat) (level : nat) (delta : Q).
  Hypothesis HG : G I open st.
  Hypothesis Hj : open j.
  Hypothesis Hlev : level = S (b_level (getb (st_blocks st) j)).
  Hypothesis Hdel : delta = (b_delta (getb (st_blocks st) j) / 2)%Q.
  Notation bs := (st_blocks st).
  Notation st' := (split_block I level delta st j).

  Let Hjl : j < length bs := proj1 (g_open _ _ _ HG j Hj).
  Let Hjk : b_kids (getb bs j) = [].
  Proof. apply (g_leaf _ _ _ HG j Hjl). right; exact Hj. Qed.
  Let HT := g_tree _ _ _ HG.

  Lemma split_blocks : st_blocks st' = split_bs I bs j.
  Proof.
    destruct (split_spec I level delta j st Hjl) as (E & _). rewrite E, Hjk. rewrite Hlev, Hdel. reflexivity.
  Qed.
  Lemma split_rest : st_childless st' = st_childless st /\ st_parents st' = st_parents st /\
     st_start st' = st_start st /\ st_end st' = st_end st /\
     st_dfill st' = st_dfill st /\ st_qfill st' = st_qfill st.
  Proof. destruct (split_spec I level delta j st Hjl) as (_ & _ & _ & A). tauto. Qed.

  Lemma ks_get i : i < length (cs_of I bs j) ->
    getb (prospective I level j delta (getb bs j)) i = getb (split_bs I bs j) (length bs + i).
  Proof.
    intros Hi. rewrite split_bs_new by auto. rewrite Hlev, Hdel, prospective_eq. unfold getb at 1.
    rewrite nth_indep with (d' := child_block I (S (b_level (getb bs j))) j (b_delta (getb bs j) / 2)%Q (getb bs j) 0)
      by (rewrite map_length; exact Hi).
    rewrite map_nth. reflexivity.
  Qed.
  Lemma ks_length : length (prospective I level j delta (getb bs j)) = length (cs_of I bs j).
  Proof. rewrite Hlev, Hdel, prospective_eq, map_length. reflexivity. Qed.

  Let HT' : tree I (split_bs I bs j) := tree_split I bs j HT Hjl Hjk.
  Let HL' : length (split_bs I bs j) = length bs + length (cs_of I bs j) := split_bs_length I bs j Hjl.

  Lemma split_new_kid i : length bs <= i < length (split_bs I bs j) -> In i (b_kids (getb (split_bs I bs j) j)).
  Proof. intros Hi. rewrite split_bs_old, Nat.eqb_refl by auto. simpl. apply in_seq. lia. Qed.

  Lemma split_qtb_in x q : length bs <= x < length (split_bs I bs j) -> In q (b_quads (getb (split_bs I bs j) x)) ->
    st_qtb st' q = st_qtb st q ++ [x].
  Proof.
    intros Hx Hq. destruct (split_spec I level delta j st Hjl) as (_ & E & _). rewrite E. f_equal.
    rewrite ks_length. rewrite flat_map_seq_single with (i := x - length bs).
    - rewrite ks_get by lia. replace (length bs + (x - length bs)) with x by lia. rewrite count_nodup; auto.
      apply (quads_nodup I _ HT'). lia.
    - lia.
    - intros i Hi Hne. rewrite ks_get by auto. rewrite count_notin; auto. intros Hin.
      apply Hne. assert (length bs + i = x); [|lia].
      apply (quads_one_kid I _ HT' j (length bs + i) x q); auto; try lia; apply split_new_kid; lia.
  Qed.
  Lemma split_qtb_out q : ~ In q (b_quads (getb bs j)) -> st_qtb st' q = st_qtb st q.
  Proof.
    intros Hq. destruct (split_spec I level delta j st Hjl) as (_ & E & _). rewrite E.
    rewrite ks_length. rewrite flat_map_seq_none; [apply app_nil_r|].
    intros i Hi. rewrite ks_get by auto. rewrite count_notin; auto. intros Hin. apply Hq.
    apply (quads_kid I _ HT' j (length bs + i) q) in Hin; try lia; [|apply split_new_kid; lia].
    rewrite split_bs_old, Nat.eqb_refl in Hin by auto. exact Hin.
  Qed.
  Lemma split_dtb_in d : In d (b_nodes (getb bs j)) ->
    st_dtb st' d = st_dtb st d ++ repeat j (length (cs_of I bs j)).
  Proof.
    intros Hd. destruct (split_spec I level delta j st Hjl) as (_ & _ & E & _). rewrite E, ks_length.
    rewrite count_nodup; [rewrite Nat.mul_1_r; reflexivity| |auto]. apply (nodes_nodup I _ HT); auto.
  Qed.
  Lemma split_dtb_out d : ~ In d (b_nodes (getb bs j)) -> st_dtb st' d = st_dtb st d.
  Proof.
    intros Hd. destruct (split_spec I level delta j st Hjl) as (_ & _ & E & _). rewrite E.
    rewrite count_notin by auto. rewrite Nat.mul_0_r. apply app_nil_r.
  Qed.

  Lemma split_anc b : b < length bs -> ancestors (split_bs I bs j) b = ancestors bs b.
  Proof.
    intros Hb. unfold ancestors. destruct (split_bs_fields I bs j b Hjl Hb) as (ks & E). rewrite E.
    apply (spath_eq I bs); auto. intros i Hi. apply split_bs_fields; auto.
  Qed.
  Lemma split_dpushes b : b < length bs -> dpushes (split_bs I bs j) b = dpushes bs b.
  Proof.
    intros Hb. unfold dpushes. rewrite split_anc by auto. f_equal.
    rewrite !flat_map_concat_map. f_equal. apply map_ext_in. intros a Ha.
    destruct (ancestors_in I bs HT b a Hb Ha) as (A & C & _). rewrite split_bs_old by auto.
    destruct (Nat.eqb_spec a j) as [->|]; [congruence|reflexivity].
  Qed.

  Lemma G_split : G I (fun i => (open i /\ i <> j) \/ length bs <= i < length (st_blocks st')) st'.
  Proof.
    destruct split_rest as (R1 & _). rewrite split_blocks.
    constructor; rewrite ?split_blocks, ?R1.
    - exact HT'.
    - intros i Hi. destruct (Nat.lt_ge_cases i (length bs)) as [L|L].
      + rewrite split_bs_old by auto. destruct (Nat.eqb_spec i j) as [->|N].
        * simpl. split.
          -- intros E. exfalso. apply (nonempty_child I bs j (proj2 (g_open _ _ _ HG j Hj))).
             apply (f_equal (@length nat)) in E. rewrite seq_length in E. apply length_zero_iff_nil. exact E.
          -- intros [C|[[_ C]|C]]; [|congruence|lia]. exfalso. apply (proj2 (g_cl _ _ _ HG j C)); exact Hj.
        * rewrite (g_leaf _ _ _ HG i L). split; [intros [X|X]; [tauto|right; left; auto]|].
          intros [X|[[X _]|X]]; [tauto|tauto|lia].
      + split; [intros _; right; right; lia|intros _].
        replace i with (length bs + (i - length bs)) by lia. rewrite split_bs_new by lia. reflexivity.
    - intros i [[Ho Hn]|Hn].
      + destruct (g_open _ _ _ HG i Ho) as (A & C). split; [lia|]. rewrite split_bs_old by auto.
        destruct (Nat.eqb_spec i j); [congruence|auto].
      + split; [lia|]. destruct (kid_info I _ HT' j i ltac:(lia) (split_new_kid i Hn)) as (_ & _ & _ & c & _ & ks & _ & A). exact A.
    - intros i Hi. destruct (g_cl _ _ _ HG i Hi) as (A & C). split; [lia|]. intros [[X _]|X]; [auto|lia].
    - apply (g_nodup _ _ _ HG).
    - intros b q [[Ho Hn]|Hn] Hq.
      + destruct (g_open _ _ _ HG b Ho) as (A & C). rewrite split_anc by auto.
        rewrite split_bs_old in Hq by auto. destruct (Nat.eqb_spec b j); [congruence|].
        rewrite split_qtb_out; [apply (g_qo _ _ _ HG); auto|].
        intros Hq'. apply Hn. apply (quads_leaf_unique I bs HT b j q); auto.
        apply (g_leaf _ _ _ HG b A). auto.
      + rewrite (split_qtb_in b q Hn Hq).
        assert (K := split_new_kid b Hn). destruct (kid_info I _ HT' j b ltac:(lia) K) as (_ & P & L & _).
        rewrite (ancestors_parent I _ b HT') by lia. rewrite P. rewrite split_anc by auto.
        f_equal. apply (g_qo _ _ _ HG); auto.
        apply (quads_kid I _ HT' j b q) in Hq; auto; try lia. rewrite split_bs_old, Nat.eqb_refl in Hq by auto. exact Hq.
    - intros b q Hc Hq. destruct (g_cl _ _ _ HG b Hc) as (A & C). rewrite split_anc by auto.
      assert (N : b <> j) by (intros ->; auto). rewrite split_bs_old in * by auto. destruct (Nat.eqb_spec b j); [congruence|].
      rewrite split_qtb_out; [apply (g_qc _ _ _ HG); auto|].
      intros Hq'. apply N. apply (quads_leaf_unique I bs HT b j q); auto. apply (g_leaf _ _ _ HG b A). auto.
    - intros b d [[Ho Hn]|Hn] Hd.
      + destruct (g_open _ _ _ HG b Ho) as (A & C). rewrite split_dpushes by auto.
        rewrite split_bs_old in Hd by auto. destruct (Nat.eqb_spec b j); [congruence|].
        rewrite split_dtb_out; [apply (g_do _ _ _ HG); auto|].
        intros Hd'. apply Hn. apply (nodes_leaf_unique I bs HT b j d); auto.
        apply (g_leaf _ _ _ HG b A). auto.
      + assert (K := split_new_kid b Hn). destruct (kid_info I _ HT' j b ltac:(lia) K) as (_ & P & L & _).
        assert (Hd2 := Hd). apply (nodes_kid I _ HT' j b d) in Hd2; auto; try lia. rewrite split_bs_old, Nat.eqb_refl in Hd2 by auto.
        change (In d (b_nodes (getb bs j))) in Hd2.
        rewrite split_dtb_in by auto. rewrite (g_do _ _ _ HG j d Hj Hd2).
        unfold dpushes. rewrite (ancestors_parent I _ b HT') by lia. rewrite P, flat_map_app.
        assert (X := split_dpushes j Hjl). unfold dpushes in X. injection X as X. rewrite X.
        simpl. rewrite app_nil_r. rewrite split_bs_old, Nat.eqb_refl by auto. simpl. rewrite seq_length. reflexivity.
    - intros b d Hc Hd. destruct (g_cl _ _ _ HG b Hc) as (A & C). rewrite split_dpushes by auto.
      assert (N : b <> j) by (intros ->; auto). rewrite split_bs_old in * by auto. destruct (Nat.eqb_spec b j); [congruence|].
      rewrite split_dtb_out; [apply (g_dc _ _ _ HG); auto|].
      intros Hd'. apply N. apply (nodes_leaf_unique I bs HT b j d); auto. apply (g_leaf _ _ _ HG b A). auto.
  Qed.
End SplitStep.

(** ** classification of the new blocks *)
Definition small (I : oin) (b : block) : bool := Z.leb (qround (block_weight I b)) (Z.of_nat (o_max I)).
Definition has_weight (I : oin) (b : block) : bool := negb (Qle_bool (block_weight I b) 0%Q).
Definition has_quads (b : block) : bool := Nat.ltb 0 (length (b_quads b)).

Lemma push_rep q n x f k :
  fold_left (fun f (_ : nat) => push_all [q] x f) (seq 0 n) f k = f k ++ (if Nat.eqb k q then repeat x n else []).
Proof.
  generalize 0. revert f. induction n; intros f s; cbn [seq fold_left].
  - simpl. destruct (Nat.eqb k q); rewrite app_nil_r; reflexivity.
  - rewrite IHn, push_all_spec. cbn [count_occ repeat]. destruct (Nat.eqb_spec k q) as [E|N].
    + destruct (Nat.eq_dec q k); [|congruence]. simpl. rewrite <- app_assoc. reflexivity.
    + destruct (Nat.eq_dec q k); [congruence|]. simpl. rewrite !app_nil_r. reflexivity.
Qed.
Lemma push_rest l n x f k :
  fold_left (fun f q => fold_left (fun f (_ : nat) => push_all [q] x f) (seq 0 n) f) l f k =
  f k ++ repeat x (count_occ Nat.eq_dec l k * n).
Proof.
  revert f. induction l as [|a l IH]; intros f; [simpl; rewrite app_nil_r; reflexivity|].
  cbn [fold_left count_occ]. rewrite IH, push_rep. destruct (Nat.eqb_spec k a) as [E|N].
  - destruct (Nat.eq_dec a k); [|congruence]. simpl. rewrite <- app_assoc, <- repeat_app. reflexivity.
  - destruct (Nat.eq_dec a k); [congruence|]. rewrite app_nil_r. reflexivity.
Qed.

Lemma G_classify I open st j level :
  G I open st -> open j -> level = b_level (getb (st_blocks st) j) ->
  G I (fun i => open i /\ (small I (getb (st_blocks st) j) = true -> i <> j)) (classify I level st j).
Proof.
  intros HG Hj Hl. destruct (g_open _ _ _ HG j Hj) as (Hjl & Hjn).
  assert (HT := g_tree _ _ _ HG).
  assert (Hjk : b_kids (getb (st_blocks st) j) = []) by (apply (g_leaf _ _ _ HG j Hjl); auto).
  unfold classify. fold (small I (getb (st_blocks st) j)).
  destruct (small I (getb (st_blocks st) j)) eqn:S.
  2:{ apply G_ext with (o := open); [intros; intuition congruence|].
      destruct HG as [A1 A2 A3 A4 A5 A6 A7 A8 A9]. constructor; simpl; auto. }
  apply G_ext with (o := fun i => open i /\ i <> j); [intros; tauto|].
  constructor; cbn [st_blocks st_qtb st_dtb st_parents st_childless st_start st_end st_dfill st_qfill].
  - exact HT.
  - intros i Hi. rewrite (g_leaf _ _ _ HG i Hi), in_app_iff. simpl. split.
    + intros [X|X]; [tauto|]. destruct (Nat.eq_dec i j); [subst; tauto|tauto].
    + intros [[X|[<-|[]]]|[X _]]; auto.
  - intros i (Hi & _). apply (g_open _ _ _ HG); auto.
  - intros i Hi. apply in_app_iff in Hi. destruct Hi as [Hi|[<-|[]]].
    + destruct (g_cl _ _ _ HG i Hi). split; auto. tauto.
    + split; auto. tauto.
  - assert (X : Permutation (j :: st_childless st) (st_childless st ++ [j])) by (apply Permutation_cons_append).
    apply (Permutation_NoDup X). constructor; [|apply (g_nodup _ _ _ HG)].
    intros Hc. apply (proj2 (g_cl _ _ _ HG j Hc)); auto.
  - intros b q (Hb & Hn) Hq. rewrite push_rest.
    rewrite count_notin; [simpl; rewrite app_nil_r; apply (g_qo _ _ _ HG); auto|].
    intros Hq'. apply Hn. destruct (g_open _ _ _ HG b Hb). apply (quads_leaf_unique I _ HT b j q); auto. apply (g_leaf _ _ _ HG); auto.
  - intros b q Hb Hq. rewrite push_rest. apply in_app_iff in Hb. destruct Hb as [Hb|[<-|[]]].
    + rewrite count_notin; [simpl; rewrite app_nil_r; apply (g_qc _ _ _ HG); auto|].
      destruct (g_cl _ _ _ HG b Hb) as (A & C). intros Hq'. apply C.
      assert (b = j); [|subst; auto]. apply (quads_leaf_unique I _ HT b j q); auto. apply (g_leaf _ _ _ HG); auto.
    + rewrite count_nodup; [|apply (quads_nodup I _ HT); auto|auto]. rewrite (g_qo _ _ _ HG j q Hj Hq).
      rewrite <- app_assoc, Nat.mul_1_l, Hl. reflexivity.
  - intros b q (Hb & Hn) Hq. rewrite push_rest.
    rewrite count_notin; [simpl; rewrite app_nil_r; apply (g_do _ _ _ HG); auto|].
    intros Hq'. apply Hn. destruct (g_open _ _ _ HG b Hb). apply (nodes_leaf_unique I _ HT b j q); auto. apply (g_leaf _ _ _ HG); auto.
  - intros b q Hb Hq. rewrite push_rest. apply in_app_iff in Hb. destruct Hb as [Hb|[<-|[]]].
    + rewrite count_notin; [simpl; rewrite app_nil_r; apply (g_dc _ _ _ HG); auto|].
      destruct (g_cl _ _ _ HG b Hb) as (A & C). intros Hq'. apply C.
      assert (b = j); [|subst; auto]. apply (nodes_leaf_unique I _ HT b j q); auto. apply (g_leaf _ _ _ HG); auto.
    + rewrite count_nodup; [|apply (nodes_nodup I _ HT); auto|auto]. rewrite (g_do _ _ _ HG j q Hj Hq).
      rewrite Nat.mul_1_l, Hl. reflexivity.
Qed.

Lemma filter_false_snoc {A} (f : A -> bool) x : f x = false -> filter f [x] = [].
Proof. intros H; simpl; rewrite H; reflexivity. Qed.

Lemma fill_step (level jj : nat) (l : list (list nat)) (c : bool) (done : list nat) :
  length l = S level ->
  let l' := if c then firstn level l ++ [nth level l [] ++ [jj]] else l in
  length l' = S level /\ firstn level l' = firstn level l /\ nth level l' [] = nth level l [] ++ (if c then [jj] else []).
Proof.
  intros H. destruct c; simpl.
  - assert (E : length (firstn level l) = level) by (rewrite firstn_length; lia).
    rewrite app_length, E. simpl. split; [lia|]. split.
    + rewrite firstn_app, E, Nat.sub_diag. simpl. rewrite app_nil_r. rewrite firstn_firstn. f_equal; lia.
    + rewrite app_nth2 by lia. rewrite E, Nat.sub_diag. reflexivity.
  - rewrite app_nil_r. auto.
Qed.

Lemma classify_fold I level l st :
  length (st_dfill st) = S level -> length (st_qfill st) = S level ->
  let bs := st_blocks st in
  let st' := fold_left (classify I level) l st in
  st_blocks st' = bs /\
  st_parents st' = st_parents st ++ filter (fun i => negb (small I (getb bs i))) l /\
  st_childless st' = st_childless st ++ filter (fun i => small I (getb bs i)) l /\
  st_start st' = st_start st /\ st_end st' = st_end st /\
  length (st_dfill st') = S level /\ firstn level (st_dfill st') = firstn level (st_dfill st) /\
  nth level (st_dfill st') [] = nth level (st_dfill st) [] ++ filter (fun i => has_weight I (getb bs i)) l /\
  length (st_qfill st') = S level /\ firstn level (st_qfill st') = firstn level (st_qfill st) /\
  nth level (st_qfill st') [] = nth level (st_qfill st) [] ++ filter (fun i => has_quads (getb bs i)) l.
Proof.
  revert st. induction l as [|a l IH]; intros st Hd Hq; cbv zeta.
  - simpl. rewrite !app_nil_r. repeat split; auto.
  - change (fold_left (classify I level) (a :: l) st) with (fold_left (classify I level) l (classify I level st a)).
    destruct (fill_step level a (st_dfill st) (has_weight I (getb (st_blocks st) a)) [] Hd) as (D1 & D2 & D3).
    destruct (fill_step level a (st_qfill st) (has_quads (getb (st_blocks st) a)) [] Hq) as (Q1 & Q2 & Q3).
    specialize (IH (classify I level st a) D1 Q1). cbv zeta in IH.
    destruct IH as (H1 & H2 & H3 & H4 & H5 & H6 & H7 & H8 & H9 & H10 & H11).
    rewrite H1, H2, H3, H4, H5, H6, H7, H8, H9, H10, H11.
    unfold classify in D1, D2, D3, Q1, Q2, Q3 |- *. cbn [st_blocks st_parents st_childless st_start st_end st_dfill st_qfill] in *.
    cbn [filter]. fold (small I (getb (st_blocks st) a)). fold (has_weight I (getb (st_blocks st) a)). fold (has_quads (getb (st_blocks st) a)).
    fold (small I (getb (st_blocks st) a)).
    rewrite D2, D3, Q2, Q3. destruct (small I (getb (st_blocks st) a)); destruct (has_weight I (getb (st_blocks st) a));
      destruct (has_quads (getb (st_blocks st) a)); simpl; rewrite <- ?app_assoc; simpl; rewrite ?app_nil_r; repeat split; auto.
Qed.

Lemma G_classify_fold I level l st (keep : nat -> Prop) :
  G I (fun i => keep i \/ In i l) st -> NoDup l -> (forall i, In i l -> b_level (getb (st_blocks st) i) = level /\ ~ keep i) ->
  G I (fun i => keep i \/ (In i l /\ small I (getb (st_blocks st) i) = false)) (fold_left (classify I level) l st).
Proof.
  revert st keep. induction l as [|a l IH]; intros st keep HG HN Hl.
  - simpl in *. apply G_ext with (2 := HG). intros; tauto.
  - inversion HN; subst.
    change (fold_left (classify I level) (a :: l) st) with (fold_left (classify I level) l (classify I level st a)).
    assert (HG' := G_classify I _ st a level HG (or_intror (or_introl eq_refl)) (eq_sym (proj1 (Hl a (or_introl eq_refl))))).
    set (kp := fun i => keep i \/ (i = a /\ small I (getb (st_blocks st) a) = false)).
    assert (E : G I (fun i => kp i \/ In i l) (classify I level st a)).
    { apply G_ext with (2 := HG'). intros i. unfold kp. simpl. destruct (Hl a (or_introl eq_refl)) as (_ & Na).
      destruct (small I (getb (st_blocks st) a)).
      - split; [intros ([X|[X|X]] & Y)|intros [[X|(X & Y)]|X]]; auto; try congruence.
        + exfalso. apply Y; auto.
        + split; auto. intros _ ->. auto.
        + split; auto. intros _ ->. auto.
      - split; [intros ([X|[X|X]] & Y)|intros [[X|(X & Y)]|X]]; auto; split; auto; try discriminate. }
    specialize (IH (classify I level st a) kp E H2). apply G_ext with (2 := IH ltac:(
      intros i Hi; split; [apply (Hl i); right; auto| unfold kp; intros [X|(X & _)]; [apply (proj2 (Hl i (or_intror Hi))); auto|subst; auto]])).
    intros i. unfold kp. change (st_blocks (classify I level st a)) with (st_blocks st). simpl. split.
    + intros [[X|(X & Y)]|(X & Y)]; auto. subst. right. auto.
    + intros [X|([X|X] & Y)]; auto. subst. left. right. auto.
Qed.

(** ** one level *)
Lemma fold_cons {A B} (f : A -> B -> A) x l a : fold_left f (x :: l) a = fold_left f l (f a x).
Proof. reflexivity. Qed.
Lemma fold_snoc {A B} (f : A -> B -> A) x l a : fold_left f (l ++ [x]) a = f (fold_left f l a) x.
Proof. rewrite fold_left_app. reflexivity. Qed.
Lemma splits_fold I l level delta n0 bs0 todo st :
  level = S l ->
  NoDup todo -> n0 <= length (st_blocks st) ->
  G I (fun i => In i todo \/ n0 <= i < length (st_blocks st)) st ->
  (forall i, i < n0 -> exists ks, getb (st_blocks st) i = with_kids (getb bs0 i) ks) ->
  (forall i, In i todo -> i < n0 /\ b_level (getb bs0 i) = l /\ (b_delta (getb bs0 i) / 2)%Q = delta) ->
  (forall i, n0 <= i < length (st_blocks st) -> b_level (getb (st_blocks st) i) = level /\ b_delta (getb (st_blocks st) i) = delta) ->
  let st' := fold_left (split_block I level delta) todo st in
  length (st_blocks st) <= length (st_blocks st') /\
  G I (fun i => n0 <= i < length (st_blocks st')) st' /\
  (forall i, i < n0 -> exists ks, getb (st_blocks st') i = with_kids (getb bs0 i) ks) /\
  (forall i, n0 <= i < length (st_blocks st') -> b_level (getb (st_blocks st') i) = level /\ b_delta (getb (st_blocks st') i) = delta) /\
  (forall i, i < n0 -> ~ In i todo -> b_kids (getb (st_blocks st') i) = b_kids (getb (st_blocks st) i)) /\
  st_childless st' = st_childless st /\ st_parents st' = st_parents st /\
  st_start st' = st_start st /\ st_end st' = st_end st /\
  st_dfill st' = st_dfill st /\ st_qfill st' = st_qfill st.
Proof.
  intros El. revert st. induction todo as [|j todo IH]; intros st HN Hn HG Hf Ht Hlv; cbv zeta.
  - simpl. split; [lia|]. split; [apply G_ext with (2 := HG); intros; simpl; tauto|]. split; [exact Hf|]. split; [exact Hlv|].
    split; [auto|]. repeat split; auto.
  - inversion HN; subst x l0.
    rewrite fold_cons.
    destruct (Ht j (or_introl eq_refl)) as (Hj0 & Hjl & Hjd). destruct (Hf j Hj0) as (kj & Ej).
    assert (Hlev : level = S (b_level (getb (st_blocks st) j))) by (rewrite Ej; simpl; lia).
    assert (Hdel : delta = (b_delta (getb (st_blocks st) j) / 2)%Q) by (rewrite Ej; simpl; auto).
    assert (Ho : In j (j :: todo) \/ n0 <= j < length (st_blocks st)) by (left; left; auto).
    assert (GS := G_split I _ st j level delta HG Ho Hlev Hdel).
    assert (SB := split_blocks I _ st j level delta HG Ho Hlev Hdel).
    assert (SR := split_rest I _ st j level delta HG Ho).
    assert (Hjlt := proj1 (g_open _ _ _ HG j Ho)).
    assert (SL := split_bs_length I (st_blocks st) j Hjlt).
    set (st1 := split_block I level delta st j) in *.
    assert (L1 : length (st_blocks st) <= length (st_blocks st1)) by (rewrite SB; lia).
    specialize (IH st1 H2 ltac:(lia)).
    assert (A1 : G I (fun i => In i todo \/ n0 <= i < length (st_blocks st1)) st1).
    { apply G_ext with (2 := GS). intros i. simpl. split.
      - intros [([[X|X]|X] & Y)|X]; auto; [congruence|right; lia|right; lia].
      - intros [X|X].
        + left. split; auto. intros ->; auto.
        + destruct (Nat.lt_ge_cases i (length (st_blocks st))); [left; split; [right; lia|lia]|right; lia]. }
    assert (A2 : forall i, i < n0 -> exists ks, getb (st_blocks st1) i = with_kids (getb bs0 i) ks).
    { intros i Hi. rewrite SB. destruct (split_bs_fields I (st_blocks st) j i Hjlt ltac:(lia)) as (ks & E).
      destruct (Hf i Hi) as (ks2 & E2). exists ks. rewrite E, E2. reflexivity. }
    assert (A3 : forall i, In i todo -> i < n0 /\ b_level (getb bs0 i) = l /\ (b_delta (getb bs0 i) / 2)%Q = delta).
    { intros; apply Ht; right; auto. }
    assert (A4 : forall i, n0 <= i < length (st_blocks st1) -> b_level (getb (st_blocks st1) i) = level /\ b_delta (getb (st_blocks st1) i) = delta).
    { intros i Hi. rewrite SB in Hi |- *. destruct (Nat.lt_ge_cases i (length (st_blocks st))) as [X|X].
      - destruct (split_bs_fields I (st_blocks st) j i Hjlt X) as (ks & E). rewrite E. simpl. apply Hlv; lia.
      - replace i with (length (st_blocks st) + (i - length (st_blocks st))) by lia. rewrite split_bs_new by lia. simpl. auto. }
    destruct (IH A1 A2 A3 A4) as (R1 & R2 & R3 & R4 & R5 & R6).
    destruct SR as (S1 & S2 & S3 & S4 & S5 & S6).
    split; [lia|]. split; [exact R2|]. split; [exact R3|]. split; [exact R4|]. split.
    + intros i Hi Hni. rewrite R5; auto; [|intros X; apply Hni; right; auto].
      rewrite SB, split_bs_old by lia. destruct (Nat.eqb_spec i j) as [->|]; auto. exfalso. apply Hni; left; auto.
    + rewrite S1, S2, S3, S4, S5, S6 in R6. exact R6.
Qed.

Record LI (I : oin) (l : nat) (st : ost) (delta : Q) : Prop := {
  li_G : G I (fun i => In i (st_parents st)) st;
  li_par : forall i, In i (st_parents st) -> b_level (getb (st_blocks st) i) = l;
  li_parnd : NoDup (st_parents st);
  li_ls : length (st_start st) = S l /\ length (st_end st) = S l;
  li_0 : startL st 0 = 0 /\ endL st 0 = 0;
  li_next : forall k, k < l -> startL st (S k) = S (endL st k) /\ endL st k <= endL st (S k);
  li_end : S (endL st l) = length (st_blocks st);
  li_lv : forall i, i < length (st_blocks st) ->
            b_level (getb (st_blocks st) i) <= l /\
            startL st (b_level (getb (st_blocks st) i)) <= i <= endL st (b_level (getb (st_blocks st) i));
  li_delta : forall i, i < length (st_blocks st) -> b_level (getb (st_blocks st) i) = l ->
            b_delta (getb (st_blocks st) i) = delta;
  li_scl : forall i, In i (st_childless st) -> small I (getb (st_blocks st) i) = true /\ 0 < i;
  li_spar : forall i, In i (st_parents st) -> 0 < i -> small I (getb (st_blocks st) i) = false;
  li_sk : forall i, 0 < i < length (st_blocks st) -> b_kids (getb (st_blocks st) i) <> [] -> small I (getb (st_blocks st) i) = false;
  li_df : length (st_dfill st) = S l /\ nth 0 (st_dfill st) [] = [] /\
          forall k, 0 < k <= l -> nth k (st_dfill st) [] = filter (fun i => has_weight I (getb (st_blocks st) i)) (level_ids st k);
  li_qf : length (st_qfill st) = S l /\ nth 0 (st_qfill st) [] = [] /\
          forall k, 0 < k <= l -> nth k (st_qfill st) [] = filter (fun i => has_quads (getb (st_blocks st) i)) (level_ids st k)
}.

Lemma last_nth {A} (l : list A) d : last l d = nth (length l - 1) l d.
Proof.
  induction l as [|a l IH]; [reflexivity|]. destruct l as [|b l]; [reflexivity|].
  change (last (a :: b :: l) d) with (last (b :: l) d). rewrite IH. simpl. destruct (length l - 0) eqn:E; simpl.
  - destruct (length l) eqn:E2; [reflexivity|simpl in E; lia].
  - destruct (length l) eqn:E2; [simpl in E; lia|]. simpl in E. injection E as <-. reflexivity.
Qed.

Lemma small_with_kids I b ks : small I (with_kids b ks) = small I b.
Proof. reflexivity. Qed.

Lemma LI_init I : wf_in I -> LI I 0 (init_state I) (b_delta (root_block I)).
Proof.
  intros (_ & Hd & _). 
  assert (X0 : forall i, i < length (st_blocks (init_state I)) -> i = 0) by (simpl; lia).
  constructor; simpl; try (intros; lia); auto.
  - constructor; cbn [st_blocks st_qtb st_dtb st_parents st_childless init_state].
    + apply tree_init.
    + intros i Hi. apply X0 in Hi. subst. simpl. tauto.
    + intros i [<-|[]]. split; [simpl; lia|]. apply nodes_ne with (x := 0). simpl. apply in_seq. lia.
    + intros i [].
    + constructor.
    + intros b q [<-|[]] Hq. simpl in Hq. apply in_seq in Hq. destruct (Nat.ltb_spec q (o_nq I)); [reflexivity|lia].
    + intros b q [].
    + intros b q [<-|[]] Hq. simpl in Hq. apply in_seq in Hq. destruct (Nat.ltb_spec q (o_nd I)); [reflexivity|lia].
    + intros b q [].
  - intros i [<-|[]]. reflexivity.
  - constructor; [intros []|constructor].
  - intros i Hi. assert (i = 0) by lia. subst. unfold startL, endL; simpl; lia.
  - intros i Hi. assert (i = 0) by lia. subst. simpl. auto.
  - repeat split; auto; intros; try lia; tauto.
  - repeat split; auto; intros; try lia; tauto.
Qed.

Lemma LI_step I l st delta : LI I l st delta -> S l <= o_N I ->
  LI I (S l) (fst (level_step I (st, delta) (S l))) (snd (level_step I (st, delta) (S l))).
Proof.
  intros H HlN. unfold level_step. cbn [fst snd]. set (delta' := (delta / 2)%Q).
  destruct H as [A1 A2 A3 [A4 A4'] [A5 A5'] A6 A7 A8 A9 A10 A11 A12 [A13 [A14 A15]] [A16 [A17 A18]]].
  assert (HT := g_tree _ _ _ A1).
  set (n0 := length (st_blocks st)) in *.
  assert (Hpl : forall i, In i (st_parents st) -> i < n0) by (intros i Hi; apply (g_open _ _ _ A1 i Hi)).
  destruct (splits_fold I l (S l) delta' n0 (st_blocks st) (st_parents st) st eq_refl A3 (le_n _)) as (R1 & R2 & R3 & R4 & R5 & R6 & R7 & R8 & R9 & R10 & R11).
  { apply G_ext with (2 := A1). intros i. split; [tauto|]. intros [X|X]; auto. lia. }
  { intros i Hi. exists (b_kids (getb (st_blocks st) i)). destruct (getb (st_blocks st) i); reflexivity. }
  { intros i Hi. split; auto. split; auto. rewrite A9; auto. }
  { intros i Hi. lia. }
  set (st1 := fold_left (split_block I (S l) delta') (st_parents st) st) in *.
  set (st2 := open_level st1).
  assert (HT1 := g_tree _ _ _ R2).
  set (n1 := length (st_blocks st1)) in *. fold n0 in R1.
  assert (n0pos : 0 < n0) by (destruct HT as (X & _); exact X).
  assert (Es : st_start st2 = st_start st ++ [S (endL st l)]).
  { unfold st2, open_level. cbn [st_start st_end]. rewrite R8, R9. f_equal. f_equal. f_equal.
    rewrite last_nth, A4'. unfold endL. f_equal. lia. }
  assert (Ee : st_end st2 = st_end st ++ [n1 - 1]).
  { unfold st2, open_level. cbn [st_start st_end]. rewrite R9. reflexivity. }
  assert (Ls : last (st_start st2) 0 = n0) by (rewrite Es, last_last; lia).
  assert (Le : last (st_end st2) 0 = n1 - 1) by (rewrite Ee, last_last; lia).
  rewrite Ls, Le. replace (S (n1 - 1) - n0) with (n1 - n0) by lia.
  assert (Bs2 : st_blocks st2 = st_blocks st1) by reflexivity.
  assert (D2 : length (st_dfill st2) = S (S l)).
  { unfold st2, open_level. cbn [st_dfill]. rewrite app_length, R10, A13. simpl; lia. }
  assert (Q2 : length (st_qfill st2) = S (S l)).
  { unfold st2, open_level. cbn [st_qfill]. rewrite app_length, R11, A16. simpl; lia. }
  destruct (classify_fold I (S l) (seq n0 (n1 - n0)) st2 D2 Q2) as (C1 & C2 & C3 & C4 & C5 & C6 & C7 & C8 & C9 & C10 & C11).
  rewrite Bs2 in *.
  assert (C2' : st_parents st2 = []) by reflexivity. rewrite C2' in C2. simpl in C2.
  assert (C3' : st_childless st2 = st_childless st) by (unfold st2, open_level; cbn [st_childless]; exact R6). rewrite C3' in C3.
  assert (GG : G I (fun i => (fun _ => False) i \/ (In i (seq n0 (n1 - n0)) /\ small I (getb (st_blocks st2) i) = false)) (fold_left (classify I (S l)) (seq n0 (n1 - n0)) st2)).
  { apply G_classify_fold.
    - assert (X : G I (fun i => n0 <= i < n1) st2).
      { destruct R2 as [B1 B2 B3 B4 B5 B6 B7 B8 B9]. constructor; auto. }
      apply G_ext with (2 := X). intros i. rewrite in_seq. split; [intros; right; lia|intros [[]|]; lia].
    - apply seq_NoDup.
    - intros i Hi. apply in_seq in Hi. split; auto. rewrite Bs2. apply R4; lia. }
  rewrite Bs2 in GG.
  set (st3 := fold_left (classify I (S l)) (seq n0 (n1 - n0)) st2) in *.
  assert (SE : forall k, k <= l -> startL st3 k = startL st k /\ endL st3 k = endL st k).
  { intros k Hk. unfold startL, endL. rewrite C4, C5, Es, Ee. rewrite !app_nth1 by lia. auto. }
  assert (SN : startL st3 (S l) = n0 /\ endL st3 (S l) = n1 - 1).
  { unfold startL, endL. rewrite C4, C5, Es, Ee. rewrite !app_nth2 by lia. rewrite A4, A4', Nat.sub_diag. simpl. split; lia. }
  destruct SN as (SN1 & SN2).
  assert (LV : forall i, i < n0 -> b_level (getb (st_blocks st1) i) = b_level (getb (st_blocks st) i) /\
      small I (getb (st_blocks st1) i) = small I (getb (st_blocks st) i) /\ has_weight I (getb (st_blocks st1) i) = has_weight I (getb (st_blocks st) i)
      /\ has_quads (getb (st_blocks st1) i) = has_quads (getb (st_blocks st) i)).
  { intros i Hi. destruct (R3 i Hi) as (ks & E). rewrite E. repeat split; reflexivity. }
  constructor; rewrite ?C1, ?C2, ?C3.
  - apply G_ext with (2 := GG). intros i. simpl. rewrite filter_In. rewrite negb_true_iff. tauto.
  - intros i Hi. apply filter_In in Hi. destruct Hi as (Hi & _). apply in_seq in Hi. apply R4. lia.
  - apply NoDup_filter, seq_NoDup.
  - rewrite C4, C5, Es, Ee, !app_length, A4, A4'. simpl. lia.
  - destruct (SE 0 ltac:(lia)) as (-> & ->). auto.
  - intros k Hk. destruct (Nat.eq_dec k l) as [->|N].
    + destruct (SE l ltac:(lia)) as (_ & ->). rewrite SN1, SN2. lia.
    + destruct (SE k ltac:(lia)) as (_ & ->). destruct (SE (S k) ltac:(lia)) as (-> & ->). apply A6. lia.
  - rewrite SN2. lia.
  - intros i Hi. destruct (Nat.lt_ge_cases i n0) as [X|X].
    + destruct (LV i X) as (E & _). rewrite E. destruct (A8 i X) as (Y & Z). destruct (SE (b_level (getb (st_blocks st) i)) Y) as (-> & ->). lia.
    + destruct (R4 i) as (E & _); [lia|]. rewrite E, SN1, SN2. fold n1 in Hi. lia.
  - intros i Hi Hl. destruct (Nat.lt_ge_cases i n0) as [X|X].
    + destruct (LV i X) as (E & _). destruct (A8 i X) as (Y & Z). lia.
    + apply R4. fold n1 in Hi. lia.
  - intros i Hi. apply in_app_iff in Hi. destruct Hi as [Hi|Hi].
    + assert (X := proj1 (g_cl _ _ _ A1 i Hi)). destruct (LV i X) as (_ & E & _). rewrite E. apply A10; auto.
    + apply filter_In in Hi. destruct Hi as (Hi & E). apply in_seq in Hi. split; auto. lia.
  - intros i Hi _. apply filter_In in Hi. apply negb_true_iff. tauto.
  - intros i (Hi0 & Hi) Hk. destruct (Nat.lt_ge_cases i n0) as [X|X].
    + destruct (LV i X) as (_ & E & _). rewrite E. destruct (in_dec Nat.eq_dec i (st_parents st)) as [P|P].
      * apply A11; auto.
      * apply A12; auto. rewrite <- R5; auto.
    + exfalso. apply Hk. apply (g_leaf _ _ _ R2); auto.
  - split; [exact C6|]. split.
    + assert (X : nth 0 (firstn (S l) (st_dfill st3)) [] = nth 0 (firstn (S l) (st_dfill st2)) []) by (rewrite C7; reflexivity).
      rewrite !nth_firstn_lt in X by lia. rewrite X. unfold st2, open_level. cbn [st_dfill]. rewrite app_nth1 by (rewrite R10, A13; lia). rewrite R10. exact A14.
    + intros k Hk. unfold level_ids. destruct (Nat.eq_dec k (S l)) as [->|N].
      * rewrite C8, SN1, SN2. unfold st2, open_level. cbn [st_dfill]. rewrite app_nth2 by (rewrite R10, A13; lia). rewrite R10, A13, Nat.sub_diag. simpl.
        replace (match n0 with 0 => S (n1 - 1) | S l0 => n1 - 1 - l0 end) with (n1 - n0) by (destruct n0; lia). reflexivity.
      * assert (X : nth k (firstn (S l) (st_dfill st3)) [] = nth k (firstn (S l) (st_dfill st2)) []) by (rewrite C7; reflexivity).
        rewrite !nth_firstn_lt in X by lia. rewrite X. unfold st2, open_level. cbn [st_dfill]. rewrite app_nth1 by (rewrite R10, A13; lia). rewrite R10, A15 by lia.
        destruct (SE k ltac:(lia)) as (-> & ->). apply filter_ext_in. intros i Hi. symmetry. apply LV.
        apply in_seq in Hi. assert (endL st k <= endL st l).
        { clear -A6 Hk N. assert (Y : forall m, k + m <= l -> endL st k <= endL st (k + m)).
          { induction m; intros Hm; [rewrite Nat.add_0_r; lia|]. destruct (A6 (k + m) ltac:(lia)) as (_ & Z). rewrite Nat.add_succ_r. specialize (IHm ltac:(lia)). lia. }
          specialize (Y (l - k) ltac:(lia)). replace (k + (l - k)) with l in Y by lia. exact Y. }
        lia.
  - split; [exact C9|]. split.
    + assert (X : nth 0 (firstn (S l) (st_qfill st3)) [] = nth 0 (firstn (S l) (st_qfill st2)) []) by (rewrite C10; reflexivity).
      rewrite !nth_firstn_lt in X by lia. rewrite X. unfold st2, open_level. cbn [st_qfill]. rewrite app_nth1 by (rewrite R11, A16; lia). rewrite R11. exact A17.
    + intros k Hk. unfold level_ids. destruct (Nat.eq_dec k (S l)) as [->|N].
      * rewrite C11, SN1, SN2. unfold st2, open_level. cbn [st_qfill]. rewrite app_nth2 by (rewrite R11, A16; lia). rewrite R11, A16, Nat.sub_diag. simpl.
        replace (match n0 with 0 => S (n1 - 1) | S l0 => n1 - 1 - l0 end) with (n1 - n0) by (destruct n0; lia). reflexivity.
      * assert (X : nth k (firstn (S l) (st_qfill st3)) [] = nth k (firstn (S l) (st_qfill st2)) []) by (rewrite C10; reflexivity).
        rewrite !nth_firstn_lt in X by lia. rewrite X. unfold st2, open_level. cbn [st_qfill]. rewrite app_nth1 by (rewrite R11, A16; lia). rewrite R11, A18 by lia.
        destruct (SE k ltac:(lia)) as (-> & ->). apply filter_ext_in. intros i Hi. symmetry. apply LV.
        apply in_seq in Hi. assert (endL st k <= endL st l).
        { clear -A6 Hk N. assert (Y : forall m, k + m <= l -> endL st k <= endL st (k + m)).
          { induction m; intros Hm; [rewrite Nat.add_0_r; lia|]. destruct (A6 (k + m) ltac:(lia)) as (_ & Z). rewrite Nat.add_succ_r. specialize (IHm ltac:(lia)). lia. }
          specialize (Y (l - k) ltac:(lia)). replace (k + (l - k)) with l in Y by lia. exact Y. }
        lia.
Qed.

Lemma LI_levels I k : wf_in I -> k <= o_N I -> LI I k (fst (levels I k)) (snd (levels I k)).
Proof.
  intros W. induction k; intros Hk; [apply LI_init; auto|].
  unfold levels. rewrite seq_S, fold_snoc.
  fold (levels I k). rewrite (surjective_pairing (levels I k)) at 1 2. apply LI_step; auto. apply IHk; lia.
Qed.
