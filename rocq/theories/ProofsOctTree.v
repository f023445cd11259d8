(** Structure of the generated octree: invariants of the level loop. *)
From Coq Require Import QArith Qabs Qminmax Qround ZArith List Lia Arith Bool Permutation.
From Verif Require Import ModelOctree.
Import ListNotations.
Local Open Scope nat_scope.

(** ** list helpers *)
Lemma nth_firstn_lt {A} (l : list A) i j d : i < j -> nth i (firstn j l) d = nth i l d.
Proof. revert i l; induction j; intros i l H; [lia|]. destruct l; [destruct i; reflexivity|].
  destruct i; simpl; [reflexivity|]. apply IHj; lia. Qed.
Lemma nth_skipn {A} (l : list A) i j d : nth i (skipn j l) d = nth (j + i) l d.
Proof. revert l; induction j; intros l; [reflexivity|]. destruct l; simpl; [destruct i; reflexivity|]. apply IHj. Qed.

Lemma getb_app1 bs x i : i < length bs -> getb (bs ++ x) i = getb bs i.
Proof. intros; unfold getb; rewrite app_nth1; auto. Qed.
Lemma getb_app2 bs x i : getb (bs ++ x) (length bs + i) = getb x i.
Proof. unfold getb; rewrite app_nth2 by lia. f_equal; lia. Qed.

Definition with_kids (b : block) (ks : list nat) : block :=
  mkblock (b_level b) (b_parent b) (b_min b) (b_delta b) (b_nodes b) (b_quads b) ks.

(** replace the children of block [j] *)
Definition set_kids (bs : list block) (j : nat) (ks : list nat) : list block :=
  firstn j bs ++ with_kids (getb bs j) ks :: skipn (S j) bs.

Lemma set_kids_length bs j ks : j < length bs -> length (set_kids bs j ks) = length bs.
Proof.
  intros H. unfold set_kids. rewrite app_length. cbn [length]. rewrite firstn_length, skipn_length. lia.
Qed.
Lemma set_kids_get bs j ks i : j < length bs ->
  getb (set_kids bs j ks) i = if Nat.eqb i j then with_kids (getb bs j) ks else getb bs i.
Proof.
  intros H. unfold set_kids, getb.
  assert (HL : length (firstn j bs) = j) by (rewrite firstn_length; lia).
  destruct (Nat.eqb_spec i j) as [->|N].
  - rewrite app_nth2 by lia. rewrite HL, Nat.sub_diag. reflexivity.
  - destruct (Nat.lt_ge_cases i j) as [L|L].
    + rewrite app_nth1 by lia. apply nth_firstn_lt; auto.
    + rewrite app_nth2 by lia. rewrite HL. destruct (i - j) as [|k] eqn:E; [lia|].
      change (nth (S k) (?a :: ?l) dblock) with (nth k l dblock).
      cbn [nth]. rewrite nth_skipn. f_equal. lia.
Qed.
Lemma set_kids_app bs x j ks : j < length bs -> set_kids (bs ++ x) j ks = set_kids bs j ks ++ x.
Proof.
  intros H. unfold set_kids. rewrite getb_app1 by auto. rewrite firstn_app, skipn_app.
  replace (j - length bs) with 0 by lia. replace (S j - length bs) with 0 by lia.
  simpl firstn at 2. simpl skipn at 2. rewrite app_nil_r. rewrite <- app_assoc. reflexivity.
Qed.
Lemma set_kids_twice bs j a b : j < length bs -> set_kids (set_kids bs j a) j b = set_kids bs j b.
Proof.
  intros H. apply nth_ext with (d := dblock) (d' := dblock).
  - rewrite !set_kids_length; auto. rewrite set_kids_length; auto.
  - intros n Hn. change (getb (set_kids (set_kids bs j a) j b) n = getb (set_kids bs j b) n).
    rewrite !set_kids_get; auto; [|rewrite set_kids_length; auto].
    rewrite Nat.eqb_refl. destruct (Nat.eqb n j) eqn:E; auto.
Qed.
Lemma add_kid_set bs j x : add_kid bs j x = set_kids bs j (b_kids (getb bs j) ++ [x]).
Proof. reflexivity. Qed.

(** ** splitting one block *)
Section Split.
  Variable I : oin.

  Lemma push_all_spec l x f k :
    push_all l x f k = f k ++ repeat x (count_occ Nat.eq_dec l k).
  Proof.
    unfold push_all. revert f; induction l as [|a l IH]; intros f; simpl; [rewrite app_nil_r; reflexivity|].
    rewrite IH. destruct (Nat.eqb_spec k a) as [->|N].
    - destruct (Nat.eq_dec a a); [|congruence]. simpl. rewrite <- app_assoc. reflexivity.
    - destruct (Nat.eq_dec a k); [congruence|]. reflexivity.
  Qed.

  (** result of adding the nonempty blocks of a list of prospective children *)
  Lemma add_children_spec jj kids st :
    jj < length (st_blocks st) ->
    Forall (fun b => b_kids b = []) kids ->
    let ks := filter nonempty kids in
    let bs := st_blocks st in
    let st' := fold_left (add_child jj) kids st in
    st_blocks st' = set_kids bs jj (b_kids (getb bs jj) ++ seq (length bs) (length ks)) ++ ks /\
    (forall q, st_qtb st' q = st_qtb st q ++
        flat_map (fun i => repeat (length bs + i) (count_occ Nat.eq_dec (b_quads (getb ks i)) q)) (seq 0 (length ks))) /\
    (forall d, st_dtb st' d = st_dtb st d ++
        repeat jj (length ks * count_occ Nat.eq_dec (b_nodes (getb bs jj)) d)) /\
    st_parents st' = st_parents st /\ st_childless st' = st_childless st /\
    st_start st' = st_start st /\ st_end st' = st_end st /\
    st_dfill st' = st_dfill st /\ st_qfill st' = st_qfill st.
  Proof.
    intros Hj HF. revert st Hj. induction kids as [|k kids IH]; intros st Hj; cbv zeta.
    - simpl. rewrite app_nil_r, app_nil_r. repeat split; auto; try (intros; rewrite app_nil_r; auto).
      apply nth_ext with (d := dblock) (d' := dblock).
      + rewrite set_kids_length; auto.
      + intros n Hn. change (getb (st_blocks st) n = getb (set_kids (st_blocks st) jj (b_kids (getb (st_blocks st) jj))) n).
        rewrite set_kids_get by auto. destruct (Nat.eqb_spec n jj) as [->|]; auto.
        destruct (getb (st_blocks st) jj); reflexivity.
    - inversion HF; subst. change (fold_left (add_child jj) (k :: kids) st) with (fold_left (add_child jj) kids (add_child jj st k)).
      cbn [filter]. destruct (nonempty k) eqn:E.
      + assert (Es : add_child jj st k = {| st_blocks := add_kid (st_blocks st) jj (length (st_blocks st)) ++ [k];
           st_qtb := push_all (b_quads k) (length (st_blocks st)) (st_qtb st);
           st_dtb := push_all (b_nodes (getb (st_blocks st) jj)) jj (st_dtb st);
           st_parents := st_parents st; st_childless := st_childless st;
           st_start := st_start st; st_end := st_end st;
           st_dfill := st_dfill st; st_qfill := st_qfill st |}) by (unfold add_child; rewrite E; reflexivity).
        rewrite Es. set (st1 := {| st_blocks := _ |}) in *.
        set (bs := st_blocks st) in *. set (ks := filter nonempty kids) in *.
        assert (L1 : length (st_blocks st1) = S (length bs)).
        { simpl. rewrite app_length, add_kid_set, set_kids_length by auto. simpl; lia. }
        assert (Hj1 : jj < length (st_blocks st1)) by lia.
        assert (G1 : getb (st_blocks st1) jj = with_kids (getb bs jj) (b_kids (getb bs jj) ++ [length bs])).
        { simpl. rewrite getb_app1 by (rewrite add_kid_set, set_kids_length; auto).
          rewrite add_kid_set, set_kids_get, Nat.eqb_refl by auto. reflexivity. }
        specialize (IH H2 st1 Hj1). cbv zeta in IH. fold ks in IH.
        destruct IH as (HB & HQ & HD & Hr). rewrite L1 in *. rewrite G1 in HB, HD.
        split; [|split; [|split]].
        * rewrite HB. simpl b_kids. simpl st_blocks. rewrite add_kid_set.
          rewrite set_kids_app by (rewrite set_kids_length; auto). rewrite set_kids_twice by auto.
          simpl length. simpl seq. rewrite <- !app_assoc. reflexivity.
        * intros q. rewrite HQ. simpl st_qtb. rewrite push_all_spec. simpl length. simpl seq. simpl flat_map.
          rewrite <- app_assoc. f_equal. rewrite Nat.add_0_r. f_equal.
          rewrite <- seq_shift, flat_map_concat_map, flat_map_concat_map, map_map. f_equal.
          apply map_ext. intros a. rewrite Nat.add_succ_r. reflexivity.
        * intros d. rewrite HD. simpl st_dtb. rewrite push_all_spec. simpl b_nodes. simpl length.
          rewrite <- app_assoc, <- repeat_app. reflexivity.
        * exact Hr.
      + assert (Es : add_child jj st k = st) by (unfold add_child; rewrite E; reflexivity).
        rewrite Es. apply IH; auto.
  Qed.

  Definition prospective (level jj : nat) (delta : Q) (b : block) : list block :=
    filter nonempty (map (child_block I level jj delta b) (seq 0 8)).

  Lemma split_spec level delta jj st :
    jj < length (st_blocks st) ->
    let bs := st_blocks st in
    let ks := prospective level jj delta (getb bs jj) in
    let st' := split_block I level delta st jj in
    st_blocks st' = set_kids bs jj (b_kids (getb bs jj) ++ seq (length bs) (length ks)) ++ ks /\
    (forall q, st_qtb st' q = st_qtb st q ++
        flat_map (fun i => repeat (length bs + i) (count_occ Nat.eq_dec (b_quads (getb ks i)) q)) (seq 0 (length ks))) /\
    (forall d, st_dtb st' d = st_dtb st d ++
        repeat jj (length ks * count_occ Nat.eq_dec (b_nodes (getb bs jj)) d)) /\
    st_parents st' = st_parents st /\ st_childless st' = st_childless st /\
    st_start st' = st_start st /\ st_end st' = st_end st /\
    st_dfill st' = st_dfill st /\ st_qfill st' = st_qfill st.
  Proof.
    intros Hj. cbv zeta. unfold split_block, prospective. apply add_children_spec; auto.
    apply Forall_forall. intros b Hb. apply in_map_iff in Hb. destruct Hb as (c & <- & _). reflexivity.
  Qed.

  (** ** tree invariant *)
  Definition cs_of (bs : list block) (i : nat) : list nat :=
    let b := getb bs i in
    filter (fun c => nonempty (child_block I (S (b_level b)) i (b_delta b / 2)%Q b c)) (seq 0 8).

  Definition kid_ok (bs : list block) (i c k : nat) : Prop :=
    k < length bs /\
    exists ks, getb bs k = with_kids (child_block I (S (b_level (getb bs i))) i (b_delta (getb bs i) / 2)%Q (getb bs i) c) ks.

  Definition tree (bs : list block) : Prop :=
    0 < length bs /\
    (exists ks, getb bs 0 = with_kids (root_block I) ks) /\
    (forall i, 0 < i < length bs -> b_parent (getb bs i) < i /\ In i (b_kids (getb bs (b_parent (getb bs i))))) /\
    (forall i, i < length bs -> b_kids (getb bs i) = [] \/
       exists a, i < a /\ b_kids (getb bs i) = seq a (length (cs_of bs i)) /\
         forall j, j < length (cs_of bs i) -> kid_ok bs i (nth j (cs_of bs i) 0) (a + j)).

  Lemma child_block_kids level jj delta b ks c :
    child_block I level jj delta (with_kids b ks) c = child_block I level jj delta b c.
  Proof. reflexivity. Qed.

  Lemma tree_init : tree [root_block I].
  Proof.
    split; [simpl; lia|]. split; [exists []; reflexivity|]. split; [simpl; lia|].
    intros i Hi. left. simpl in Hi. assert (i = 0) by lia; subst. reflexivity.
  Qed.

  Lemma prospective_eq b i d : prospective (S (b_level b)) i d b =
    map (child_block I (S (b_level b)) i d b) (filter (fun c => nonempty (child_block I (S (b_level b)) i d b c)) (seq 0 8)).
  Proof.
    unfold prospective. generalize (seq 0 8). intros l. induction l as [|x l IH]; [reflexivity|].
    simpl map. simpl filter. destruct (nonempty _) eqn:E; simpl; rewrite IH; reflexivity.
  Qed.

  (** the new list of blocks after splitting leaf [j] *)
  Definition split_bs (bs : list block) (j : nat) : list block :=
    let ks := prospective (S (b_level (getb bs j))) j (b_delta (getb bs j) / 2)%Q (getb bs j) in
    set_kids bs j (seq (length bs) (length ks)) ++ ks.

  Lemma split_bs_length bs j : j < length bs ->
    length (split_bs bs j) = length bs + length (cs_of bs j).
  Proof.
    intros H. unfold split_bs. rewrite app_length, set_kids_length by auto. rewrite prospective_eq, map_length. reflexivity.
  Qed.
  Lemma split_bs_old bs j i : j < length bs -> i < length bs ->
    getb (split_bs bs j) i = if Nat.eqb i j then with_kids (getb bs j) (seq (length bs) (length (cs_of bs j))) else getb bs i.
  Proof.
    intros H Hi. unfold split_bs. rewrite getb_app1 by (rewrite set_kids_length; auto).
    rewrite set_kids_get by auto. rewrite prospective_eq, map_length. reflexivity.
  Qed.
  Lemma split_bs_new bs j i : j < length bs -> i < length (cs_of bs j) ->
    getb (split_bs bs j) (length bs + i) =
      child_block I (S (b_level (getb bs j))) j (b_delta (getb bs j) / 2)%Q (getb bs j) (nth i (cs_of bs j) 0).
  Proof.
    intros H Hi. unfold split_bs. rewrite <- (set_kids_length bs j (seq (length bs) (length
       (prospective (S (b_level (getb bs j))) j (b_delta (getb bs j) / 2)%Q (getb bs j)))) H) at 2.
    rewrite getb_app2. rewrite prospective_eq. unfold getb at 1.
    rewrite nth_indep with (d' := child_block I (S (b_level (getb bs j))) j (b_delta (getb bs j) / 2)%Q (getb bs j) 0)
      by (rewrite map_length; exact Hi).
    rewrite map_nth. reflexivity.
  Qed.

  (** fields other than the children survive *)
  Lemma split_bs_fields bs j i : j < length bs -> i < length bs ->
    exists ks, getb (split_bs bs j) i = with_kids (getb bs i) ks.
  Proof.
    intros H Hi. rewrite split_bs_old by auto. destruct (Nat.eqb_spec i j) as [->|].
    - eexists; reflexivity.
    - exists (b_kids (getb bs i)). destruct (getb bs i); reflexivity.
  Qed.
  Lemma cs_of_fields bs bs' i ks : getb bs' i = with_kids (getb bs i) ks -> cs_of bs' i = cs_of bs i.
  Proof. intros H. unfold cs_of. rewrite H. reflexivity. Qed.

  Lemma tree_split bs j : tree bs -> j < length bs -> b_kids (getb bs j) = [] -> tree (split_bs bs j).
  Proof.
    intros (T0 & (k0 & T1) & T2 & T3) Hj Hk.
    assert (HL := split_bs_length bs j Hj).
    split; [lia|]. split; [|split].
    - destruct (split_bs_fields bs j 0 Hj T0) as (ks & E). exists ks. rewrite E, T1. reflexivity.
    - intros i (Hi0 & Hi). destruct (Nat.lt_ge_cases i (length bs)) as [L|L].
      + destruct (T2 i (conj Hi0 L)) as (A & B). destruct (split_bs_fields bs j i Hj L) as (ks & E). rewrite E.
        change (b_parent (with_kids (getb bs i) ks)) with (b_parent (getb bs i)). split; [exact A|].
        rewrite split_bs_old by lia. destruct (Nat.eqb_spec (b_parent (getb bs i)) j) as [Ej|]; auto.
        rewrite Ej in B. rewrite Hk in B. destruct B.
      + replace i with (length bs + (i - length bs)) by lia.
        rewrite split_bs_new by lia. simpl b_parent. split; [lia|].
        rewrite split_bs_old by lia. rewrite Nat.eqb_refl. simpl b_kids. apply in_seq. lia.
    - intros i Hi. destruct (Nat.lt_ge_cases i (length bs)) as [L|L].
      + destruct (Nat.eq_dec i j) as [->|N].
        * right. exists (length bs).
          destruct (split_bs_fields bs j j Hj Hj) as (ks & E). rewrite (cs_of_fields _ _ _ _ E).
          split; [lia|]. split.
          -- rewrite split_bs_old by auto. rewrite Nat.eqb_refl. reflexivity.
          -- intros m Hm. split; [lia|]. exists []. rewrite split_bs_new by auto. rewrite E. reflexivity.
        * destruct (split_bs_fields bs j i Hj L) as (ks & E). rewrite (cs_of_fields _ _ _ _ E).
          rewrite split_bs_old by auto. destruct (Nat.eqb_spec i j); [congruence|].
          destruct (T3 i L) as [A|(a & A & B & C)]; [left; exact A|]. right. exists a. repeat split; auto.
          { destruct (C j0 H) as (D & _). lia. }
          destruct (C j0 H) as (D & ks' & F).
          destruct (split_bs_fields bs j (a + j0) Hj D) as (ks2 & E2). exists ks2. rewrite E2, F, E. reflexivity.
      + left. replace i with (length bs + (i - length bs)) by lia. rewrite split_bs_new by lia. reflexivity.
  Qed.
End Split.

(** ** consequences of the tree invariant *)
Section TreeFacts.
  Variable I : oin.
  Variable bs : list block.
  Hypothesis HT : tree I bs.

  Notation B := (getb bs).
  Notation len := (length bs).

  Lemma octant_lt r m d p : octant r m d p < 8.
  Proof. unfold octant. destruct (Qle_bool (pz p) _), (Qle_bool (py p) _), (Qle_bool (px p) _); lia. Qed.

  Lemma cs_of_in i c : In c (cs_of I bs i) <->
    c < 8 /\ nonempty (child_block I (S (b_level (B i))) i (b_delta (B i) / 2)%Q (B i) c) = true.
  Proof. unfold cs_of. rewrite filter_In, in_seq. split; intros (A & C); split; auto; lia. Qed.
  Lemma cs_of_nodup i : NoDup (cs_of I bs i).
  Proof. apply NoDup_filter, seq_NoDup. Qed.
  Lemma cs_of_le8 i : length (cs_of I bs i) <= 8.
  Proof. unfold cs_of. rewrite <- (seq_length 8 0) at 2. apply NoDup_incl_length.
    - apply NoDup_filter, seq_NoDup. - intros x H. apply filter_In in H; tauto. Qed.

  (** what a child is *)
  Lemma kid_info i k : i < len -> In k (b_kids (B i)) ->
    i < k < len /\ b_parent (B k) = i /\ b_level (B k) = S (b_level (B i)) /\
    exists c, c < 8 /\ exists ks, B k = with_kids (child_block I (S (b_level (B i))) i (b_delta (B i) / 2)%Q (B i) c) ks
      /\ nonempty (B k) = true.
  Proof.
    intros Hi Hk. destruct HT as (_ & _ & _ & T3). destruct (T3 i Hi) as [E|(a & A & E & C)].
    - rewrite E in Hk. destruct Hk.
    - rewrite E in Hk. apply in_seq in Hk. destruct Hk as (H1 & H2).
      destruct (C (k - a)) as (D & ks & F); [lia|]. replace (a + (k - a)) with k in * by lia.
      split; [lia|]. rewrite F. split; [reflexivity|]. split; [reflexivity|].
      assert (Hc : In (nth (k - a) (cs_of I bs i) 0) (cs_of I bs i)) by (apply nth_In; lia).
      apply cs_of_in in Hc. destruct Hc as (Hc & Hn).
      exists (nth (k - a) (cs_of I bs i) 0). split; [exact Hc|]. exists ks. split; [reflexivity|]. exact Hn.
  Qed.

  Lemma parent_info k : 0 < k < len -> b_parent (B k) < k /\ In k (b_kids (B (b_parent (B k)))).
  Proof. destruct HT as (_ & _ & T2 & _). apply T2. Qed.

  Lemma kids_nodup i : i < len -> NoDup (b_kids (B i)) /\ length (b_kids (B i)) <= 8.
  Proof.
    intros Hi. destruct HT as (_ & _ & _ & T3). destruct (T3 i Hi) as [E|(a & A & E & C)]; rewrite E.
    - split; [constructor|simpl; lia].
    - split; [apply seq_NoDup|]. rewrite seq_length. apply cs_of_le8.
  Qed.

  Lemma level_pos k : k < len -> (b_level (B k) = 0 <-> k = 0).
  Proof.
    intros Hk. destruct HT as (T0 & (k0 & T1) & _ & _). split; intros H.
    - destruct (Nat.eq_dec k 0) as [|N]; auto.
      destruct (parent_info k ltac:(lia)) as (A & C). apply kid_info in C; [|lia]. destruct C as (_ & _ & C & _). lia.
    - subst. rewrite T1. reflexivity.
  Qed.
  Lemma root_parent : b_parent (B 0) = 0.
  Proof. destruct HT as (T0 & (k0 & T1) & _ & _). rewrite T1. reflexivity. Qed.
  Lemma parent_level k : 0 < k < len -> b_level (B k) = S (b_level (B (b_parent (B k)))).
  Proof. intros H. destruct (parent_info k H) as (A & C). apply kid_info in C; [tauto|lia]. Qed.

  (** generic over nodes / quads *)
  Section Points.
    Variable pts : block -> list nat.
    Variable pos : nat -> pt.
    Hypothesis Hroot : forall ks, NoDup (pts (with_kids (root_block I) ks)).
    Hypothesis Hwk : forall b ks, pts (with_kids b ks) = pts b.
    Hypothesis Hne : forall b x, In x (pts b) -> nonempty b = true.
    Hypothesis Hchild : forall l j d b c, pts (child_block I l j d b c) =
      filter (fun n => Nat.eqb (octant (o_rnd I) (b_min b) d (pos n)) c) (pts b).

    Lemma pts_kid i k x : i < len -> In k (b_kids (B i)) -> In x (pts (B k)) -> In x (pts (B i)).
    Proof.
      intros Hi Hk Hx. destruct (kid_info i k Hi Hk) as (_ & _ & _ & c & _ & ks & E & _).
      rewrite E, Hwk, Hchild in Hx. apply filter_In in Hx. tauto.
    Qed.
    Lemma pts_parent k x : 0 < k < len -> In x (pts (B k)) -> In x (pts (B (b_parent (B k)))).
    Proof. intros H. destruct (parent_info k H) as (A & C). apply pts_kid; auto. lia. Qed.

    Lemma pts_nodup i : i < len -> NoDup (pts (B i)).
    Proof.
      induction i as [i IH] using lt_wf_ind. intros Hi. destruct (Nat.eq_dec i 0) as [->|N].
      - destruct HT as (T0 & (k0 & T1) & _ & _). rewrite T1. apply Hroot.
      - destruct (parent_info i ltac:(lia)) as (A & C).
        destruct (kid_info (b_parent (B i)) i ltac:(lia) C) as (_ & _ & _ & c & _ & ks & E & _).
        rewrite E, Hwk, Hchild. apply NoDup_filter. apply IH; lia.
    Qed.

    (** a point of a split block is in exactly one child *)
    Lemma pts_some_kid i x : i < len -> b_kids (B i) <> [] -> In x (pts (B i)) ->
      exists k, In k (b_kids (B i)) /\ In x (pts (B k)).
    Proof.
      intros Hi Hk Hx. destruct HT as (_ & _ & _ & T3). destruct (T3 i Hi) as [E|(a & A & E & C)]; [congruence|].
      set (c := octant (o_rnd I) (b_min (B i)) (b_delta (B i) / 2)%Q (pos x)).
      assert (Hin : In x (pts (child_block I (S (b_level (B i))) i (b_delta (B i) / 2)%Q (B i) c))).
      { rewrite Hchild. apply filter_In. split; auto. apply Nat.eqb_refl. }
      assert (Hc : In c (cs_of I bs i)).
      { apply cs_of_in. split; [apply octant_lt|]. eapply Hne; eauto. }
      destruct (In_nth _ _ 0 Hc) as (m & Hm & Em). destruct (C m Hm) as (D & ks & F).
      exists (a + m). rewrite E. split; [apply in_seq; lia|]. rewrite F, Em, Hwk. exact Hin.
    Qed.
    Lemma pts_one_kid i k k' x : i < len -> In k (b_kids (B i)) -> In k' (b_kids (B i)) ->
      In x (pts (B k)) -> In x (pts (B k')) -> k = k'.
    Proof.
      intros Hi Hk Hk' Hx Hx'. destruct HT as (_ & _ & _ & T3). destruct (T3 i Hi) as [E|(a & A & E & C)].
      { rewrite E in Hk; destruct Hk. }
      rewrite E in Hk, Hk'. apply in_seq in Hk. apply in_seq in Hk'.
      destruct (C (k - a)) as (D & ks & F); [lia|]. destruct (C (k' - a)) as (D' & ks' & F'); [lia|].
      replace (a + (k - a)) with k in * by lia. replace (a + (k' - a)) with k' in * by lia.
      rewrite F, Hwk, Hchild in Hx. rewrite F', Hwk, Hchild in Hx'. apply filter_In in Hx. apply filter_In in Hx'.
      destruct Hx as (_ & Hx). destruct Hx' as (_ & Hx'). apply Nat.eqb_eq in Hx. apply Nat.eqb_eq in Hx'.
      rewrite Hx in Hx'. assert (k - a = k' - a); [|lia].
      apply (proj1 (NoDup_nth (cs_of I bs i) 0) (cs_of_nodup i)); auto; lia.
    Qed.

    Lemma pts_same_level b b' x : b < len -> b' < len -> b_level (B b) = b_level (B b') ->
      In x (pts (B b)) -> In x (pts (B b')) -> b = b'.
    Proof.
      remember (b_level (B b)) as n eqn:En. revert b b' En. induction n; intros b b' En Hb Hb' El Hx Hx'.
      - rewrite (proj1 (level_pos b Hb) (eq_sym En)), (proj1 (level_pos b' Hb') (eq_sym El)). reflexivity.
      - assert (b <> 0) by (intros ->; assert (Z := proj2 (level_pos 0 Hb) eq_refl); lia).
        assert (b' <> 0) by (intros ->; assert (Z := proj2 (level_pos 0 Hb') eq_refl); lia).
        assert (L := parent_level b ltac:(lia)). assert (L' := parent_level b' ltac:(lia)).
        destruct (parent_info b ltac:(lia)) as (A & C). destruct (parent_info b' ltac:(lia)) as (A' & C').
        assert (E : b_parent (B b) = b_parent (B b')).
        { apply IHn; try lia; apply pts_parent; auto; lia. }
        rewrite <- E in C'. apply (pts_one_kid (b_parent (B b)) b b' x); auto. lia.
    Qed.

    Lemma pts_leaf_unique b b' x : b < len -> b' < len -> b_kids (B b) = [] -> b_kids (B b') = [] ->
      In x (pts (B b)) -> In x (pts (B b')) -> b = b'.
    Proof.
      (* wlog level b <= level b'; climb from b' *)
      assert (W : forall n b', b' < len -> b_level (B b') - b_level (B b) = n -> b_level (B b) <= b_level (B b') ->
        In x (pts (B b')) -> b < len -> b_kids (B b) = [] -> In x (pts (B b)) ->  b = b').
      { induction n; intros c Hc En Hl Hxc Hb Kb Hx.
        - apply (pts_same_level b c x); auto. lia.
        - assert (c <> 0) by (intros ->; assert (Z := proj2 (level_pos 0 Hc) eq_refl); lia).
          assert (L := parent_level c ltac:(lia)). destruct (parent_info c ltac:(lia)) as (A & C).
          assert (E : b = b_parent (B c)). { apply IHn; auto; try lia. apply pts_parent; auto; lia. }
          rewrite <- E, Kb in C. destruct C. }
      intros Hb Hb' K K' Hx Hx'. destruct (Nat.le_ge_cases (b_level (B b)) (b_level (B b'))) as [L|L].
      - eapply W; eauto.
      - symmetry. clear W.
        assert (W : forall n b0, b0 < len -> b_level (B b0) - b_level (B b') = n -> b_level (B b') <= b_level (B b0) ->
        In x (pts (B b0)) -> b' = b0).
        { induction n; intros c Hc En Hl Hxc.
          - apply (pts_same_level b' c x); auto. lia.
          - assert (c <> 0) by (intros ->; assert (Z := proj2 (level_pos 0 Hc) eq_refl); lia).
            assert (L2 := parent_level c ltac:(lia)). destruct (parent_info c ltac:(lia)) as (A & C).
            assert (E : b' = b_parent (B c)). { apply IHn; auto; try lia. apply pts_parent; auto; lia. }
            rewrite <- E, K' in C. destruct C. }
        eapply W; eauto.
    Qed.

    Lemma pts_root i x : i < len -> In x (pts (B i)) -> In x (pts (B 0)).
    Proof.
      induction i as [i IH] using lt_wf_ind. intros Hi Hx. destruct (Nat.eq_dec i 0) as [->|N]; auto.
      destruct (parent_info i ltac:(lia)) as (A & C). apply (IH (b_parent (B i))); try lia. apply pts_parent; auto; lia.
    Qed.

    (** every point of a block lies in a leaf below *)
    Lemma pts_leaf x : In x (pts (B 0)) -> exists b, b < len /\ b_kids (B b) = [] /\ In x (pts (B b)).
    Proof.
      assert (W : forall n i, len - i <= n -> i < len -> In x (pts (B i)) ->
         exists b, b < len /\ b_kids (B b) = [] /\ In x (pts (B b))).
      { induction n; intros i Hn Hi Hx; [lia|].
        destruct (b_kids (B i)) as [|k0 r] eqn:K; [exists i; auto|].
        destruct (pts_some_kid i x Hi ltac:(congruence) Hx) as (k & Hk & Hxk).
        destruct (kid_info i k Hi Hk) as (L & _). apply (IHn k); auto; lia. }
      intros Hx. apply (W len 0); auto; try lia. destruct HT; tauto.
    Qed.

    Lemma kids_perm i : i < len -> b_kids (B i) <> [] ->
      Permutation (pts (B i)) (flat_map (fun k => pts (B k)) (b_kids (B i))).
    Proof.
      intros Hi Hk. apply NoDup_Permutation.
      - apply pts_nodup; auto.
      - assert (Hsub : forall l, incl l (b_kids (B i)) -> NoDup l -> NoDup (flat_map (fun k => pts (B k)) l)).
        { induction l as [|k l IH]; intros Hin HN; [constructor|]. inversion HN; subst. simpl.
          assert (Hk1 : In k (b_kids (B i))) by (apply Hin; left; auto).
          assert (A : forall u v : list nat, NoDup u -> NoDup v -> (forall x, In x u -> In x v -> False) -> NoDup (u ++ v)).
          { intros u v Hu Hv Hd. induction u; simpl; auto. inversion Hu; subst. constructor.
            - rewrite in_app_iff. intros [|]; [tauto|]. eapply Hd; eauto. left; auto.
            - apply IHu; auto. intros x X Y. eapply Hd; eauto. right; auto. }
          apply A.
          - apply pts_nodup. apply (kid_info i k Hi Hk1).
          - apply IH; auto. intros z Hz; apply Hin; right; auto.
          - intros x X Y. apply in_flat_map in Y. destruct Y as (k2 & Y1 & Y2).
            assert (k = k2). { apply (pts_one_kid i k k2 x); auto. apply Hin; right; auto. }
            subst; auto. }
        apply Hsub; [apply incl_refl|apply kids_nodup; auto].
      - intros x. rewrite in_flat_map. split.
        + intros Hx. destruct (pts_some_kid i x Hi Hk Hx) as (k & A & C). eauto.
        + intros (k & A & C). eapply pts_kid; eauto.
    Qed.
  End Points.
End TreeFacts.
