(** Near-neighbour, interaction and non-interaction lists. *)
From Coq Require Import QArith Qabs Qminmax Qround ZArith List Lia Arith Bool Permutation.
From Verif Require Import ModelOctree ProofsOctTree ProofsOctLevels ProofsOctFacts.
Import ListNotations.
Local Open Scope nat_scope.

Lemma nub_in x l : In x (nub l) <-> In x l.
Proof. apply nodup_In. Qed.
Lemma nub_nodup l : NoDup (nub l).
Proof. apply NoDup_nodup. Qed.
Lemma existsb_eqb x l : existsb (Nat.eqb x) l = true <-> In x l.
Proof.
  rewrite existsb_exists. split; [intros (y & A & C); apply Nat.eqb_eq in C; subst; auto|].
  intros H; exists x; split; auto. apply Nat.eqb_refl.
Qed.

Section Lists.
  Variable I : oin.
  Hypothesis W : wf_in I.
  Notation st := (octree I).
  Notation bs := (st_blocks (octree I)).
  Notation B := (getb (st_blocks (octree I))).
  Notation N := (o_N I).
  Notation front := (front I).
  Notation qb := (qb I).

  Lemma near_of_parent tab tab' k :
    (b_level (B k) <> 1 -> tab (b_parent (B k)) = tab' (b_parent (B k))) ->
    near_of I st tab k = near_of I st tab' k.
  Proof.
    intros H. unfold near_of. destruct (Nat.eqb_spec (b_level (B k)) 1); auto. rewrite H; auto.
  Qed.

  Lemma near_tab_eq k : 0 < k < length bs -> near_tab I st k = near_of I st (near_tab I st) k.
  Proof.
    intros Hk. unfold near_tab, num_blocks.
    set (f := fun (tab : nat -> list (list nat)) k => let v := near_of I st tab k in fun j => if Nat.eqb j k then v else tab j).
    assert (X : forall n, (forall j, n < j -> fold_left f (seq 1 n) (fun _ => [[]]) j = [[]]) /\
       (forall j, 0 < j <= n -> n < length bs -> fold_left f (seq 1 n) (fun _ => [[]]) j = near_of I st (fold_left f (seq 1 n) (fun _ => [[]])) j)).
    { induction n as [|n (IH1 & IH2)].
      - split; [reflexivity|intros; lia].
      - rewrite seq_S, fold_snoc. set (T := fold_left f (seq 1 n) (fun _ => [[]])) in *.
        assert (Ef : forall j, f T (1 + n) j = if Nat.eqb j (1 + n) then near_of I st T (1 + n) else T j) by reflexivity.
        split.
        + intros j Hj. rewrite Ef. destruct (Nat.eqb_spec j (1 + n)); [lia|]. apply IH1. lia.
        + intros j Hj HL.
          assert (P : near_of I st T j = near_of I st (f T (1 + n)) j).
          { apply near_of_parent. intros L1. rewrite Ef. destruct (Nat.eqb_spec (b_parent (B j)) (1 + n)) as [E|]; auto.
            assert (Y := proj1 (parent_info I bs (F_tree I W) j ltac:(lia))). lia. }
          rewrite <- P. rewrite Ef. destruct (Nat.eqb_spec j (1 + n)) as [->|]; auto. apply IH2; lia. }
    destruct (X (length bs - 1)) as (_ & X2). apply X2; lia.
  Qed.

  Lemma near_subs_length r k n l : length (near_subs r bs k n l) = n.
  Proof. revert l; induction n; intros l; cbn [near_subs length]; auto. Qed.
  Lemma near_levels_eq k : 0 < k < length bs ->
    near_levels I st k = if Nat.eqb (b_level (B k)) 1 then 1
                         else match b_kids (B k) with [] => S (N - b_level (B k)) | _ => 1 end.
  Proof.
    intros Hk. unfold near_levels. rewrite near_tab_eq by auto. unfold near_of.
    destruct (Nat.eqb (b_level (B k)) 1); [reflexivity|]. destruct (b_kids (B k)); [|reflexivity].
    cbn [length]. rewrite near_subs_length. reflexivity.
  Qed.
  Lemma near_levels_pos k : 0 < k < length bs -> 0 < near_levels I st k.
  Proof. intros Hk. rewrite near_levels_eq by auto. destruct (Nat.eqb _ 1); [lia|]. destruct (b_kids (B k)); lia. Qed.
  Lemma near_levels_front k s : 0 < k < length bs -> s < near_levels I st k -> front (b_level (B k) + s) k /\ b_level (B k) + s <= N.
  Proof.
    intros Hk Hs. rewrite near_levels_eq in Hs by auto. assert (L := F_level_le I W k ltac:(lia)).
    destruct (Nat.eqb (b_level (B k)) 1).
    - split; [|lia]. split; [lia|]. left. lia.
    - destruct (b_kids (B k)) eqn:E.
      + split; [|lia]. split; [lia|]. destruct s; [left; lia|right]. split; auto. lia.
      + split; [|lia]. split; [lia|]. left. lia.
  Qed.

  Lemma near_1 k : 0 < k < length bs -> b_level (B k) = 1 -> near I st k 0 = level_ids st 1.
  Proof. intros Hk Hl. unfold near. rewrite near_tab_eq by auto. unfold near_of. rewrite Hl. reflexivity. Qed.
  Lemma near_0 k : 0 < k < length bs -> b_level (B k) <> 1 ->
    near I st k 0 = near0 (o_rnd I) bs k (near I st (b_parent (B k)) 0).
  Proof.
    intros Hk Hl. unfold near at 1. rewrite near_tab_eq by auto. unfold near_of. destruct (Nat.eqb_spec (b_level (B k)) 1); [congruence|].
    reflexivity.
  Qed.
  Lemma near_subs_nth r k n l s : s < n -> nth s (near_subs r bs k n l) [] = near_next r bs k (match s with 0 => l | S s' => nth s' (near_subs r bs k n l) [] end).
  Proof.
    revert l s; induction n; intros l s H; [lia|]. destruct s; [reflexivity|]. cbn [near_subs nth].
    rewrite IHn by lia. destruct s; reflexivity.
  Qed.
  Lemma near_S k s : 0 < k < length bs -> S s < near_levels I st k -> near I st k (S s) = near_next (o_rnd I) bs k (near I st k s).
  Proof.
    intros Hk Hs. assert (NL := near_levels_eq k Hk). unfold near. rewrite near_tab_eq by auto. unfold near_of.
    destruct (Nat.eqb (b_level (B k)) 1); [lia|]. destruct (b_kids (B k)); [|lia].
    cbn [nth]. rewrite near_subs_nth by lia. destruct s; reflexivity.
  Qed.

  Lemma near0_in k j l : In j (near0 (o_rnd I) bs k l) <-> j = k \/ (exists p, In p l /\ In j (refine1 bs p) /\ touches (o_rnd I) (B k) (B j) = true).
  Proof.
    unfold near0. rewrite nub_in. simpl. rewrite filter_In, in_flat_map. split.
    - intros [->|((p & A & C) & D)]; auto. right. exists p. auto.
    - intros [->|(p & A & C & D)]; auto. right. split; auto. exists p; auto.
  Qed.
  Lemma near_next_in k j l : In j (near_next (o_rnd I) bs k l) <->
    exists p, In p l /\ ((b_kids (B p) = [] /\ j = p) \/ (In j (b_kids (B p)) /\ touches (o_rnd I) (B k) (B j) = true)).
  Proof.
    unfold near_next. rewrite nub_in, in_flat_map. split; intros (p & A & C); exists p; split; auto.
    - destruct (b_kids (B p)) as [|a r] eqn:E; [left; split; auto; destruct C as [|[]]; auto|].
      right. apply filter_In in C. auto.
    - destruct (b_kids (B p)) as [|a r] eqn:E.
      + destruct C as [(_ & ->)|([] & _)]. left; auto.
      + destruct C as [(D & _)|(D & F)]; [discriminate|]. apply filter_In. auto.
  Qed.
  Lemma near_next_refine k j l : In j (near_next (o_rnd I) bs k l) -> In j (flat_map (refine1 bs) l).
  Proof.
    rewrite near_next_in, in_flat_map. intros (p & A & C). exists p. split; auto. unfold refine1.
    destruct C as [(D & ->)|(D & _)]; [rewrite D; left; auto|]. destruct (b_kids (B p)); [destruct D|auto].
  Qed.

  Lemma lvl1_front j : In j (level_ids st 1) <-> front 1 j.
  Proof.
    assert (N1 : 1 <= N) by (destruct W as (X & _); lia).
    rewrite (F_level_ids I W) by lia. split; [intros (A & C); split; auto|].
    intros (A & [C|(C & D)]); split; auto. exfalso.
    assert (j = 0) by (apply (level_pos I bs (F_tree I W)); auto; lia). subst.
    apply (F_leaf I W) in D; auto. rewrite cl_eq, in_app_iff in D. destruct D as [D|D].
    - apply (li_scl _ _ _ _ (FL I W)) in D. lia.
    - apply (li_par _ _ _ _ (FL I W)) in D. rewrite <- bs_eq in D. lia.
  Qed.

  Lemma parent_ok k : 0 < k < length bs -> b_level (B k) <> 1 ->
    0 < b_parent (B k) < k /\ b_level (B (b_parent (B k))) = b_level (B k) - 1 /\ b_kids (B (b_parent (B k))) <> [] /\ 2 <= b_level (B k).
  Proof.
    intros Hk Hl. assert (HT := F_tree I W). destruct (parent_info I bs HT k Hk) as (A & C).
    assert (L := parent_level I bs HT k Hk).
    assert (b_level (B (b_parent (B k))) <> 0) by lia.
    assert (b_parent (B k) <> 0) by (intros E; apply H; apply (level_pos I bs HT); auto; lia).
    repeat split; try lia. intros E; rewrite E in C; destruct C.
  Qed.

  (** near lists stay in the frontier and contain the block *)
  Lemma near_props k s : 0 < k < length bs -> s < near_levels I st k ->
    In k (near I st k s) /\ forall j, In j (near I st k s) -> front (b_level (B k) + s) j.
  Proof.
    revert s. induction k as [k IH] using lt_wf_ind. intros s Hk Hs.
    destruct (Nat.eq_dec (b_level (B k)) 1) as [L1|L1].
    - rewrite near_levels_eq, L1 in Hs by auto. simpl in Hs. assert (s = 0) by lia. subst. rewrite near_1, L1 by auto.
      split; [apply (F_level_ids I W); destruct W; [lia|split; [lia|auto]]|]. intros j Hj. apply lvl1_front; auto.
    - destruct (parent_ok k Hk L1) as (P1 & P2 & P3 & P4).
      induction s.
      + rewrite near_0 by auto. split; [apply near0_in; auto|].
        intros j Hj. apply near0_in in Hj. destruct Hj as [->|(p & A & C & _)]; [apply near_levels_front; auto|].
        assert (Hp : front (b_level (B (b_parent (B k))) + 0) p).
        { apply (IH (b_parent (B k)) ltac:(lia) 0); auto; [lia|]. apply near_levels_pos. lia. }
        assert (front (S (b_level (B k) - 1)) j).
        { apply (refine1_front I W _ p); auto; [|assert (X := F_level_le I W k ltac:(lia)); lia].
          rewrite P2, Nat.add_0_r in Hp. exact Hp. }
        replace (b_level (B k) + 0) with (S (b_level (B k) - 1)) by lia. auto.
      + destruct (IHs ltac:(lia)) as (A & C). rewrite near_S by auto.
        destruct (near_levels_front k (S s) Hk Hs) as (F & FN).
        split.
        * apply near_next_in. exists k. split; auto. left. split; auto.
          destruct F as (_ & [F|(_ & F)]); auto. lia.
        * intros j Hj. apply near_next_refine, in_flat_map in Hj. destruct Hj as (p & D & G).
          rewrite Nat.add_succ_r. apply (refine1_front I W _ p); auto. lia.
  Qed.

  (** cells and quadrature points around a node *)
  Lemma dof_elems_in d c : In c (dof_elems I d) <-> c < o_nc I /\ (In c (o_old I d) \/ In d (o_cdofs I c)).
  Proof.
    unfold dof_elems. rewrite in_app_iff, filter_In, in_flat_map. split.
    - intros [(A & C)|(c' & A & C)].
      + apply Nat.ltb_lt in C. auto.
      + apply in_seq in A. apply in_map_iff in C. destruct C as (x & <- & D). apply filter_In in D.
        destruct D as (D & F). apply Nat.eqb_eq in F. subst. split; [lia|auto].
    - intros (A & [C|C]); [left; split; auto; apply Nat.ltb_lt; auto|right].
      exists c. split; [apply in_seq; lia|]. apply in_map_iff. exists d. split; auto. apply filter_In. split; auto. apply Nat.eqb_refl.
  Qed.
  Lemma quads_of_cell_in c q : c < o_nc I -> (In q (quads_of_cell I c) <-> q < o_nq I /\ cell_of I q = c).
  Proof.
    intros Hc. unfold quads_of_cell, cell_of, o_nq. rewrite in_seq. split.
    - intros H. assert (0 < o_nqc I) by lia. split; [nia|]. symmetry. apply Nat.div_unique with (r := q - c * o_nqc I); lia.
    - intros (H & <-). assert (0 < o_nqc I) by nia.
      assert (X := Nat.div_mod q (o_nqc I) ltac:(lia)). assert (Y := Nat.mod_upper_bound q (o_nqc I) ltac:(lia)). lia.
  Qed.

  (** [q] lies on a cell with a node coincident with a node of block k *)
  Definition is_around (k q : nat) : Prop :=
    exists n d c, In n (b_nodes (B k)) /\ In d (o_dbl I n) /\ c < o_nc I /\ (In c (o_old I d) \/ In d (o_cdofs I c)) /\ cell_of I q = c /\ q < o_nq I.
  Lemma around_in k s j : In j (around I st k s) <-> exists q, is_around k q /\ j = qb q (b_level (B k) + s).
  Proof.
    unfold around, is_around, ProofsOctFacts.qb. rewrite in_flat_map. split.
    - intros (n & A & C). apply in_flat_map in C. destruct C as (d & D & F). apply in_flat_map in F. destruct F as (c & F & G).
      apply dof_elems_in in F. destruct F as (F1 & F2). apply in_map_iff in G. destruct G as (q & G1 & G2).
      apply quads_of_cell_in in G2; auto. exists q. split; auto. exists n, d, c. tauto.
    - intros (q & (n & d & c & A1 & A2 & A3 & A4 & A5 & A6) & ->). exists n. split; auto. apply in_flat_map. exists d. split; auto.
      apply in_flat_map. exists c. split; [apply dof_elems_in; auto|]. apply in_map_iff. exists q. split; auto. apply quads_of_cell_in; auto.
  Qed.
  Lemma is_around_parent k q : 0 < k < length bs -> is_around k q -> is_around (b_parent (B k)) q.
  Proof.
    intros Hk (n & d & c & A & C). exists n, d, c. split; auto. apply (nodes_parent I bs (F_tree I W)); auto.
  Qed.

  Lemma int_1 k s : b_level (B k) = 1 -> int_list I st k s = level_ids st 1.
  Proof. intros H. unfold int_list. rewrite H. reflexivity. Qed.
  Lemma int_in k s j : b_level (B k) <> 1 ->
    (In j (int_list I st k s) <-> In j (near I st k s) \/ exists q, is_around k q /\ j = qb q (b_level (B k) + s)).
  Proof.
    intros H. unfold int_list. destruct (Nat.eqb_spec (b_level (B k)) 1); [congruence|]. rewrite nub_in, in_app_iff, around_in. tauto.
  Qed.
  Lemma near_in_int k s j : 0 < k < length bs -> s < near_levels I st k -> In j (near I st k s) -> In j (int_list I st k s).
  Proof.
    intros Hk Hs H. destruct (Nat.eq_dec (b_level (B k)) 1) as [L|L].
    - rewrite int_1 by auto. rewrite near_levels_eq, L in Hs by auto. simpl in Hs. assert (s = 0) by lia. subst. rewrite near_1 in H; auto.
    - apply int_in; auto.
  Qed.
  Lemma around_in_int k s q : 0 < k < length bs -> s < near_levels I st k -> is_around k q -> In (qb q (b_level (B k) + s)) (int_list I st k s).
  Proof.
    intros Hk Hs H. destruct (Nat.eq_dec (b_level (B k)) 1) as [L|L].
    - rewrite int_1 by auto. rewrite near_levels_eq, L in Hs by auto. simpl in Hs. assert (s = 0) by lia. subst. rewrite L.
      apply lvl1_front. apply (qb_front I W). { destruct H as (n & d & c & H). tauto. } destruct W; lia.
    - apply int_in; auto. right. exists q. auto.
  Qed.
  Lemma int_front k s j : 0 < k < length bs -> s < near_levels I st k -> In j (int_list I st k s) -> front (b_level (B k) + s) j.
  Proof.
    intros Hk Hs H. destruct (Nat.eq_dec (b_level (B k)) 1) as [L|L].
    - rewrite int_1 in H by auto. rewrite near_levels_eq, L in Hs by auto. simpl in Hs. assert (s = 0) by lia. subst. rewrite L. apply lvl1_front; auto.
    - apply int_in in H; auto. destruct H as [H|(q & A & ->)]; [apply (near_props k s); auto|].
      destruct (near_levels_front k s Hk Hs). apply (qb_front I W); auto. destruct A as (n & d & c & A). tauto.
  Qed.
  Lemma int_self k s : 0 < k < length bs -> s < near_levels I st k -> In k (int_list I st k s).
  Proof. intros Hk Hs. apply near_in_int; auto. apply near_props; auto. Qed.
  Lemma int_nodup k s : NoDup (int_list I st k s).
  Proof. unfold int_list. destruct (Nat.eqb _ 1); [apply seq_NoDup|apply nub_nodup]. Qed.

  (** the list one stage up *)
  Definition up (k s : nat) : list nat :=
    match s with 0 => int_list I st (b_parent (B k)) 0 | S s' => int_list I st k s' end.
  Lemma up_front k s j : 0 < k < length bs -> b_level (B k) <> 1 -> s < near_levels I st k -> In j (up k s) -> front (b_level (B k) + s - 1) j.
  Proof.
    intros Hk HL Hs H. destruct (parent_ok k Hk HL) as (P1 & P2 & P3 & P4). destruct s; cbn [up] in H.
    - apply int_front in H; [|lia|apply near_levels_pos; lia]. rewrite P2 in H. replace (b_level (B k) + 0 - 1) with (b_level (B k) - 1 + 0) by lia. auto.
    - apply int_front in H; [|lia|lia]. replace (b_level (B k) + S s - 1) with (b_level (B k) + s) by lia. auto.
  Qed.

  Lemma int_chain k s j : 0 < k < length bs -> b_level (B k) <> 1 -> s < near_levels I st k ->
    In j (int_list I st k s) -> In j (flat_map (refine1 bs) (up k s)).
  Proof.
    intros Hk HL Hs H. destruct (parent_ok k Hk HL) as (P1 & P2 & P3 & P4).
    assert (PL := near_levels_pos (b_parent (B k)) ltac:(lia)).
    apply int_in in H; auto. destruct H as [H|(q & A & ->)].
    - destruct s.
      + rewrite near_0 in H by auto. apply near0_in in H. cbn [up]. destruct H as [->|(p & A & C & _)].
        * apply in_flat_map. exists (b_parent (B k)). split; [apply int_self; auto; lia|].
          unfold refine1. destruct (parent_info I bs (F_tree I W) k Hk) as (_ & X). destruct (b_kids (B (b_parent (B k)))); [destruct X|auto].
        * apply in_flat_map. exists p. split; auto. apply near_in_int; auto; lia.
      + rewrite near_S in H by auto. apply near_next_refine in H. apply in_flat_map in H. destruct H as (p & A & C).
        apply in_flat_map. exists p. split; auto. cbn [up]. apply near_in_int; auto; lia.
    - apply in_flat_map. exists (qb q (b_level (B k) + s - 1)).
      assert (Hq : q < o_nq I) by (destruct A as (n & d & c & A); tauto).
      destruct (near_levels_front k s Hk Hs) as (_ & FN).
      split.
      + destruct s; cbn [up].
        * replace (b_level (B k) + 0 - 1) with (b_level (B (b_parent (B k))) + 0) by lia. apply around_in_int; try lia. apply is_around_parent; auto.
        * replace (b_level (B k) + S s - 1) with (b_level (B k) + s) by lia. apply around_in_int; auto; lia.
      + replace (b_level (B k) + s) with (S (b_level (B k) + s - 1)) at 1 by lia. apply (refine1_qb I W); auto. lia.
  Qed.

  (** members of the refinement that hold q *)
  Lemma refine_qb l L q : q < o_nq I -> S l <= N -> (forall j, In j L -> front l j) ->
    (In (qb q (S l)) (flat_map (refine1 bs) L) <-> In (qb q l) L).
  Proof.
    intros Hq Hl HL. rewrite in_flat_map. split.
    - intros (p & A & C). assert (qb q l = p); [|subst; auto].
      apply (qb_iff I W l p q); auto; [lia|]. apply (refine1_quads I W l p (qb q (S l))); auto. apply (qb_front I W); auto.
    - intros H. exists (qb q l). split; auto. apply (refine1_qb I W); auto.
  Qed.

  Lemma nonint_1 k s : b_level (B k) = 1 -> nonint_list I st k s = [].
  Proof. intros H. unfold nonint_list. rewrite H. reflexivity. Qed.
  Lemma nonint_in k s j : b_level (B k) <> 1 ->
    (In j (nonint_list I st k s) <-> In j (flat_map (refine1 bs) (up k s)) /\ ~ In j (int_list I st k s)).
  Proof.
    intros H. unfold nonint_list. destruct (Nat.eqb_spec (b_level (B k)) 1); [congruence|].
    rewrite nub_in, filter_In. fold (up k s). rewrite negb_true_iff. rewrite <- not_true_iff_false, existsb_eqb. tauto.
  Qed.
  Lemma nonint_nodup k s : NoDup (nonint_list I st k s).
  Proof. unfold nonint_list. destruct (Nat.eqb _ 1); [constructor|apply nub_nodup]. Qed.
  Lemma nonint_front k s j : 0 < k < length bs -> b_level (B k) <> 1 -> s < near_levels I st k ->
    In j (nonint_list I st k s) -> front (b_level (B k) + s) j.
  Proof.
    intros Hk HL Hs H. apply nonint_in in H; auto. destruct H as (H & _). apply in_flat_map in H. destruct H as (p & A & C).
    destruct (parent_ok k Hk HL) as (P1 & P2 & P3 & P4). destruct (near_levels_front k s Hk Hs) as (_ & FN).
    replace (b_level (B k) + s) with (S (b_level (B k) + s - 1)) by lia.
    apply (refine1_front I W _ p); auto; [apply up_front; auto|lia].
  Qed.
  (** a quadrature point enters the far field at a stage iff it leaves the near field there *)
  Lemma nonint_stage k s q : 0 < k < length bs -> b_level (B k) <> 1 -> s < near_levels I st k -> q < o_nq I ->
    (In (qb q (b_level (B k) + s)) (nonint_list I st k s) <->
     In (qb q (b_level (B k) + s - 1)) (up k s) /\ ~ In (qb q (b_level (B k) + s)) (int_list I st k s)).
  Proof.
    intros Hk HL Hs Hq. rewrite nonint_in by auto. destruct (near_levels_front k s Hk Hs) as (_ & FN).
    destruct (parent_ok k Hk HL) as (P1 & P2 & P3 & P4).
    assert (X := refine_qb (b_level (B k) + s - 1) (up k s) q Hq ltac:(lia) (fun j => up_front k s j Hk HL Hs)).
    replace (S (b_level (B k) + s - 1)) with (b_level (B k) + s) in X by lia. rewrite X. tauto.
  Qed.
  Lemma int_mono k s q : 0 < k < length bs -> b_level (B k) <> 1 -> s < near_levels I st k -> q < o_nq I ->
    In (qb q (b_level (B k) + s)) (int_list I st k s) -> In (qb q (b_level (B k) + s - 1)) (up k s).
  Proof.
    intros Hk HL Hs Hq H. apply int_chain in H; auto. destruct (near_levels_front k s Hk Hs) as (_ & FN).
    destruct (parent_ok k Hk HL) as (P1 & P2 & P3 & P4).
    assert (X := refine_qb (b_level (B k) + s - 1) (up k s) q Hq ltac:(lia) (fun j => up_front k s j Hk HL Hs)).
    replace (S (b_level (B k) + s - 1)) with (b_level (B k) + s) in X by lia. apply X; auto.
  Qed.
End Lists.
