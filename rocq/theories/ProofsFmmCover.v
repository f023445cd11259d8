(** Every (node, quadrature point) pair is accounted for exactly once. *)
From Coq Require Import QArith Qabs Qminmax Qround ZArith List Lia Arith Bool Permutation.
From Verif Require Import ModelOctree ModelFmm ProofsOctTree ProofsOctLevels ProofsOctFacts ProofsOctLists.
Import ListNotations.
Local Open Scope nat_scope.

Lemma mem_in x l : mem x l = true <-> In x l.
Proof. apply existsb_eqb. Qed.
Lemma mem_false x l : mem x l = false <-> ~ In x l.
Proof. rewrite <- mem_in. destruct (mem x l); intuition congruence. Qed.
Lemma mem_eq x l y m : (In x l <-> In y m) -> mem x l = mem y m.
Proof.
  intros H. destruct (mem x l) eqn:E, (mem y m) eqn:F; auto.
  - apply mem_in in E. apply H in E. apply mem_in in E. congruence.
  - apply mem_in in F. apply H in F. apply mem_in in F. congruence.
Qed.

(** flat_map over a list with at most one relevant element *)
Lemma flat_map_nil {A B} (f : A -> list B) l : (forall x, In x l -> f x = []) -> flat_map f l = [].
Proof. induction l; simpl; intros H; auto. rewrite H, IHl; auto. Qed.
Lemma flat_map_one {A B} (f : A -> list B) l x : NoDup l -> In x l -> (forall y, In y l -> y <> x -> f y = []) -> flat_map f l = f x.
Proof.
  induction l as [|a l IH]; intros ND HI H; [destruct HI|]. inversion ND; subst. simpl. destruct HI as [->|HI].
  - rewrite flat_map_nil; [apply app_nil_r|]. intros y Hy. apply H; [right; auto|]. intros ->; auto.
  - rewrite IH; auto; [|intros y Hy; apply H; right; auto]. rewrite (H a); auto; [left; auto|]. intros ->; auto.
Qed.

Section Cover.
  Variable I : oin.
  Hypothesis W : wf_in I.
  Notation st := (octree I).
  Notation bs := (st_blocks (octree I)).
  Notation B := (getb (st_blocks (octree I))).
  Notation N := (o_N I).
  Notation front := (front I).
  Notation qb := (qb I).

  Lemma N_pos : 1 <= N. Proof. destruct W; lia. Qed.

  (** ** the blocks on the way from the root to a leaf *)
  Definition pathb (b l : nat) : nat := nth l (ancestors bs b) b.

  Lemma path_leaf b l : b < length bs -> b_level (B b) <= l -> pathb b l = b.
  Proof. intros Hb H. unfold pathb. apply nth_overflow. rewrite (ancestors_length I bs b (F_tree I W) Hb). auto. Qed.
  Lemma path_anc b l : b < length bs -> l < b_level (B b) -> pathb b l = nth l (ancestors bs b) 0.
  Proof. intros Hb H. unfold pathb. apply nth_indep. rewrite (ancestors_length I bs b (F_tree I W) Hb). auto. Qed.
  Lemma path_facts b l : b < length bs -> l <= b_level (B b) ->
    pathb b l < length bs /\ b_level (B (pathb b l)) = l /\ (l < b_level (B b) -> b_kids (B (pathb b l)) <> []) /\
    (forall d, In d (b_nodes (B b)) -> In d (b_nodes (B (pathb b l)))) /\
    (forall d, In d (b_quads (B b)) -> In d (b_quads (B (pathb b l)))).
  Proof.
    intros Hb Hl. destruct (Nat.eq_dec l (b_level (B b))) as [->|NE].
    - rewrite path_leaf by auto. repeat split; auto. lia.
    - rewrite path_anc by (auto; lia). destruct (anc_nth I W b l Hb ltac:(lia)) as (A1 & A2 & A3 & A4 & A5). auto.
  Qed.
  Lemma path_pos b l : b < length bs -> 0 < l <= b_level (B b) -> 0 < pathb b l.
  Proof.
    intros Hb Hl. destruct (path_facts b l Hb ltac:(lia)) as (A1 & A2 & _).
    destruct (Nat.eq_dec (pathb b l) 0) as [E|]; [|lia]. apply (level_pos I bs (F_tree I W)) in E; auto. lia.
  Qed.
  Lemma path_parent b l : b < length bs -> l < b_level (B b) -> b_parent (B (pathb b (S l))) = pathb b l.
  Proof.
    assert (HT := F_tree I W). intros Hb Hl. remember (b_level (B b)) as n. revert b Hb Heqn Hl.
    induction n; intros b Hb En Hl; [lia|].
    assert (b <> 0) by (intros ->; assert (Z := proj2 (level_pos I bs HT 0 Hb) eq_refl); lia).
    assert (L := parent_level I bs HT b ltac:(lia)). destruct (parent_info I bs HT b ltac:(lia)) as (A & C).
    set (p := b_parent (B b)) in *.
    assert (Hp : p < length bs) by lia.
    assert (E : forall k, k < S n -> pathb b k = pathb p k).
    { intros k Hk. unfold pathb at 1. rewrite (ancestors_parent I bs b HT) by lia. fold p.
      assert (AL := ancestors_length I bs p HT ltac:(lia)).
      destruct (Nat.eq_dec k n) as [->|Nk].
      - rewrite app_nth2 by lia. rewrite AL. replace (n - b_level (B p)) with 0 by lia. cbn [nth]. symmetry. apply path_leaf; auto; lia.
      - rewrite app_nth1 by lia. unfold pathb. apply nth_indep. lia. }
    destruct (Nat.eq_dec l n) as [->|Nl].
    - rewrite path_leaf by (auto; lia). rewrite E by lia. symmetry. apply path_leaf; auto. fold p. lia.
    - rewrite !E by lia. apply IHn; auto; lia.
  Qed.

  (** ** stages *)
  Section Leaf.
    Variable b : nat.
    Hypothesis Hb : In b (st_childless st).
    Let Hbl : b < length bs := F_cl I W b Hb.
    Hypothesis Hb1 : 0 < b.
    Let lL := b_level (B b).
    Let J := lL + near_levels I st b - 1.
    Definition SB (j : nat) : nat := pathb b (Nat.min j lL).
    Definition SS (j : nat) : nat := j - lL.

    Lemma kids_b : b_kids (B b) = [].
    Proof. apply (F_leaf I W); auto. Qed.
    Lemma lL_pos : 1 <= lL.
    Proof.
      unfold lL. destruct (b_level (B b)) eqn:E; [|lia]. assert (X := proj1 (level_pos I bs (F_tree I W) b Hbl) E). lia.
    Qed.
    Lemma lL_le : lL <= N. Proof. apply (F_level_le I W); auto. Qed.
    Lemma J_ge : lL <= J. Proof. unfold J. assert (X := near_levels_pos I W b ltac:(lia)). lia. Qed.
    Lemma J_eq : J = if Nat.eqb lL 1 then 1 else N.
    Proof.
      unfold J. rewrite (near_levels_eq I W) by lia. fold lL. rewrite kids_b. assert (X := lL_le). assert (Y := lL_pos).
      destruct (Nat.eqb_spec lL 1); lia.
    Qed.
    Lemma J_le : J <= N.
    Proof. rewrite J_eq. assert (X := N_pos). destruct (Nat.eqb lL 1); lia. Qed.
    Lemma J_last : lL + (near_levels I st b - 1) = J.
    Proof. unfold J. assert (X := near_levels_pos I W b ltac:(lia)). lia. Qed.
    Lemma SB_facts j : 1 <= j <= J ->
      0 < SB j < length bs /\ b_level (B (SB j)) = Nat.min j lL /\ b_level (B (SB j)) + SS j = j /\ SS j < near_levels I st (SB j) /\
      (forall d, In d (b_nodes (B b)) -> In d (b_nodes (B (SB j)))).
    Proof.
      intros Hj. assert (Y := lL_pos). unfold SB, SS. assert (J1 : J - lL < near_levels I st b) by (unfold J; assert (X := near_levels_pos I W b ltac:(lia)); lia).
      destruct (path_facts b (Nat.min j lL) Hbl ltac:(fold lL; lia)) as (A1 & A2 & A3 & A4 & _).
      assert (A0 := path_pos b (Nat.min j lL) Hbl ltac:(fold lL; lia)).
      split; [lia|]. split; auto. split; [rewrite A2; lia|]. split; auto.
      destruct (Nat.le_gt_cases lL j) as [X|X].
      - rewrite Nat.min_r by lia. rewrite path_leaf by (auto; fold lL; lia). lia.
      - replace (j - lL) with 0 by lia. apply (near_levels_pos I W); lia.
    Qed.
    Lemma SB_leaf j : lL <= j -> SB j = b.
    Proof. intros H. unfold SB. apply path_leaf; auto. fold lL. lia. Qed.
    Lemma SB_up j : 2 <= j <= J -> b_level (B (SB j)) <> 1 /\ up I (SB j) (SS j) = int_list I st (SB (j - 1)) (SS (j - 1)).
    Proof.
      intros Hj. destruct (SB_facts j ltac:(lia)) as (_ & L & _). assert (Y := lL_pos).
      assert (L2 : 2 <= lL).
      { assert (X := J_eq). destruct (Nat.eqb_spec lL 1); lia. }
      split; [rewrite L; lia|].
      destruct (Nat.le_gt_cases j lL) as [X|X].
      - unfold SS. replace (j - lL) with 0 by lia. replace (j - 1 - lL) with 0 by lia. cbn [up]. f_equal.
        unfold SB. rewrite !Nat.min_l by lia. replace j with (S (j - 1)) at 1 by lia. apply path_parent; auto. fold lL; lia.
      - rewrite !SB_leaf by lia. unfold SS. replace (j - lL) with (S (j - 1 - lL)) by lia. reflexivity.
    Qed.

    (** stages of level l on the path: sublevels of one block *)
    Lemma level_stage l s : 1 <= l <= lL -> s < near_levels I st (pathb b l) ->
      1 <= l + s <= J /\ SB (l + s) = pathb b l /\ SS (l + s) = s.
    Proof.
      intros Hl Hs. destruct (path_facts b l Hbl ltac:(fold lL; lia)) as (A1 & A2 & A3 & A4).
      assert (A0 := path_pos b l Hbl ltac:(fold lL; lia)).
      assert (JG := J_ge).
      destruct (Nat.eq_dec l lL) as [->|NE].
      - rewrite path_leaf in Hs |- * by (auto; fold lL; lia). split; [assert (X := J_last); lia|]. split; [apply SB_leaf; lia|unfold SS; lia].
      - rewrite (near_levels_eq I W) in Hs by lia. rewrite A2 in Hs. fold lL in A3.
        assert (s = 0).
        { destruct (Nat.eqb l 1); [lia|]. destruct (b_kids (B (pathb b l))); [exfalso; apply A3; auto; lia|lia]. }
        subst s. rewrite Nat.add_0_r. split; [lia|]. split; [|unfold SS; lia]. unfold SB. rewrite Nat.min_l by lia. auto.
    Qed.
    Lemma level_count l : 1 <= l <= lL -> near_levels I st (pathb b l) = if Nat.eqb l lL then S (J - lL) else 1.
    Proof.
      intros Hl. destruct (Nat.eqb_spec l lL) as [->|NE].
      - rewrite path_leaf by (auto; fold lL; lia). assert (X := J_last). assert (Z := near_levels_pos I W b ltac:(lia)). lia.
      - assert (A0 := path_pos b l Hbl ltac:(fold lL; lia)). destruct (path_facts b l Hbl ltac:(fold lL; lia)) as (A1 & A2 & A3 & A4).
        rewrite (near_levels_eq I W) by lia. rewrite A2. destruct (Nat.eqb l 1); auto.
        destruct (b_kids (B (pathb b l))); auto. exfalso; apply A3; auto. fold lL; lia.
    Qed.

    Variable q : nat.
    Hypothesis Hq : q < o_nq I.
    Definition near_at (j : nat) : bool := mem (qb q j) (int_list I st (SB j) (SS j)).
    Definition far_at (j : nat) : bool := mem (qb q j) (nonint_list I st (SB j) (SS j)).

    Lemma near_at_1 : near_at 1 = true.
    Proof.
      apply mem_in. assert (X := J_ge). assert (Y := lL_pos). destruct (SB_facts 1 ltac:(lia)) as (_ & L & _). rewrite Nat.min_l in L by lia.
      rewrite int_1 by auto. apply (lvl1_front I W). apply (qb_front I W); auto. apply N_pos.
    Qed.
    Lemma far_at_1 : far_at 1 = false.
    Proof.
      apply mem_false. assert (X := J_ge). assert (Y := lL_pos). destruct (SB_facts 1 ltac:(lia)) as (_ & L & _). rewrite Nat.min_l in L by lia.
      rewrite nonint_1; auto.
    Qed.
    Lemma far_at_S j : 2 <= j <= J -> far_at j = near_at (j - 1) && negb (near_at j).
    Proof.
      intros Hj. destruct (SB_up j Hj) as (L & U). destruct (SB_facts j ltac:(lia)) as (A1 & A2 & A3 & A4 & _).
      assert (X := nonint_stage I W (SB j) (SS j) q A1 L A4 Hq). rewrite A3, U in X.
      unfold far_at, near_at. destruct (mem (qb q j) (nonint_list I st (SB j) (SS j))) eqn:E.
      - apply mem_in in E. apply X in E. destruct E as (E1 & E2). apply mem_in in E1. apply mem_false in E2. rewrite E1, E2. auto.
      - apply mem_false in E. destruct (mem (qb q (j - 1)) _) eqn:E1; auto. destruct (mem (qb q j) (int_list I st (SB j) (SS j))) eqn:E2; auto.
        exfalso. apply E. apply X. apply mem_in in E1. apply mem_false in E2. auto.
    Qed.
    Lemma near_at_mono j : 2 <= j <= J -> near_at j = true -> near_at (j - 1) = true.
    Proof.
      intros Hj. destruct (SB_up j Hj) as (L & U). destruct (SB_facts j ltac:(lia)) as (A1 & A2 & A3 & A4 & _).
      assert (X := int_mono I W (SB j) (SS j) q A1 L A4 Hq). rewrite A3, U in X. unfold near_at. rewrite !mem_in. auto.
    Qed.

    (** the stages telescope *)
    Lemma stages_sum n : 1 <= n <= J ->
      list_sum (map (fun j => if far_at j then 1 else 0) (seq 1 n)) + (if near_at n then 1 else 0) = 1.
    Proof.
      intros Hn. induction n as [|n IH]; [lia|].
      destruct (Nat.eq_dec n 0) as [->|N0].
      - simpl. rewrite far_at_1, near_at_1. reflexivity.
      - specialize (IH ltac:(lia)). rewrite seq_S, map_app, list_sum_app. cbn [map list_sum fold_right].
        change (1 + n) with (S n). assert (M := near_at_mono (S n) ltac:(lia)). rewrite (far_at_S (S n)) by lia.
        replace (S n - 1) with n in * by lia.
        destruct (near_at n), (near_at (S n)); simpl in *; try lia; try (specialize (M eq_refl); discriminate).
    Qed.
    Lemma far_unique j j' : 1 <= j <= J -> 1 <= j' <= J -> far_at j = true -> far_at j' = true -> j = j'.
    Proof.
      intros Hj Hj' F F'. assert (S := stages_sum J ltac:(lia)).
      destruct (Nat.eq_dec j j') as [|NE]; auto. exfalso.
      assert (X : forall a c, 1 <= a < c /\ c <= J -> far_at a = true -> far_at c = true ->
         2 <= list_sum (map (fun j => if far_at j then 1 else 0) (seq 1 J))).
      { intros a c H Fa Fc. replace J with ((a - 1) + (1 + ((c - a - 1) + (1 + (J - c))))) by lia.
        rewrite !seq_app, !map_app, !list_sum_app. cbn [seq map list_sum fold_right].
        replace (1 + (a - 1)) with a by lia. replace (a + 1 + (c - a - 1)) with c by lia. rewrite Fa, Fc. lia. }
      destruct (Nat.lt_ge_cases j j'); [assert (Y := X j j' ltac:(lia) F F')|assert (Y := X j' j ltac:(lia) F' F)]; destruct (near_at J); lia.
    Qed.

    Lemma quads_blocks_in l L : l <= N -> (forall c, In c L -> front l c) -> (In q (quads_of_blocks st L) <-> In (qb q l) L).
    Proof.
      intros Hl HL. unfold quads_of_blocks. rewrite nub_in, in_flat_map. split.
      - intros (c & A & C). apply (qb_iff I W l) in C; auto. destruct C as (_ & ->). auto.
      - intros H. exists (qb q l). split; auto. apply (qb_front I W); auto.
    Qed.
    Lemma near_quads_iff : mem q (near_quads I st b) = near_at J.
    Proof.
      unfold near_at. apply mem_eq. unfold near_quads, last_int. rewrite SB_leaf by apply J_ge. unfold SS.
      replace (near_levels I st b - 1) with (J - lL) by (assert (X := J_last); lia).
      apply quads_blocks_in; [apply J_le|]. intros c Hc. assert (X := J_last). assert (Z := near_levels_pos I W b ltac:(lia)).
      replace J with (b_level (B b) + (J - lL)) by (fold lL; lia). apply (int_front I W) with (k := b); auto; lia.
    Qed.

    (** members of the non-interaction list of a stage that hold q *)
    Lemma nonint_holds j c : 1 <= j <= J -> In c (nonint_list I st (SB j) (SS j)) -> (In q (b_quads (B c)) <-> c = qb q j).
    Proof.
      intros Hj Hc. destruct (SB_facts j Hj) as (A1 & A2 & A3 & A4 & _).
      destruct (Nat.eq_dec (b_level (B (SB j))) 1) as [L|L]; [rewrite nonint_1 in Hc by auto; destruct Hc|].
      assert (F := nonint_front I W (SB j) (SS j) c A1 L A4 Hc). rewrite A3 in F.
      assert (JL := J_le). rewrite (qb_iff I W j c q F ltac:(lia)). split; [intros (_ & ->); auto|intros ->; auto].
    Qed.

    (** sub-list of a non-interaction list selected by a test *)
    Lemma pick (f : nat -> way) (t : nat -> bool) j : 1 <= j <= J ->
      flat_map (fun c => if mem q (b_quads (B c)) then [f c] else []) (filter t (nonint_list I st (SB j) (SS j)))
      = if far_at j && t (qb q j) then [f (qb q j)] else [].
    Proof.
      intros Hj. assert (ND := nonint_nodup I (SB j) (SS j)).
      destruct (far_at j && t (qb q j)) eqn:E.
      - apply andb_true_iff in E. destruct E as (E1 & E2). apply mem_in in E1.
        rewrite (flat_map_one _ _ (qb q j)).
        + assert (mem q (b_quads (B (qb q j))) = true) as ->; auto. apply mem_in. apply (nonint_holds j); auto.
        + apply NoDup_filter; auto.
        + apply filter_In; auto.
        + intros y Hy NE. apply filter_In in Hy. destruct Hy as (Hy & _).
          destruct (mem q (b_quads (B y))) eqn:M; auto. apply mem_in in M. apply (nonint_holds j) in M; auto. contradiction.
      - apply flat_map_nil. intros c Hc. apply filter_In in Hc. destruct Hc as (Hc & Ht).
        destruct (mem q (b_quads (B c))) eqn:M; auto. apply mem_in in M. apply (nonint_holds j) in M; auto. subst c.
        apply mem_in in Hc. unfold far_at in E. rewrite Hc, Ht in E. discriminate.
    Qed.

  End Leaf.

  Lemma childless_pos b : In b (st_childless st) -> 0 < b.
  Proof.
    intros D. destruct b; [|lia]. exfalso. rewrite cl_eq, in_app_iff in D. assert (X := N_pos). destruct D as [D|D].
    - apply (li_scl _ _ _ _ (FL I W)) in D. lia.
    - apply (li_par _ _ _ _ (FL I W)) in D. rewrite <- bs_eq in D.
      assert (Y := proj2 (level_pos I bs (F_tree I W) 0 (F_pos I W)) eq_refl). lia.
  Qed.

  (** blocks that hold a node: those on the way to its leaf *)
  Lemma holds_node b c i : In b (st_childless st) -> In i (b_nodes (B b)) -> c < length bs ->
    (In i (b_nodes (B c)) <-> b_level (B c) <= b_level (B b) /\ c = pathb b (b_level (B c))).
  Proof.
    intros Hb Hi Hc. assert (Hbl := F_cl I W b Hb). assert (HT := F_tree I W). split.
    - intros H. destruct (Nat.le_gt_cases (b_level (B c)) (b_level (B b))) as [L|L].
      + split; auto. destruct (path_facts b (b_level (B c)) Hbl L) as (A1 & A2 & _ & A4 & _).
        apply (nodes_same_level I bs HT _ _ i); auto.
      + exfalso. destruct (anc_nth I W c (b_level (B b)) Hc L) as (A1 & A2 & A3 & _ & A5).
        assert (b = nth (b_level (B b)) (ancestors bs c) 0) by (apply (nodes_same_level I bs HT _ _ i); auto).
        apply A3. rewrite <- H0. apply (F_leaf I W); auto.
    - intros (L & E). rewrite E. apply path_facts; auto.
  Qed.

  Lemma start_end l : l <= N -> startL st l <= S (endL st l).
  Proof.
    intros Hl. destruct l; [destruct (F_start0 I W) as (-> & ->); lia|]. destruct (F_next I W l ltac:(lia)). lia.
  Qed.

  Lemma filter_nil {A} (f : A -> bool) l : (forall x, In x l -> f x = false) -> filter f l = [].
  Proof. induction l; simpl; intros H; auto. rewrite H; auto. Qed.

  Lemma dfill_level (T : Type) (f : nat -> list T) b i l : In b (st_childless st) -> In i (b_nodes (B b)) -> 1 <= l <= N ->
    (forall c, ~ In i (b_nodes (B c)) -> f c = []) ->
    flat_map f (nth l (st_dfill st) []) = if Nat.leb l (b_level (B b)) then f (pathb b l) else [].
  Proof.
    intros Hb Hi Hl Hf. assert (Hbl := F_cl I W b Hb). destruct (Nat.leb_spec l (b_level (B b))) as [L|L].
    - destruct (path_facts b l Hbl L) as (A1 & A2 & _ & A4 & _).
      apply flat_map_one; [apply (dfill_nodup I W); lia| |].
      + apply (dfill_in I W); [lia|]. repeat split; auto. intros E. apply A4 in Hi. rewrite E in Hi. destruct Hi.
      + intros y Hy NE. apply Hf. intros X. apply (dfill_in I W) in Hy; [|lia]. destruct Hy as (Y1 & Y2 & _).
        apply (holds_node b) in X; auto. destruct X as (_ & X). rewrite Y2 in X. contradiction.
    - apply flat_map_nil. intros y Hy. apply Hf. intros X. apply (dfill_in I W) in Hy; [|lia]. destruct Hy as (Y1 & Y2 & _).
      apply (holds_node b) in X; auto. lia.
  Qed.
  Lemma childless_one (T : Type) (f : nat -> list T) b i : In b (st_childless st) -> In i (b_nodes (B b)) ->
    (forall c, ~ In i (b_nodes (B c)) -> f c = []) -> flat_map f (st_childless st) = f b.
  Proof.
    intros Hb Hi Hf. apply flat_map_one; auto; [apply (F_cl_nodup I W)|].
    intros y Hy NE. apply Hf. intros X. assert (Y1 := F_cl I W y Hy). apply NE.
    assert (Hbl := F_cl I W b Hb). assert (K1 := proj2 (F_leaf I W y Y1) Hy). assert (K2 := proj2 (F_leaf I W b Hbl) Hb).
    apply (nodes_leaf_unique I bs (F_tree I W) y b i); auto.
  Qed.

  Definition t_big l c := Nat.ltb c (startL st l).
  Definition t_same l c := Nat.leb (startL st l) c && Nat.leb c (endL st l).
  Definition t_small l c := Nat.ltb (endL st l) c.
  Lemma t_part l c : l <= N ->
    (if t_big l c then 1 else 0) + (if t_same l c then 1 else 0) + (if t_small l c then 1 else 0) = 1.
  Proof.
    intros Hl. assert (X := start_end l Hl). unfold t_big, t_same, t_small.
    destruct (Nat.ltb_spec c (startL st l)), (Nat.leb_spec (startL st l) c), (Nat.leb_spec c (endL st l)), (Nat.ltb_spec (endL st l) c); simpl; lia.
  Qed.

  Lemma big_quads_mem b q l : In b (st_childless st) -> q < o_nq I -> 1 <= l <= b_level (B b) ->
    mem q (big_quads I st l (pathb b l)) =
    existsb (fun s => far_at b q (l + s) && t_big l (qb q (l + s))) (seq 0 (near_levels I st (pathb b l))).
  Proof.
    intros Hb Hq Hl. assert (Hb1 := childless_pos b Hb).
    match goal with |- ?x = ?y => destruct y eqn:E end.
    - apply mem_in. apply existsb_exists in E. destruct E as (s & A & C). apply in_seq in A. apply andb_true_iff in C. destruct C as (C1 & C2).
      destruct (level_stage b Hb Hb1 l s Hl ltac:(lia)) as (X1 & X2 & X3).
      unfold big_quads, quads_of_blocks. rewrite nub_in, in_flat_map. exists (qb q (l + s)).
      unfold far_at in C1. apply mem_in in C1. rewrite X2, X3 in C1. split.
      + apply in_flat_map. exists s. split; [apply in_seq; lia|]. apply filter_In. auto.
      + apply (nonint_holds b Hb Hb1 q Hq (l + s)); auto. rewrite X2, X3; auto.
    - apply mem_false. intros H. unfold big_quads, quads_of_blocks in H. rewrite nub_in, in_flat_map in H. destruct H as (c & A & C).
      apply in_flat_map in A. destruct A as (s & A1 & A2). apply filter_In in A2. destruct A2 as (A2 & A3). apply in_seq in A1.
      destruct (level_stage b Hb Hb1 l s Hl ltac:(lia)) as (X1 & X2 & X3).
      rewrite <- X2 in A2. rewrite <- X3 in A2 at 2. assert (D := proj1 (nonint_holds b Hb Hb1 q Hq (l + s) c X1 A2) C). subst c.
      apply Bool.not_true_iff_false in E. apply E. apply existsb_exists. exists s. split; [apply in_seq; lia|].
      apply andb_true_iff. split; auto. unfold far_at. apply mem_in; auto.
  Qed.

  Lemma existsb_one (f : nat -> bool) l : NoDup l -> (forall x y, In x l -> In y l -> f x = true -> f y = true -> x = y) ->
    (if existsb f l then 1 else 0) = list_sum (map (fun x => if f x then 1 else 0) l).
  Proof.
    induction l as [|a l IH]; intros ND U; [reflexivity|]. inversion ND; subst. cbn [existsb map list_sum fold_right].
    fold (list_sum (map (fun x => if f x then 1 else 0) l)).
    rewrite <- IH by (auto; intros x y Hx Hy; apply U; right; auto).
    destruct (f a) eqn:E; auto. simpl. destruct (existsb f l) eqn:E'; auto.
    apply existsb_exists in E'. destruct E' as (x & A & C). exfalso. apply H1. rewrite (U a x); auto; [left; auto|right; auto].
  Qed.
  Lemma list_sum_ext (f g : nat -> nat) l : (forall x, In x l -> f x = g x) -> list_sum (map f l) = list_sum (map g l).
  Proof. intros H. f_equal. apply map_ext_in. auto. Qed.
  Lemma list_sum_plus (f g : nat -> nat) l : list_sum (map (fun x => f x + g x) l) = list_sum (map f l) + list_sum (map g l).
  Proof. induction l; simpl; auto. simpl in IHl. rewrite IHl. lia. Qed.
  Lemma length_flat_map {A C} (f : A -> list C) l : length (flat_map f l) = list_sum (map (fun x => length (f x)) l).
  Proof. induction l; simpl; auto. rewrite app_length, IHl. auto. Qed.

  Lemma level_ways b i q l : In b (st_childless st) -> In i (b_nodes (B b)) -> q < o_nq I -> 1 <= l <= N ->
    length (big_ways I st l i q ++ far_ways I st l i q) =
    if Nat.leb l (b_level (B b)) then list_sum (map (fun s => if far_at b q (l + s) then 1 else 0) (seq 0 (near_levels I st (pathb b l)))) else 0.
  Proof.
    intros Hb Hi Hq Hl. assert (Hb1 := childless_pos b Hb). unfold big_ways, far_ways.
    rewrite (dfill_level _ _ b i l Hb Hi Hl).
    2:{ intros c Hc. apply mem_false in Hc. rewrite Hc. auto. }
    rewrite (dfill_level _ _ b i l Hb Hi Hl).
    2:{ intros c Hc. apply mem_false in Hc. rewrite Hc. auto. }
    destruct (Nat.leb_spec l (b_level (B b))) as [L|L]; [|reflexivity].
    destruct (path_facts b l (F_cl I W b Hb) L) as (A1 & A2 & _ & A4 & _).
    assert (M : mem i (b_nodes (B (pathb b l))) = true) by (apply mem_in; auto). rewrite M. cbn [andb].
    rewrite app_length, length_flat_map.
    rewrite (list_sum_ext _ (fun s => (if far_at b q (l + s) && t_same l (qb q (l + s)) then 1 else 0) + (if far_at b q (l + s) && t_small l (qb q (l + s)) then 1 else 0))).
    2:{ intros s Hs. apply in_seq in Hs. destruct (level_stage b Hb Hb1 l s ltac:(lia) ltac:(lia)) as (X1 & X2 & X3).
        rewrite app_length. unfold same_size, smaller.
        assert (P := fun f t => pick b Hb Hb1 q Hq f t (l + s) X1). rewrite X2, X3 in P.
        change (fun c => (startL st l <=? c) && (c <=? endL st l)) with (t_same l).
        change (fun c => endL st l <? c) with (t_small l).
        rewrite (P (M2L (pathb b l)) (t_same l)), (P (MEval (pathb b l)) (t_small l)).
        destruct (far_at b q (l + s) && t_same l (qb q (l + s))), (far_at b q (l + s) && t_small l (qb q (l + s))); reflexivity. }
    rewrite (big_quads_mem b q l Hb Hq ltac:(lia)).
    match goal with |- context [existsb ?f ?l0] => set (F := f); set (LL := l0) end.
    replace (length (if existsb F LL then [Big (pathb b l)] else [])) with (if existsb F LL then 1 else 0) by (destruct (existsb F LL); auto).
    rewrite existsb_one; [|apply seq_NoDup|].
    2:{ intros x y Hx Hy Fx Fy. unfold F, LL in *. apply in_seq in Hx. apply in_seq in Hy. apply andb_true_iff in Fx. apply andb_true_iff in Fy.
        destruct (level_stage b Hb Hb1 l x ltac:(lia) ltac:(lia)) as (X1 & _). destruct (level_stage b Hb Hb1 l y ltac:(lia) ltac:(lia)) as (Y1 & _).
        assert (l + x = l + y); [|lia]. apply (far_unique b Hb Hb1 q Hq (l + x) (l + y)); tauto. }
    rewrite <- list_sum_plus. apply list_sum_ext. intros s Hs. unfold F. assert (T := t_part l (qb q (l + s)) ltac:(lia)).
    destruct (far_at b q (l + s)), (t_big l (qb q (l + s))), (t_same l (qb q (l + s))), (t_small l (qb q (l + s))); simpl in *; lia.
  Qed.

  (** every pair is accounted for exactly once *)
  Theorem ways_one i q : i < o_nd I -> q < o_nq I -> length (ways I st i q) = 1.
  Proof.
    intros Hi Hq. destruct (leaf_of_node I W i Hi) as (b & Hb & Hib). assert (Hb1 := childless_pos b Hb).
    assert (Hbl := F_cl I W b Hb).
    unfold ways. rewrite app_length, length_flat_map.
    rewrite (list_sum_ext _ (fun l => if Nat.leb l (b_level (B b)) then list_sum (map (fun s => if far_at b q (l + s) then 1 else 0) (seq 0 (near_levels I st (pathb b l)))) else 0)).
    2:{ intros l Hl. apply in_seq in Hl. apply level_ways; auto. lia. }
    unfold near_ways. rewrite (childless_one _ _ b i Hb Hib).
    2:{ intros c Hc. apply mem_false in Hc. rewrite Hc. auto. }
    assert (M : mem i (b_nodes (B b)) = true) by (apply mem_in; auto). rewrite M. cbn [andb].
    rewrite (near_quads_iff b Hb Hb1 q Hq).
    set (lL := b_level (B b)) in *. assert (JG := J_ge b Hb Hb1). assert (LP := lL_pos b Hb Hb1). assert (LN := lL_le b Hb). fold lL in JG, LP, LN.
    set (J := lL + near_levels I st b - 1) in *.
    replace (length (if near_at b q J then [Near b] else [])) with (if near_at b q J then 1 else 0) by (destruct (near_at b q J); auto).
    etransitivity; [|exact (stages_sum b Hb Hb1 q Hq J ltac:(fold lL; fold J; lia))]. rewrite Nat.add_comm. apply f_equal2_plus; [|reflexivity].
    replace (seq 1 N) with (seq 1 (lL - 1) ++ seq lL 1 ++ seq (S lL) (N - lL)).
    2:{ replace N with (lL - 1 + (1 + (N - lL))) at 2 by lia. rewrite !seq_app. replace (1 + (lL - 1)) with lL by lia. replace (lL + 1) with (S lL) by lia. auto. }
    replace (seq 1 J) with (seq 1 (lL - 1) ++ seq lL (S (J - lL))).
    2:{ replace J with (lL - 1 + S (J - lL)) at 2 by lia. rewrite seq_app. replace (1 + (lL - 1)) with lL by lia. auto. }
    rewrite !map_app, !list_sum_app. apply f_equal2_plus; [|match goal with |- _ + ?z = _ => replace z with 0 end].

    - apply list_sum_ext. intros l Hl. apply in_seq in Hl. destruct (Nat.leb_spec l lL); [|lia].
      assert (LC := level_count b Hb Hb1 l ltac:(fold lL; lia)). fold lL J in LC. rewrite LC. destruct (Nat.eqb_spec l lL); [lia|]. cbn [seq map list_sum fold_right]. rewrite !Nat.add_0_r. reflexivity.
    - rewrite Nat.add_0_r. change (seq lL 1) with [lL]. cbn [map]. rewrite Nat.leb_refl. unfold list_sum at 1. cbn [fold_right].
      assert (LC := level_count b Hb Hb1 lL ltac:(fold lL; lia)). fold lL J in LC. rewrite LC, Nat.eqb_refl, !Nat.add_0_r.
      f_equal.
      apply nth_ext with (d := 0) (d' := 0); rewrite !map_length, !seq_length; auto.
      intros n Hn. assert (E : forall f st0, nth n (map f (seq st0 (S (J - lL)))) 0 = f (st0 + n)).
      { intros f st0. rewrite (nth_indep _ 0 (f 0)) by (rewrite map_length, seq_length; auto). rewrite map_nth, seq_nth; auto. }
      rewrite !E. reflexivity.
    - symmetry. rewrite (list_sum_ext _ (fun _ => 0)).
      + generalize (seq (S lL) (N - lL)). induction l; auto.
      + intros l Hl. apply in_seq in Hl. destruct (Nat.leb_spec l lL); auto. lia.
  Qed.
End Cover.
