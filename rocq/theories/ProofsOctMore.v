(** Lemmas behind PropOctree: cuts of the tree, splitting rule, block count, dof map, distances. *)
From Coq Require Import QArith Qabs Qminmax Qround ZArith List Lia Arith Bool Permutation Lqa.
From Verif Require Import ModelOctree SpecOctree ProofsOctTree ProofsOctLevels ProofsOctFacts ProofsOctLists ProofsFmmCover ProofsOctGeom ModelFmm.
Import ListNotations.
Local Open Scope nat_scope.

Lemma NoDup_flat_map {A B} (f : A -> list B) l :
  NoDup l -> (forall a, In a l -> NoDup (f a)) ->
  (forall a a' x, In a l -> In a' l -> In x (f a) -> In x (f a') -> a = a') -> NoDup (flat_map f l).
Proof.
  induction l as [|a l IH]; intros N0 N1 D; [constructor|]. inversion N0; subst. cbn [flat_map].
  assert (NoDup_app : forall (u v : list B), NoDup u -> NoDup v -> (forall x, In x u -> ~ In x v) -> NoDup (u ++ v)).
  { induction u; intros v U V X; [exact V|]. inversion U; subst. cbn [app]. constructor.
    - rewrite in_app_iff. intros [C|C]; [auto|]. apply (X a0); [left; auto|auto].
    - apply IHu; auto. intros x Hx. apply X. right; auto. }
  apply NoDup_app.
  - apply N1. left; auto.
  - apply IH; auto. intros; apply N1; right; auto. intros a1 a2 x H3 H4 H5 H6. apply (D a1 a2 x); auto; right; auto.
  - intros x Hx Hy. apply in_flat_map in Hy. destruct Hy as (a' & Ha' & Hx'). apply H1. rewrite (D a a' x); auto; [left|right]; auto.
Qed.

Lemma length_flat_map_ge {A B} (f : A -> list B) l : (forall a, In a l -> 1 <= length (f a)) -> length l <= length (flat_map f l).
Proof.
  induction l as [|a l IH]; intros H; [simpl; lia|]. cbn [flat_map length]. rewrite app_length.
  assert (X := H a (or_introl eq_refl)). assert (Y : length l <= length (flat_map f l)) by (apply IH; intros; apply H; right; auto). lia.
Qed.
Lemma length_flat_map_le {A B} (f : A -> list B) l m : (forall a, In a l -> length (f a) <= m) -> length (flat_map f l) <= m * length l.
Proof.
  induction l as [|a l IH]; intros H; [simpl; lia|]. cbn [flat_map length]. rewrite app_length.
  assert (X := H a (or_introl eq_refl)). assert (Y : length (flat_map f l) <= m * length l) by (apply IH; intros; apply H; right; auto). lia.
Qed.

Lemma fold_weight_eq I l w :
  (fold_left (fun w n => w + 1 / inject_Z (Z.of_nat (length (o_dbl I n)))) l w == w + weight I l)%Q.
Proof.
  revert w. induction l as [|n l IH]; intros w; cbn [fold_left weight]; [ring|]. rewrite IH. ring.
Qed.
Lemma block_weight_eq I b : (block_weight I b == weight I (b_nodes b))%Q.
Proof. unfold block_weight. rewrite fold_weight_eq. ring. Qed.

Lemma small_iff I b : small I b = true <-> (weight I (b_nodes b) < inject_Z (Z.of_nat (o_max I)) + (1 # 2))%Q.
Proof.
  unfold small, qround. rewrite Z.leb_le. rewrite <- (block_weight_eq I b). set (w := block_weight I b). set (m := Z.of_nat (o_max I)).
  split; intros H.
  - assert (X := Qlt_floor (w + (1 # 2))). assert (Y : (inject_Z (Qfloor (w + (1 # 2)) + 1) <= inject_Z (m + 1))%Q) by (rewrite <- Zle_Qle; lia).
    rewrite (inject_Z_plus m 1) in Y. change (inject_Z 1) with 1%Q in Y. lra.
  - assert (X := Qfloor_le (w + (1 # 2))). assert (Y : (inject_Z (Qfloor (w + (1 # 2))) < inject_Z (m + 1))%Q).
    { rewrite inject_Z_plus. change (inject_Z 1) with 1%Q. lra. }
    rewrite <- Zlt_Qlt in Y. lia.
Qed.

Lemma weight_le_length I l : (forall n, In n l -> o_dbl I n <> []) -> (weight I l <= inject_Z (Z.of_nat (length l)))%Q.
Proof.
  induction l as [|n l IH]; intros H; [apply Qle_refl|]. cbn [weight length]. rewrite Nat2Z.inj_succ. unfold Z.succ. rewrite inject_Z_plus.
  change (inject_Z 1) with 1%Q. assert (X : (weight I l <= inject_Z (Z.of_nat (length l)))%Q) by (apply IH; intros; apply H; right; auto).
  assert (Y : (1 / inject_Z (Z.of_nat (length (o_dbl I n))) <= 1)%Q).
  { assert (Hn := H n (or_introl eq_refl)). destruct (o_dbl I n) as [|x r]; [congruence|]. cbn [length]. apply Qle_shift_div_r.
    - change 0%Q with (inject_Z 0). rewrite <- Zlt_Qlt. lia.
    - rewrite Qmult_1_l. change 1%Q with (inject_Z 1). rewrite <- Zle_Qle. lia. }
  lra.
Qed.

Section More.
  Variable I : oin.
  Hypothesis W : wf_in I.
  Notation st := (octree I).
  Notation bs := (st_blocks (octree I)).
  Notation B := (getb (st_blocks (octree I))).
  Notation N := (o_N I).

  Lemma cut_front l b : In b (cut st l) <-> front I l b.
  Proof.
    unfold cut, on_cut, front, blk, num_blocks. rewrite filter_In, in_seq. split.
    - intros (H & E). split; [lia|]. apply orb_true_iff in E. destruct E as [E|E]; [left; apply Nat.eqb_eq; auto|right].
      apply andb_true_iff in E. destruct E as (E1 & E2). apply Nat.ltb_lt in E1. destruct (b_kids (B b)); [auto|discriminate].
    - intros (H & E). split; [lia|]. apply orb_true_iff. destruct E as [E|(E1 & E2)]; [left; apply Nat.eqb_eq; auto|right].
      apply andb_true_iff. split; [apply Nat.ltb_lt; auto|rewrite E2; auto].
  Qed.
  Lemma cut_nodup l : NoDup (cut st l).
  Proof. apply NoDup_filter, seq_NoDup. Qed.

  Lemma cut_nodes l : l <= N -> Permutation (flat_map (fun b => b_nodes (B b)) (cut st l)) (seq 0 (o_nd I)).
  Proof.
    intros Hl. apply NoDup_Permutation.
    - apply NoDup_flat_map; [apply cut_nodup| |].
      + intros b Hb. apply cut_front in Hb. apply (nodes_nodup I bs (F_tree I W)). apply Hb.
      + intros b b' x Hb Hb' Hx Hx'. apply (front_unique_n I W l b b' x); auto; apply cut_front; auto.
    - apply seq_NoDup.
    - intros x. rewrite in_flat_map, in_seq. split.
      + intros (b & Hb & Hx). apply cut_front in Hb. assert (Y := node_bound I W b x (proj1 Hb) Hx). lia.
      + intros Hx. destruct (node_front I W x l ltac:(lia) Hl) as (b & Hb & Hi). exists b. split; auto. apply cut_front; auto.
  Qed.
  Lemma cut_quads l : l <= N -> Permutation (flat_map (fun b => b_quads (B b)) (cut st l)) (seq 0 (o_nq I)).
  Proof.
    intros Hl. apply NoDup_Permutation.
    - apply NoDup_flat_map; [apply cut_nodup| |].
      + intros b Hb. apply cut_front in Hb. apply (quads_nodup I bs (F_tree I W)). apply Hb.
      + intros b b' x Hb Hb' Hx Hx'. apply (front_unique_q I W l b b' x); auto; apply cut_front; auto.
    - apply seq_NoDup.
    - intros x. rewrite in_flat_map, in_seq. split.
      + intros (b & Hb & Hx). apply cut_front in Hb. assert (Y := quad_bound I W b x (proj1 Hb) Hx). lia.
      + intros Hx. destruct (qb_front I W x l ltac:(lia) Hl) as (Hb & Hi). exists (qb I x l). split; auto. apply cut_front; auto.
  Qed.

  Lemma kid_level i k : i < length bs -> In k (b_kids (B i)) -> b_level (B i) < N.
  Proof.
    intros Hi Hk. destruct (kid_info I bs (F_tree I W) i k Hi Hk) as ((_ & K1) & _ & K2 & _). assert (Y := F_level_le I W k K1). lia.
  Qed.
  Lemma last_level_childless i : i < length bs -> b_level (B i) = N -> b_kids (B i) = [].
  Proof.
    intros Hi E. destruct (b_kids (B i)) as [|k r] eqn:K; auto. assert (Y := kid_level i k Hi). rewrite K in Y. specialize (Y (or_introl eq_refl)). lia.
  Qed.
  Lemma childless_front b : In b (st_childless st) <-> front I N b.
  Proof.
    split.
    - intros H. assert (Hb := F_cl I W b H). split; auto. assert (K := proj2 (F_leaf I W b Hb) H). assert (Y := F_level_le I W b Hb). destruct (Nat.eq_dec (b_level (B b)) N); [left; auto|right; split; [lia|auto]].
    - intros (Hb & H). apply (F_leaf I W); auto. destruct H as [H|H]; [apply last_level_childless; auto|tauto].
  Qed.
  Lemma childless_cut : Permutation (st_childless st) (cut st N).
  Proof.
    apply NoDup_Permutation; [apply (F_cl_nodup I W)|apply cut_nodup|]. intros b. rewrite childless_front, cut_front. tauto.
  Qed.

  Lemma split_rule i : 0 < i < length bs -> b_level (B i) < N -> (b_kids (B i) <> [] <-> small I (B i) = false).
  Proof.
    intros Hi Hl. destruct (FL I W) as [lG lpar _ _ _ _ _ _ _ lscl _ lsk _ _]. rewrite <- (bs_eq I) in *.
    split; [apply lsk; auto|]. intros S K.
    assert (C := g_leaf _ _ _ lG i). rewrite <- (bs_eq I) in C. apply (C ltac:(lia)) in K. destruct K as [C'|C']; clear C; rename C' into C.
    - apply lscl in C. destruct C. congruence.
    - apply lpar in C. lia.
  Qed.
  Lemma root_split : b_kids (B 0) <> [].
  Proof.
    intros K. destruct W as (W1 & W2 & _). destruct (FL I W) as [lG lpar _ _ _ _ _ _ _ lscl _ lsk _ _]. rewrite <- (bs_eq I) in *.
    assert (C := g_leaf _ _ _ lG 0). rewrite <- (bs_eq I) in C. apply (C (F_pos I W)) in K. destruct K as [C'|C']; clear C; rename C' into C.
    - apply lscl in C. lia.
    - apply lpar in C. rewrite (proj2 (level_pos I bs (F_tree I W) 0 (F_pos I W)) eq_refl) in C. lia.
  Qed.

  (** ** how many blocks *)
  Lemma block_nonempty i : i < length bs -> 1 <= length (b_nodes (B i)) + length (b_quads (B i)).
  Proof.
    intros Hi. destruct (Nat.eq_dec i 0) as [->|Ni].
    - assert (Y := proj2 (root_nodes I bs (F_tree I W) 0)). assert (Z := Y ltac:(apply W)). destruct (b_nodes (B 0)); [destruct Z|simpl; lia].
    - destruct (parent_info I bs (F_tree I W) i ltac:(lia)) as (A & C).
      destruct (kid_info I bs (F_tree I W) (b_parent (B i)) i ltac:(lia) C) as (_ & _ & _ & c & _ & ks & _ & E). unfold nonempty in E. apply Nat.ltb_lt in E. lia.
  Qed.
  Lemma level_points l : l <= N -> length (level_ids st l) <= o_nd I + o_nq I.
  Proof.
    intros Hl. set (P := fun b => map (@inl nat nat) (b_nodes (B b)) ++ map (@inr nat nat) (b_quads (B b))).
    apply Nat.le_trans with (length (flat_map P (level_ids st l))).
    - apply length_flat_map_ge. intros b Hb. apply (F_level_ids I W) in Hb; auto. unfold P. rewrite app_length, !map_length. apply block_nonempty. apply Hb.
    - replace (o_nd I + o_nq I) with (length (map (@inl nat nat) (seq 0 (o_nd I)) ++ map (@inr nat nat) (seq 0 (o_nq I)))) by (rewrite app_length, !map_length, !seq_length; auto).
      apply NoDup_incl_length.
      + apply NoDup_flat_map; [apply seq_NoDup| |].
        * intros b Hb. apply (F_level_ids I W) in Hb; auto. unfold P.
          replace (map inl (b_nodes (B b)) ++ map inr (b_quads (B b))) with (flat_map (fun x : bool => if x then map (@inl nat nat) (b_nodes (B b)) else map (@inr nat nat) (b_quads (B b))) [true; false]) by (cbn [flat_map]; rewrite app_nil_r; auto).
          apply NoDup_flat_map.
          -- constructor; [simpl; intros [|[]]; discriminate|constructor; [simpl; tauto|constructor]].
          -- intros [|] _; apply FinFun.Injective_map_NoDup; [intros x y E; congruence|apply (nodes_nodup I bs (F_tree I W)); tauto|intros x y E; congruence|apply (quads_nodup I bs (F_tree I W)); tauto].
          -- intros [|] [|] x _ _ X Y; auto; apply in_map_iff in X; apply in_map_iff in Y; destruct X as (u & <- & _), Y as (v & E & _); discriminate.
        * intros b b' x Hb Hb' X Y. apply (F_level_ids I W) in Hb; auto. apply (F_level_ids I W) in Hb'; auto. unfold P in X, Y.
          apply in_app_iff in X. apply in_app_iff in Y. destruct X as [X|X], Y as [Y|Y]; apply in_map_iff in X; apply in_map_iff in Y; destruct X as (u & <- & X), Y as (v & E & Y); try discriminate; injection E as ->.
          -- apply (nodes_same_level I bs (F_tree I W) b b' u); try tauto. destruct Hb, Hb'; congruence.
          -- apply (quads_same_level I bs (F_tree I W) b b' u); try tauto. destruct Hb, Hb'; congruence.
      + intros x X. apply in_flat_map in X. destruct X as (b & Hb & X). apply (F_level_ids I W) in Hb; auto. unfold P in X. apply in_app_iff.
        apply in_app_iff in X. destruct X as [X|X]; [left|right]; apply in_map_iff in X; destruct X as (u & <- & X); apply in_map; apply in_seq.
        * assert (Y := node_bound I W b u ltac:(tauto) X). lia.
        * assert (Y := quad_bound I W b u ltac:(tauto) X). lia.
  Qed.

  Definition has_kids (b : nat) : bool := match b_kids (B b) with [] => false | _ => true end.
  Definition splitters (l : nat) : list nat := filter has_kids (level_ids st l).
  Lemma splitters_in l b : l <= N -> (In b (splitters l) <-> b < length bs /\ b_level (B b) = l /\ b_kids (B b) <> []).
  Proof.
    intros Hl. unfold splitters. rewrite filter_In, (F_level_ids I W) by auto. unfold has_kids. destruct (b_kids (B b)).
    - split; [intros (_ & H); discriminate|intros (_ & _ & H); congruence].
    - split; [intros (H & _); repeat split; try tauto; discriminate|intros (H1 & H2 & _); auto].
  Qed.
  Lemma level_kids l : S l <= N -> length (level_ids st (S l)) <= 8 * length (splitters l).
  Proof.
    intros Hl. apply Nat.le_trans with (length (flat_map (fun b => b_kids (B b)) (splitters l))).
    - apply NoDup_incl_length; [apply seq_NoDup|]. intros k Hk. apply (F_level_ids I W) in Hk; auto. destruct Hk as (Hk & El).
      assert (K0 : 0 < k) by (destruct (Nat.eq_dec k 0) as [->|]; [assert (Z := proj2 (level_pos I bs (F_tree I W) 0 Hk) eq_refl); lia|lia]).
      destruct (parent_info I bs (F_tree I W) k ltac:(lia)) as (A & C). assert (L := parent_level I bs (F_tree I W) k ltac:(lia)).
      apply in_flat_map. exists (b_parent (B k)). split; auto. apply splitters_in; [lia|]. split; [lia|]. split; [lia|]. intros E. rewrite E in C. destruct C.
    - apply length_flat_map_le. intros b Hb. apply splitters_in in Hb; [|lia]. apply (kids_nodup I bs (F_tree I W)). tauto.
  Qed.
  Lemma splitters_few l : 0 < l <= N -> length (splitters l) * (2 * o_max I + 1) <= 2 * o_nd I.
  Proof.
    intros Hl. assert (X : length (flat_map (fun b => b_nodes (B b)) (splitters l)) <= o_nd I).
    { rewrite <- (seq_length (o_nd I) 0). apply NoDup_incl_length.
      - apply NoDup_flat_map.
        + apply NoDup_filter, seq_NoDup.
        + intros b Hb. apply splitters_in in Hb; [|lia]. apply (nodes_nodup I bs (F_tree I W)); tauto.
        + intros b b' x Hb Hb' X Y. apply splitters_in in Hb; [|lia]. apply splitters_in in Hb'; [|lia].
          apply (nodes_same_level I bs (F_tree I W) b b' x); try tauto. destruct Hb as (_ & -> & _), Hb' as (_ & -> & _). auto.
      - intros x Hx. apply in_flat_map in Hx. destruct Hx as (b & Hb & Hx). apply splitters_in in Hb; [|lia]. apply in_seq.
        assert (Y := node_bound I W b x ltac:(tauto) Hx). lia. }
    assert (Y : forall L, (forall b, In b L -> In b (splitters l)) -> length L * (2 * o_max I + 1) <= 2 * length (flat_map (fun b => b_nodes (B b)) L)).
    { induction L as [|b L IH]; intros H; [simpl; lia|]. cbn [flat_map length]. rewrite app_length.
      assert (IH' := IH ltac:(intros; apply H; right; auto)). assert (Hb := H b (or_introl eq_refl)). apply splitters_in in Hb; [|lia].
      destruct Hb as (Hb & El & K).
      assert (B0 : 0 < b) by (destruct (Nat.eq_dec b 0) as [->|]; [assert (Z := proj2 (level_pos I bs (F_tree I W) 0 Hb) eq_refl); lia|lia]).
      assert (Hlt : b_level (B b) < N) by (destruct (b_kids (B b)) as [|k r] eqn:Kb; [congruence|]; apply (kid_level b k Hb); rewrite Kb; left; auto).
      apply split_rule in K; [|lia|auto]. assert (Ns : ~ (weight I (b_nodes (B b)) < inject_Z (Z.of_nat (o_max I)) + (1 # 2))%Q) by (rewrite <- small_iff; congruence).
      apply Qnot_lt_le in Ns. assert (Wl := weight_le_length I (b_nodes (B b))).
      assert (Wl' : (weight I (b_nodes (B b)) <= inject_Z (Z.of_nat (length (b_nodes (B b)))))%Q).
      { apply Wl. intros n Hn E. destruct W as (_ & _ & W3 & _). destruct (W3 n (node_bound I W b n Hb Hn)) as (D & _). rewrite E in D. destruct D. }
      assert (Z : (2 * o_max I + 1 <= 2 * length (b_nodes (B b)))%nat).
      { assert (Q : (inject_Z (2 * Z.of_nat (o_max I) + 1) <= inject_Z (2 * Z.of_nat (length (b_nodes (B b)))))%Q).
        { rewrite inject_Z_plus, !inject_Z_mult. change (inject_Z 2) with 2%Q. change (inject_Z 1) with 1%Q. lra. }
        rewrite <- Zle_Qle in Q. lia. }
      lia. }
    specialize (Y (splitters l) ltac:(auto)). lia.
  Qed.
  Lemma num_blocks_levels M : (forall l, 2 <= l <= N -> length (level_ids st l) <= M) -> num_blocks st <= 9 + (N - 1) * M.
  Proof.
    intros H. unfold num_blocks. rewrite <- (F_end I W). assert (N0 : 0 < N) by apply W.
    assert (X : forall l, 1 <= l <= N -> S (endL st l) <= 9 + (l - 1) * M).
    { induction l as [|l IH]; intros Hl; [lia|]. destruct (F_next I W l ltac:(lia)) as (A & C).
      assert (Len : length (level_ids st (S l)) = endL st (S l) - endL st l) by (unfold level_ids; rewrite seq_length, A; lia).
      destruct (Nat.eq_dec l 0) as [->|Nl].
      - assert (Y := level_kids 0 ltac:(lia)). assert (Z : length (splitters 0) <= 1).
        { assert (Fl : forall (f : nat -> bool) l, length (filter f l) <= length l) by (intros f l; induction l as [|x l' IHl]; [auto|]; cbn [filter]; destruct (f x); cbn [length]; lia).
          unfold splitters. eapply Nat.le_trans; [apply Fl|]. unfold level_ids. rewrite seq_length. destruct (F_start0 I W). lia. }
        destruct (F_start0 I W). lia.
      - assert (Y := IH ltac:(lia)). assert (Z := H (S l) ltac:(lia)). rewrite Len in Z. replace (S l - 1) with (S (l - 1)) by lia. cbn [Nat.mul]. lia. }
    apply X. lia.
  Qed.
  Lemma num_blocks_bound : num_blocks st <= 9 + (N - 1) * Nat.min (o_nd I + o_nq I) (8 * (2 * o_nd I / (2 * o_max I + 1))).
  Proof.
    apply num_blocks_levels. intros l Hl. apply Nat.min_glb; [apply level_points; lia|].
    destruct l as [|l]; [lia|]. eapply Nat.le_trans; [apply level_kids; lia|]. apply Nat.mul_le_mono_l. apply Nat.div_le_lower_bound; [lia|].
    assert (Y := splitters_few l ltac:(lia)). lia.
  Qed.
End More.

(** ** distances *)
Lemma sq_small (x d : Q) : (- d <= 2 * x -> 2 * x <= d -> 4 * (x * x) <= d * d)%Q.
Proof.
  intros A C. setoid_replace (4 * (x * x))%Q with ((2 * x) * (2 * x))%Q by ring.
  assert (X : (0 <= (d - 2 * x) * (d + 2 * x))%Q) by (apply Qmult_le_0_compat; lra).
  setoid_replace ((d - 2 * x) * (d + 2 * x))%Q with (d * d - (2 * x) * (2 * x))%Q in X by ring. lra.
Qed.
Lemma sq_big (x m : Q) : (0 <= m -> m <= x \/ x <= - m -> m * m <= x * x)%Q.
Proof.
  intros M [H|H].
  - assert (X : (0 <= (x - m) * (x + m))%Q) by (apply Qmult_le_0_compat; lra). setoid_replace ((x - m) * (x + m))%Q with (x * x - m * m)%Q in X by ring. lra.
  - assert (X : (0 <= (- x - m) * (- x + m))%Q) by (apply Qmult_le_0_compat; lra). setoid_replace ((- x - m) * (- x + m))%Q with (x * x - m * m)%Q in X by ring. lra.
Qed.
Lemma sq_pos (x : Q) : (0 <= x * x)%Q.
Proof. destruct (Qlt_le_dec x 0). - setoid_replace (x * x)%Q with ((- x) * (- x))%Q by ring. apply Qmult_le_0_compat; lra. - apply Qmult_le_0_compat; auto. Qed.
Lemma half_eq (d : Q) : (2 * (d / 2) == d)%Q.
Proof. field. Qed.
Lemma inside_centre p b : inside p b -> (4 * dist2 p (centre b) <= 3 * (b_delta b * b_delta b))%Q.
Proof.
  intros H. destruct (H 0 ltac:(lia)) as (A0 & C0). destruct (H 1 ltac:(lia)) as (A1 & C1). destruct (H 2 ltac:(lia)) as (A2 & C2). cbn [axis] in *.
  unfold dist2, centre. cbn [px py pz]. assert (Hh := half_eq (b_delta b)). set (h := (b_delta b / 2)%Q) in *. clearbody h. set (d := b_delta b) in *. clearbody d.
  assert (X := sq_small (px p - (px (b_min b) + h))%Q d). assert (Y := sq_small (py p - (py (b_min b) + h))%Q d). assert (Z := sq_small (pz p - (pz (b_min b) + h))%Q d).
  assert (X' := X ltac:(lra) ltac:(lra)). assert (Y' := Y ltac:(lra) ltac:(lra)). assert (Z' := Z ltac:(lra) ltac:(lra)).
  rewrite !Qmult_plus_distr_r. lra.
Qed.
Lemma dist2_axis p q a m : a < 3 -> (0 <= m)%Q -> (m <= axis a p - axis a q \/ axis a p - axis a q <= - m)%Q -> (m * m <= dist2 p q)%Q.
Proof.
  intros Ha Hm H. apply sq_big in H; auto. unfold dist2. assert (X := sq_pos (px p - px q)%Q). assert (Y := sq_pos (py p - py q)%Q). assert (Z := sq_pos (pz p - pz q)%Q).
  destruct a as [|[|[|]]]; try lia; cbn [axis] in H; lra.
Qed.
Lemma centre_axis b a : (2 * axis a (centre b) == 2 * axis a (b_min b) + b_delta b)%Q.
Proof. destruct a as [|[|a]]; cbn [axis centre px py pz]; field. Qed.

Section Far.
  Variable I : oin.
  Hypothesis W : wf_in I.
  Notation st := (octree I).
  Notation bs := (st_blocks (octree I)).
  Notation B := (getb (st_blocks (octree I))).
  Notation N := (o_N I).

  Lemma ways_far i q w : In w (ways I st i q) ->
    match w with
    | M2L b c => exists l s, 1 <= l <= N /\ In b (nth l (st_dfill st) []) /\ s < near_levels I st b /\ In c (same_size I st l b s) /\ In i (b_nodes (B b)) /\ In q (b_quads (B c))
    | MEval b c => exists l s, 1 <= l <= N /\ In b (nth l (st_dfill st) []) /\ s < near_levels I st b /\ In c (smaller I st l b s) /\ In i (b_nodes (B b)) /\ In q (b_quads (B c))
    | Near b => In b (st_childless st) /\ In i (b_nodes (B b)) /\ In q (near_quads I st b)
    | Big b => exists l, 1 <= l <= N /\ In b (nth l (st_dfill st) []) /\ In i (b_nodes (B b)) /\ In q (big_quads I st l b)
    end.
  Proof.
    intros H. unfold ways in H. apply in_app_iff in H. destruct H as [H|H].
    - unfold near_ways in H. apply in_flat_map in H. destruct H as (b & Hb & H). destruct (mem i _ && mem q _) eqn:E; [|destruct H]. destruct H as [<-|[]].
      apply andb_true_iff in E. unfold mem in E. rewrite !existsb_eqb in E. tauto.
    - apply in_flat_map in H. destruct H as (l & Hl & H). apply in_seq in Hl. apply in_app_iff in H. destruct H as [H|H].
      + unfold big_ways in H. apply in_flat_map in H. destruct H as (b & Hb & H). destruct (mem i _ && mem q _) eqn:E; [|destruct H]. destruct H as [<-|[]].
        apply andb_true_iff in E. unfold mem in E. rewrite !existsb_eqb in E. exists l. repeat split; try tauto; lia.
      + unfold far_ways in H. apply in_flat_map in H. destruct H as (b & Hb & H). destruct (mem i _) eqn:E; [|destruct H]. unfold mem in E. rewrite existsb_eqb in E.
        apply in_flat_map in H. destruct H as (s & Hs & H). apply in_seq in Hs. apply in_app_iff in H. destruct H as [H|H]; apply in_flat_map in H; destruct H as (c & Hc & H);
        (destruct (mem q _) eqn:E'; [|destruct H]); destruct H as [<-|[]]; unfold mem in E'; rewrite existsb_eqb in E'; exists l, s; repeat split; auto; lia.
  Qed.

  Lemma m2l_comb i q b c : In (M2L b c) (ways I st i q) ->
    In i (b_nodes (B b)) /\ In q (b_quads (B c)) /\ b < length bs /\ c < length bs /\ b_level (B c) = b_level (B b) /\ b_delta (B c) == b_delta (B b) /\ exists s, 0 < b /\ s < near_levels I st b /\ In c (nonint_list I st b s).
  Proof.
    intros H. apply ways_far in H. destruct H as (l & s & Hl & Hb & Hs & Hc & Hi & Hq).
    apply (dfill_in I W) in Hb; [|lia]. destruct Hb as (Hb & Lb & _).
    assert (B0 : 0 < b) by (destruct (Nat.eq_dec b 0) as [->|]; [assert (Z := proj2 (level_pos I bs (F_tree I W) 0 Hb) eq_refl); lia|lia]).
    unfold same_size in Hc. apply filter_In in Hc. destruct Hc as (Hc & E). apply andb_true_iff in E. destruct E as (E1 & E2). apply Nat.leb_le in E1, E2.
    assert (Hcl : c < length bs) by (assert (Y := F_end_lt I W l ltac:(lia)); lia).
    assert (Lc := proj2 (F_level_iff I W c l Hcl ltac:(lia)) (conj E1 E2)).
    assert (D : (b_delta (B c) == b_delta (B b))%Q) by (rewrite !(delta_grid I W) by lia; unfold wid; rewrite Lb, Lc; reflexivity).
    repeat split; auto; try congruence.
    exists s. auto.
  Qed.
  Lemma meval_comb i q b c : In (MEval b c) (ways I st i q) ->
    In i (b_nodes (B b)) /\ In q (b_quads (B c)) /\ b < length bs /\ c < length bs /\ b_level (B b) < b_level (B c) /\ b_kids (B b) = [] /\ exists s, 0 < b /\ s < near_levels I st b /\ In c (nonint_list I st b s).
  Proof.
    intros H. apply ways_far in H. destruct H as (l & s & Hl & Hb & Hs & Hc & Hi & Hq).
    apply (dfill_in I W) in Hb; [|lia]. destruct Hb as (Hb & Lb & _).
    assert (B0 : 0 < b) by (destruct (Nat.eq_dec b 0) as [->|]; [assert (Z := proj2 (level_pos I bs (F_tree I W) 0 Hb) eq_refl); lia|lia]).
    unfold smaller in Hc. apply filter_In in Hc. destruct Hc as (Hc & E). apply Nat.ltb_lt in E.
    assert (L1 : b_level (B b) <> 1) by (intros L1; rewrite (nonint_1 I) in Hc by auto; destruct Hc).
    assert (F := nonint_front I W b s c ltac:(lia) L1 Hs Hc). destruct F as (Hcl & F).
    assert (Lc : l < b_level (B c)).
    { destruct (Nat.le_gt_cases (b_level (B c)) l) as [Le|]; auto. assert (Y := F_level_range I W c Hcl). assert (Z := F_end_mono I W (b_level (B c)) l ltac:(lia)). lia. }
    assert (Kb : b_kids (B b) = []).
    { assert (Hn := near_levels_eq I W b ltac:(lia)). destruct (b_kids (B b)) eqn:Kb; auto. exfalso.
      assert (s = 0) by (destruct (Nat.eqb (b_level (B b)) 1); lia). subst s. destruct F; lia. }
    repeat split; auto; try lia.
    exists s. auto.
  Qed.
  Section Rounded.
  Variable e : Q.
  Hypothesis RE : rounding_within I e.
  Lemma far_gap' k s j : 0 < k < length bs -> s < near_levels I st k -> In j (nonint_list I st k s) -> gap (Qmin (b_delta (B k)) (b_delta (B j)) - 2 * (NQ I * e)) (B k) (B j).
  Proof.
    intros Hk Hs Hj. exact (far_gap I W e RE k s j Hk Hs Hj).
  Qed.
  Lemma m2l_facts_r i q b c : In (M2L b c) (ways I st i q) -> gap (b_delta (B b) - 2 * (NQ I * e)) (B b) (B c).
  Proof.
    intros H. apply m2l_comb in H. destruct H as (_ & _ & Hb & Hc & _ & D & s & B0 & Hs & Hl).
    destruct (far_gap' b s c ltac:(lia) Hs Hl) as (a & Ha & G). exists a. split; auto. rewrite D, Q.min_id in G. rewrite D. exact G.
  Qed.
  Lemma meval_facts_r i q b c : In (MEval b c) (ways I st i q) -> gap (b_delta (B c) - 2 * (NQ I * e)) (B b) (B c).
  Proof.
    intros H. apply meval_comb in H. destruct H as (_ & _ & Hb & Hc & Lc & _ & s & B0 & Hs & Hl).
    assert (D : (b_delta (B c) <= b_delta (B b))%Q).
    { rewrite !(delta_grid I W) by lia. rewrite !(Qmult_comm (hgrid I)). apply Qmult_le_compat_r; [|apply (hgrid_nonneg I e RE)].
      rewrite <- Zle_Qle. unfold wid, wz. apply Z.pow_le_mono_r; lia. }
    destruct (far_gap' b s c ltac:(lia) Hs Hl) as (a & Ha & G). exists a. split; auto. rewrite (Q.min_r _ _ D) in G. exact G.
  Qed.
  End Rounded.
  Section Exact.
  Hypothesis RX : exact_arithmetic I.
  Lemma exact_rounding : rounding_within I 0.
  Proof.
    assert (M := max_coord_nonneg I). split; [lra|]. split; [rewrite Qmult_0_r; discriminate|]. split; [lra|].
    intros x _. rewrite (RX x). setoid_replace (x - x)%Q with 0%Q by ring. apply Qle_refl.
  Qed.
  Lemma gap_eq g g' b c : (g == g')%Q -> gap g b c -> gap g' b c.
  Proof. intros E (a & Ha & H). exists a. split; auto. rewrite <- E. exact H. Qed.
  Lemma m2l_facts i q b c : In (M2L b c) (ways I st i q) ->
    In i (b_nodes (B b)) /\ In q (b_quads (B c)) /\ b < length bs /\ c < length bs /\ b_level (B c) = b_level (B b) /\ b_delta (B c) == b_delta (B b) /\ gap (b_delta (B b)) (B b) (B c).
  Proof.
    intros H. assert (H7 := m2l_facts_r 0 exact_rounding i q b c H). apply m2l_comb in H. destruct H as (H1 & H2 & H3 & H4 & H5 & H6 & _). repeat split; auto.
    apply (gap_eq (b_delta (B b) - 2 * (NQ I * 0))); auto. ring.
  Qed.
  Lemma meval_facts i q b c : In (MEval b c) (ways I st i q) ->
    In i (b_nodes (B b)) /\ In q (b_quads (B c)) /\ b < length bs /\ c < length bs /\ b_level (B b) < b_level (B c) /\ b_kids (B b) = [] /\ gap (b_delta (B c)) (B b) (B c).
  Proof.
    intros H. assert (H7 := meval_facts_r 0 exact_rounding i q b c H). apply meval_comb in H. destruct H as (H1 & H2 & H3 & H4 & H5 & H6 & _). repeat split; auto.
    apply (gap_eq (b_delta (B c) - 2 * (NQ I * 0))); auto. ring.
  Qed.
  End Exact.

  Lemma gap_centres b c : (0 <= b_delta c)%Q -> b_delta c == b_delta b -> gap (b_delta b) b c -> (4 * (b_delta b * b_delta b) <= dist2 (centre b) (centre c))%Q.
  Proof.
    intros Hd E (a & Ha & G). setoid_replace (4 * (b_delta b * b_delta b))%Q with ((2 * b_delta b) * (2 * b_delta b))%Q by ring.
    apply (dist2_axis _ _ a); auto; [lra|]. assert (X := centre_axis b a). assert (Y := centre_axis c a). destruct G; [right|left]; lra.
  Qed.
  Lemma gap_point p b c : (0 <= b_delta c)%Q -> inside p b -> gap (b_delta c) b c -> (9 * (b_delta c * b_delta c) <= 4 * dist2 p (centre c))%Q.
  Proof.
    intros Hd Hp (a & Ha & G). assert (Y := centre_axis c a). assert (X := half_eq (b_delta c)). set (h := (b_delta c / 2)%Q) in *.
    assert (Z : ((3 * h) * (3 * h) <= dist2 p (centre c))%Q).
    { apply (dist2_axis _ _ a); auto; [lra|]. destruct (Hp a Ha). destruct G; [right|left]; lra. }
    rewrite <- X. setoid_replace (9 * (2 * h * (2 * h)))%Q with (4 * (3 * h * (3 * h)))%Q by ring. lra.
  Qed.
End Far.

(** ** dof_to_block *)
Lemma count_repeat x y n : count_occ Nat.eq_dec (repeat y n) x = if Nat.eqb x y then n else 0.
Proof.
  induction n; cbn [repeat count_occ]; [destruct (Nat.eqb x y); auto|]. destruct (Nat.eq_dec y x) as [->|NE].
  - rewrite Nat.eqb_refl in *. lia.
  - rewrite IHn. destruct (Nat.eqb_spec x y); congruence.
Qed.
Lemma count_app x (u v : list nat) : count_occ Nat.eq_dec (u ++ v) x = count_occ Nat.eq_dec u x + count_occ Nat.eq_dec v x.
Proof. induction u as [|a u IH]; auto. cbn [app count_occ]. destruct (Nat.eq_dec a x); rewrite IH; lia. Qed.
Lemma count_flat_repeat f L x : NoDup L -> (In x L -> count_occ Nat.eq_dec (flat_map (fun a => repeat a (f a)) L) x = f x) /\
  (~ In x L -> count_occ Nat.eq_dec (flat_map (fun a => repeat a (f a)) L) x = 0).
Proof.
  induction L as [|a L IH]; intros ND; [split; [intros []|auto]|]. inversion ND; subst. destruct (IH H2) as (I1 & I2). cbn [flat_map]. rewrite count_app, count_repeat. split.
  - intros [->|Hx].
    + rewrite Nat.eqb_refl, I2 by auto. lia.
    + destruct (Nat.eqb_spec x a) as [->|]; [contradiction|]. rewrite I1; auto.
  - intros Hx. destruct (Nat.eqb_spec x a) as [->|]; [exfalso; apply Hx; left; auto|]. rewrite I2; auto. intros C. apply Hx. right; auto.
Qed.

Section Dtb.
  Variable I : oin.
  Hypothesis W : wf_in I.
  Notation st := (octree I).
  Notation bs := (st_blocks (octree I)).
  Notation B := (getb (st_blocks (octree I))).
  Notation N := (o_N I).

  Lemma ancestors_nodup b : b < length bs -> NoDup (ancestors bs b).
  Proof.
    intros Hb. apply (NoDup_nth _ 0). intros i j Hi Hj E. rewrite (ancestors_length I bs b (F_tree I W) Hb) in Hi, Hj.
    destruct (anc_nth I W b i Hb Hi) as (_ & L1 & _). destruct (anc_nth I W b j Hb Hj) as (_ & L2 & _). rewrite E in L1. lia.
  Qed.
  Lemma ancestors_iff b d x : In b (st_childless st) -> In d (b_nodes (B b)) -> x < length bs ->
    (In x (ancestors bs b) <-> In d (b_nodes (B x)) /\ b_kids (B x) <> []).
  Proof.
    intros Hb Hd Hx. assert (Hbl := F_cl I W b Hb). split.
    - intros H. apply (In_nth _ _ 0) in H. destruct H as (k & Hk & E). rewrite (ancestors_length I bs b (F_tree I W) Hbl) in Hk.
      destruct (anc_nth I W b k Hbl Hk) as (_ & _ & K & _ & Dn). rewrite E in *. split; auto.
    - intros (Hi & K). assert (L : b_level (B x) < b_level (B b)).
      { destruct (Nat.le_gt_cases (b_level (B b)) (b_level (B x))) as [Le|]; auto. exfalso.
        destruct (Nat.eq_dec (b_level (B b)) (b_level (B x))) as [E|NE].
        - assert (x = b) by (apply (nodes_same_level I bs (F_tree I W) x b d); auto). subst x. apply K. apply (F_leaf I W); auto.
        - destruct (path_facts I W x (b_level (B b)) Hx ltac:(lia)) as (P1 & P2 & P3 & P4 & _).
          assert (E : pathb I x (b_level (B b)) = b) by (apply (nodes_same_level I bs (F_tree I W) _ b d); auto).
          rewrite E in P3. apply P3; [lia|]. apply (F_leaf I W); auto. }
      destruct (anc_nth I W b (b_level (B x)) Hbl L) as (A1 & A2 & A3 & _ & A4).
      assert (E : nth (b_level (B x)) (ancestors bs b) 0 = x) by (apply (nodes_same_level I bs (F_tree I W) _ x d); auto).
      rewrite <- E. apply nth_In. rewrite (ancestors_length I bs b (F_tree I W) Hbl). auto.
  Qed.
  Lemma dtb_count d x : d < o_nd I -> x < length bs ->
    count_occ Nat.eq_dec (st_dtb st d) x =
    if in_dec Nat.eq_dec d (b_nodes (B x)) then
      match b_kids (B x) with [] => N - b_level (B x) | _ => length (b_kids (B x)) + (if Nat.eqb x 0 then 1 else 0) end
    else 0.
  Proof.
    intros Hd Hx. destruct (leaf_of_node I W d Hd) as (b & Hb & Hi). assert (Hbl := F_cl I W b Hb).
    rewrite (F_dtb I W b d Hb Hi). unfold dpushes. change (0 :: ?l) with ([0] ++ l). rewrite <- app_assoc, !count_app.
    destruct (count_flat_repeat (fun a => length (b_kids (B a))) (ancestors bs b) x (ancestors_nodup b Hbl)) as (C1 & C2).
    assert (A := ancestors_iff b d x Hb Hi Hx). rewrite count_repeat.
    assert (Kb := proj2 (F_leaf I W b Hbl) Hb).
    assert (C0 : count_occ Nat.eq_dec [0] x = if Nat.eqb x 0 then 1 else 0) by (destruct x; auto). rewrite C0.
    assert (R0 : In d (b_nodes (B 0))) by (apply (root_nodes I bs (F_tree I W)); auto).
    assert (Rk := root_split I W).
    destruct (in_dec Nat.eq_dec d (b_nodes (B x))) as [Dx|Dx].
    - destruct (b_kids (B x)) as [|k r] eqn:K.
      + assert (x = b) by (apply (nodes_leaf_unique I bs (F_tree I W) x b d); auto). subst x. rewrite Nat.eqb_refl.
        destruct (Nat.eqb_spec b 0) as [->|]; [congruence|]. rewrite C2; [lia|]. intros C. apply A in C. destruct C as (_ & C). congruence.
      + destruct (Nat.eqb_spec x b) as [->|]; [congruence|]. rewrite C1; [lia|]. apply A. split; auto. discriminate.
    - destruct (Nat.eqb_spec x 0) as [->|]; [contradiction|]. destruct (Nat.eqb_spec x b) as [->|]; [contradiction|]. rewrite C2; auto. intros C. apply A in C. tauto.
  Qed.
  Lemma dtb_outside d x : d < o_nd I -> length bs <= x -> ~ In x (st_dtb st d).
  Proof.
    intros Hd Hx Hin. destruct (leaf_of_node I W d Hd) as (b & Hb & Hi). assert (Hbl := F_cl I W b Hb).
    rewrite (F_dtb I W b d Hb Hi) in Hin. apply in_app_iff in Hin. destruct Hin as [Hin|Hin].
    - destruct Hin as [<-|Hin]; [assert (Y := F_pos I W); lia|]. apply in_flat_map in Hin. destruct Hin as (a & Ha & Hr). apply repeat_spec in Hr. subst a.
      apply (ancestors_in I bs (F_tree I W)) in Ha; auto. lia.
    - apply repeat_spec in Hin. lia.
  Qed.
End Dtb.
