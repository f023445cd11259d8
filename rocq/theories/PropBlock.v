(** * C51: octree blocks behave as records. *)
From Coq Require Import List Arith Lia Sorted Bool QArith_base.
From Verif Require Import ModelOctree ModelBlock.
Import ListNotations.
Local Open Scope nat_scope.

(** ** Specification vocabulary: what a history says, without running it *)
Definition is_copy (o : op) : bool := match o with CopyContent _ => true | _ => false end.
Definition no_copy (h : list op) : Prop := forall o, In o h -> is_copy o = false.
(** arguments of the calls of one kind, in order *)
Definition nodes_added (h : list op) : list nat := flat_map (fun o => match o with AddNode n => [n] | _ => [] end) h.
Definition quads_added (c : nat) (h : list op) : list nat :=
  flat_map (fun o => match o with AddQuadPoint c' q => if Nat.eqb c' c then [q] else [] | _ => [] end) h.
Definition children_added (h : list op) : list nat := flat_map (fun o => match o with AddChild x => [x] | _ => [] end) h.

(** the three families of lists *)
Inductive kind := Near | Int | NonInt.
Definition add (k : kind) : nat -> nat -> op :=
  match k with Near => AddNearNeigh | Int => AddBlockToIntList | NonInt => AddBlockToNonIntList end.
Definition set_size (k : kind) : nat -> op :=
  match k with Near => SetNearNeighSize | Int => SetIntListSize | NonInt => SetNonIntListSize end.
Definition get (k : kind) : blk -> nat -> option (list nat) :=
  match k with Near => GetNearNeighs | Int => GetIntList | NonInt => GetNonIntList end.
Definition size (k : kind) : blk -> nat :=
  match k with Near => GetNearNeighSize | Int => GetIntListSize | NonInt => GetNonIntListSize end.
Definition num (k : kind) : blk -> nat -> option nat :=
  match k with Near => NumNearNeigh | Int => NumIntList | NonInt => NumNonIntList end.
(** no call in [h] cuts list [s] of family [k] off *)
Definition kept (k : kind) (s : nat) (h : list op) : Prop := forall n, In (set_size k n) h -> s < n.

(** everything the const members return *)
Definition same_block (a b : blk) : Prop :=
  k_level a = k_level b /\ GetParentId a = GetParentId b /\ GetPMin a = GetPMin b /\ GetDelta a = GetDelta b /\
  GetBlockNodeList a = GetBlockNodeList b /\ (forall c, GetBlockQuadPointsList a c = GetBlockQuadPointsList b c) /\
  GetBlockChildrenNum a = GetBlockChildrenNum b /\
  (forall i, i < GetBlockChildrenNum b -> GetChildId a i = GetChildId b i) /\
  (forall k s, get k a s = get k b s) /\ (forall k, size k a = size k b).

(** ** Lemmas *)
Definition vec (k : kind) (b : blk) : list (list nat) :=
  match k with Near => k_near b | Int => k_int b | NonInt => k_non b end.
Lemma get_vec k b s : get k b s = nth_error (vec k b) s.
Proof. destruct k; reflexivity. Qed.
Lemma size_vec k b : size k b = length (vec k b).
Proof. destruct k; reflexivity. Qed.
Lemma run_app h1 h2 b : run b (h1 ++ h2) = match run b h1 with Ok b' => run b' h2 | e => e end.
Proof. revert b; induction h1 as [|o h1 IH]; intros b; simpl; auto. destruct (step b o); auto. Qed.
Lemma run_ind (P : list op -> blk -> Prop) b0 :
  P [] b0 -> (forall h b o b', run b0 h = Ok b -> P h b -> step b o = Ok b' -> P (h ++ [o]) b') ->
  forall h b, run b0 h = Ok b -> P h b.
Proof.
  intros H0 Hs h. induction h as [|o h IH] using rev_ind; intros b H; simpl in *.
  - inversion H; subst; auto.
  - rewrite run_app in H. destruct (run b0 h) as [b1| |] eqn:E; try discriminate. simpl in H.
    destruct (step b1 o) as [b2| |] eqn:E2; inversion H; subst. eapply Hs; eauto.
Qed.
Ltac hist_ind := match goal with |- forall h b, run ?b0 h = Ok b -> @?P h b => apply (run_ind P b0) end; cbv beta.
Lemma at_insert_nth s x v v' : at_insert s x v = Some v' ->
  length v' = length v /\ s < length v /\
  (forall t, nth_error v' t = if Nat.eqb t s then option_map (set_insert x) (nth_error v s) else nth_error v t).
Proof.
  revert s v'. induction v as [|l v IH]; intros s v' H; [destruct s; discriminate|].
  destruct s as [|s]; simpl in H.
  - inversion H; subst. simpl. repeat split; try lia. intros [|t]; reflexivity.
  - destruct (at_insert s x v) as [w|] eqn:E; inversion H; subst. destruct (IH _ _ E) as (A & B & C).
    simpl. repeat split; try lia. intros [|t]; simpl; auto.
Qed.
Lemma at_insert_none s x v : at_insert s x v = None <-> length v <= s.
Proof.
  revert s. induction v as [|l v IH]; intros s; simpl; [split; [lia|destruct s; auto]|].
  destruct s as [|s]; simpl; [split; [discriminate|lia]|]. specialize (IH s).
  destruct (at_insert s x v) as [w|] eqn:E; simpl; split; intros Q; try discriminate Q.
  - assert (X := proj2 IH). assert (L : length v <= s) by lia. specialize (X L). discriminate X.
  - assert (X := proj1 IH eq_refl). lia.
  - reflexivity.
Qed.
Lemma resize_len n v : length (resize n v) = n.
Proof. unfold resize. rewrite app_length, firstn_length, repeat_length. lia. Qed.
Lemma resize_nth n v t : nth_error (resize n v) t = if Nat.ltb t n then (if Nat.ltb t (length v) then nth_error v t else Some []) else None.
Proof.
  destruct (Nat.ltb t n) eqn:L.
  - apply Nat.ltb_lt in L. unfold resize. destruct (Nat.ltb t (length v)) eqn:L2.
    + apply Nat.ltb_lt in L2. rewrite nth_error_app1 by (rewrite firstn_length; lia).
      rewrite <- (firstn_skipn n v) at 2. rewrite nth_error_app1; auto. rewrite firstn_length; lia.
    + apply Nat.ltb_ge in L2. rewrite nth_error_app2 by (rewrite firstn_length; lia). rewrite firstn_length, Nat.min_r by lia.
      assert (X : t - length v < n - length v) by lia. revert X. generalize (t - length v) (n - length v). intros a m. revert a.
      induction m; intros a Ha; [lia|]. destruct a; simpl; auto. apply IHm. lia.
  - apply Nat.ltb_ge in L. apply nth_error_None. rewrite resize_len. auto.
Qed.
Lemma set_insert_in x l y : In y (set_insert x l) <-> y = x \/ In y l.
Proof.
  induction l as [|z l IH]; simpl; [intuition|]. destruct (Nat.ltb x z); [simpl; intuition|].
  destruct (Nat.eqb x z) eqn:E; simpl; [apply Nat.eqb_eq in E; subst; intuition|]. rewrite IH. intuition.
Qed.
Lemma set_insert_sorted x l : StronglySorted lt l -> StronglySorted lt (set_insert x l).
Proof.
  induction l as [|z l IH]; intros H; simpl; [repeat constructor|]. inversion H as [|? ? H1 H2]; subst.
  destruct (Nat.ltb x z) eqn:E; [|destruct (Nat.eqb x z) eqn:E2; auto].
  - apply Nat.ltb_lt in E. constructor; auto. constructor; auto. eapply Forall_impl; [|exact H2]. simpl; intros; lia.
  - apply Nat.ltb_ge in E. apply Nat.eqb_neq in E2. constructor; auto.
    apply Forall_forall. intros y Hy. apply set_insert_in in Hy. rewrite Forall_forall in H2. destruct Hy as [->|Hy]; [lia|auto].
Qed.

(** effect of a step on one family *)
Lemma step_vec k b o b' : step b o = Ok b' -> is_copy o = false ->
  (exists s x, o = add k s x /\ at_insert s x (vec k b) = Some (vec k b')) \/
  (exists n, o = set_size k n /\ vec k b' = resize n (vec k b)) \/
  ((forall s x, o <> add k s x) /\ (forall n, o <> set_size k n) /\ vec k b' = vec k b).
Proof.
  intros H C. destruct o; try discriminate C; simpl in H;
  repeat match type of H with
  | (if ?c then _ else _) = _ => destruct c eqn:?; try discriminate
  | lift _ ?o = _ => destruct o eqn:?; simpl in H; try discriminate end;
  inversion H; subst; destruct k; simpl in *;
  solve [ left; eauto | right; left; eauto | right; right; repeat split; intros; discriminate ].
Qed.
Lemma step_copy b o b' : step b (CopyContent o) = Ok b' -> forall k, vec k b' = vec k o.
Proof. intros H k. simpl in H. inversion H; subst. destruct k; reflexivity. Qed.

Lemma no_copy_snoc h o : no_copy (h ++ [o]) <-> no_copy h /\ is_copy o = false.
Proof.
  unfold no_copy. split.
  - intros H. split; [intros; apply H, in_app_iff; auto|apply H, in_app_iff; right; left; auto].
  - intros (A & B) o' Hi. apply in_app_iff in Hi. destruct Hi as [Hi|[<-|[]]]; auto.
Qed.
Lemma add_inj k s x s' x' : add k s x = add k s' x' -> s = s' /\ x = x'.
Proof. destruct k; simpl; intros H; inversion H; auto. Qed.
Lemma add_size k s x n : add k s x <> set_size k n.
Proof. destruct k; discriminate. Qed.
Lemma size_inj k n m : set_size k n = set_size k m -> n = m.
Proof. destruct k; simpl; intros H; inversion H; auto. Qed.
Lemma kept_snoc k s h o : kept k s (h ++ [o]) <-> kept k s h /\ (forall n, o = set_size k n -> s < n).
Proof.
  unfold kept. split.
  - intros H. split; intros n Hn; apply H, in_app_iff; [auto|right; left; auto].
  - intros (A & B) n Hn. apply in_app_iff in Hn. destruct Hn as [Hn|[Hn|[]]]; auto.
Qed.

(** ** Theorems *)

(** The constructor arguments are returned for ever, unless CopyContent replaces them. *)
Theorem C51_constructor_arguments : forall l p m d h b, no_copy h -> run (new_block l p m d) h = Ok b ->
  k_level b = l /\ GetParentId b = p /\ GetPMin b = m /\ GetDelta b = d.
Proof.
  intros l p m d h b N H. revert N. revert h b H. hist_ind; [auto|].
  intros h b o b' _ IH S N. apply no_copy_snoc in N. destruct N as (N & C). specialize (IH N).
  destruct o; try discriminate C; simpl in S;
  repeat match type of S with
  | (if ?c then _ else _) = _ => destruct c; try discriminate
  | lift _ ?o = _ => destruct o; simpl in S; try discriminate end; inversion S; subst; exact IH.
Qed.

(** The node list is what was added, in order, since the last DelNodeList. *)
Theorem C51_nodes : forall b0 h b, no_copy h -> run b0 h = Ok b ->
  (~ In DelNodeList h -> GetBlockNodeList b = GetBlockNodeList b0 ++ nodes_added h) /\
  (forall h1 h2, h = h1 ++ DelNodeList :: h2 -> ~ In DelNodeList h2 -> GetBlockNodeList b = nodes_added h2) /\
  GetBlockNodesNum b = length (GetBlockNodeList b).
Proof.
  assert (A : forall h b0 b, no_copy h -> run b0 h = Ok b -> ~ In DelNodeList h -> k_nodes b = k_nodes b0 ++ nodes_added h).
  { intros h b0 b N H. revert N. revert h b H.
    hist_ind; [intros; simpl; rewrite app_nil_r; auto|].
    intros h b o b' _ IH S N D. apply no_copy_snoc in N. destruct N as (N & C).
    assert (D' : ~ In DelNodeList h) by (intros X; apply D, in_app_iff; auto). specialize (IH N D').
    unfold nodes_added in *. rewrite flat_map_app. simpl.
    destruct o; try discriminate C; simpl in S;
    repeat match type of S with
    | (if ?c then _ else _) = _ => destruct c; try discriminate
    | lift _ ?o = _ => destruct o; simpl in S; try discriminate end; inversion S; subst; simpl; rewrite ?app_nil_r; auto.
    - rewrite IH, app_assoc. reflexivity.
    - exfalso. apply D, in_app_iff. right; left; auto. }
  intros b0 h b N H. split; [intros D; apply A; auto|]. split; [|reflexivity].
  intros h1 h2 -> D. change (DelNodeList :: h2) with ([DelNodeList] ++ h2) in *. rewrite app_assoc in H.
  rewrite run_app in H. destruct (run b0 (h1 ++ [DelNodeList])) as [b1| |] eqn:E; try discriminate.
  assert (N2 : no_copy h2) by (intros o Ho; apply N, in_app_iff; right; right; auto).
  assert (X := A h2 b1 b N2 H D). unfold GetBlockNodeList. rewrite X.
  rewrite run_app in E. destruct (run b0 h1) as [b2| |] eqn:E2; try discriminate. simpl in E. inversion E; subst. reflexivity.
Qed.

(** The quadrature points of a cell are what was added for it, in order, since the last
    DelQuadPointsList; cells without points are no keys of the map. *)
Theorem C51_quadrature_points : forall b0 h b c, no_copy h -> run b0 h = Ok b ->
  (~ In DelQuadPointsList h -> GetBlockQuadPointsList b c =
     match GetBlockQuadPointsList b0 c, quads_added c h with
     | None, [] => None | None, l => Some l | Some l, l' => Some (l ++ l') end) /\
  (forall h1 h2, h = h1 ++ DelQuadPointsList :: h2 -> ~ In DelQuadPointsList h2 ->
     GetBlockQuadPointsList b c = match quads_added c h2 with [] => None | l => Some l end).
Proof.
  assert (A : forall c h b0 b, no_copy h -> run b0 h = Ok b -> ~ In DelQuadPointsList h -> k_quads b c =
     match k_quads b0 c, quads_added c h with
     | None, [] => None | None, l => Some l | Some l, l' => Some (l ++ l') end).
  { intros c h b0 b N H. revert N. revert h b H.
    hist_ind; [intros; simpl; destruct (k_quads b0 c); rewrite ?app_nil_r; auto|].
    intros h b o b' _ IH S N D. apply no_copy_snoc in N. destruct N as (N & C).
    assert (D' : ~ In DelQuadPointsList h) by (intros X; apply D, in_app_iff; auto). specialize (IH N D').
    unfold quads_added in *. rewrite flat_map_app. simpl.
    destruct o; try discriminate C; simpl in S;
    repeat match type of S with
    | (if ?c then _ else _) = _ => destruct c; try discriminate
    | lift _ ?o = _ => destruct o; simpl in S; try discriminate end; inversion S; subst; simpl; rewrite ?app_nil_r; auto.
    - rewrite (Nat.eqb_sym c0 c). destruct (Nat.eqb c c0) eqn:E; [|simpl; rewrite app_nil_r; auto].
      apply Nat.eqb_eq in E. subst c0. rewrite IH. simpl.
      set (L := flat_map _ h). destruct (k_quads b0 c).
      + rewrite app_assoc. reflexivity.
      + destruct L; simpl; reflexivity.
    - exfalso. apply D, in_app_iff. right; left; auto. }
  intros b0 h b c N H. split; [intros D; apply A; auto|].
  intros h1 h2 -> D. change (DelQuadPointsList :: h2) with ([DelQuadPointsList] ++ h2) in *. rewrite app_assoc in H.
  rewrite run_app in H. destruct (run b0 (h1 ++ [DelQuadPointsList])) as [b1| |] eqn:E; try discriminate.
  assert (N2 : no_copy h2) by (intros o Ho; apply N, in_app_iff; right; right; auto).
  assert (X := A c h2 b1 b N2 H D). unfold GetBlockQuadPointsList. rewrite X.
  rewrite run_app in E. destruct (run b0 h1) as [b2| |] eqn:E2; try discriminate. simpl in E. inversion E; subst. reflexivity.
Qed.

(** Children: as many as were added, in order, and the ninth is undefined behaviour. *)
Theorem C51_children : forall l p m d h b, no_copy h -> run (new_block l p m d) h = Ok b ->
  GetBlockChildrenNum b = length (children_added h) /\ GetBlockChildrenNum b <= 8 /\
  forall i, i < GetBlockChildrenNum b -> GetChildId b i = nth_error (children_added h) i.
Proof.
  intros l p m d h b N H. revert N. revert h b H.
  hist_ind; [intros; simpl; repeat split; auto; intros; lia|].
  intros h b o b' _ IH S N. apply no_copy_snoc in N. destruct N as (N & C). specialize (IH N).
  unfold children_added in *. rewrite flat_map_app. simpl. unfold GetBlockChildrenNum, GetChildId in *.
  destruct o; try discriminate C; simpl in S;
  repeat match type of S with
  | (if ?c then _ else _) = _ => destruct c eqn:?; try discriminate
  | lift _ ?o = _ => destruct o; simpl in S; try discriminate end; inversion S; subst; simpl; rewrite ?app_nil_r; auto.
  apply Nat.ltb_lt in Heqb0. destruct IH as (I1 & I2 & I3). rewrite app_length. simpl. repeat split; try lia.
  intros i Hi. rewrite (proj2 (Nat.ltb_lt i 8)) by lia. destruct (Nat.eqb i (k_num b)) eqn:E.
  - apply Nat.eqb_eq in E. subst i. rewrite nth_error_app2 by lia. replace (k_num b - _) with 0 by lia. reflexivity.
  - apply Nat.eqb_neq in E. rewrite nth_error_app1 by lia. rewrite <- I3 by lia.
    rewrite (proj2 (Nat.ltb_lt i 8)) by lia. reflexivity.
Qed.
Theorem C51_ninth_child_undefined : forall b o, step b o = Undefined <-> 8 <= GetBlockChildrenNum b /\ exists x, o = AddChild x.
Proof.
  intros b o. split.
  - intros H. destruct o; simpl in H; try discriminate;
    try (match type of H with lift _ ?o = _ => destruct o; discriminate end).
    destruct (Nat.ltb (k_num b) 8) eqn:E; try discriminate. apply Nat.ltb_ge in E. split; eauto.
  - intros (A & x & ->). simpl. unfold GetBlockChildrenNum in A. rewrite (proj2 (Nat.ltb_ge _ _) A). reflexivity.
Qed.

(** Members of list [s]: added after the last call that cut the list off. *)
Theorem C51_list_members : forall k l p m d h b s, no_copy h -> run (new_block l p m d) h = Ok b -> s < size k b ->
  exists L, get k b s = Some L /\ num k b s = Some (length L) /\ StronglySorted lt L /\
    forall x, In x L <-> exists h1 h2, h = h1 ++ add k s x :: h2 /\ kept k s h2.
Proof.
  intros k l p m d h b s N H. revert N. revert h b H.
  assert (Nm : forall b L, get k b s = Some L -> num k b s = Some (length L)).
  { intros b L G. destruct k; simpl in *; unfold NumNearNeigh, NumIntList, NumNonIntList; rewrite G; reflexivity. }
  assert (Ns : forall b, size k b <= s -> nth_error (vec k b) s = None) by (intros b; rewrite size_vec; apply nth_error_None).
  (* a statement that also speaks about cut-off lists *)
  set (spec := fun h L => StronglySorted lt L /\ forall x, In x L <-> exists h1 h2, h = h1 ++ add k s x :: h2 /\ kept k s h2).
  assert (X : forall h b, run (new_block l p m d) h = Ok b -> no_copy h ->
     (s < length (vec k b) -> exists L, nth_error (vec k b) s = Some L /\ spec h L) /\
     (length (vec k b) <= s -> spec h [])).
  { hist_ind.
    - intros _. split.
      + intros Hs. assert (s = 0) by (destruct k; simpl in Hs; lia). subst s. exists []. split; [destruct k; reflexivity|].
        split; [constructor|]. intros x; split; [intros []|]. intros (h1 & h2 & E & _). destruct h1; discriminate.
      + intros _. split; [constructor|]. intros x; split; [intros []|]. intros (h1 & h2 & E & _). destruct h1; discriminate.
    - intros h b o b' _ IH S N. apply no_copy_snoc in N. destruct N as (N & C). specialize (IH N). destruct IH as (I1 & I2).
      assert (Same : forall L, (forall x, o <> add k s x) -> (forall n, o = set_size k n -> s < n) -> spec h L -> spec (h ++ [o]) L).
      { intros L Ha Hz (SL & HL). split; auto. intros x. rewrite HL. split.
        - intros (h1 & h2 & -> & K). exists h1, (h2 ++ [o]). split; [rewrite <- app_assoc; reflexivity|]. apply kept_snoc. auto.
        - intros (h1 & h2 & E & K). destruct (exists_last (l:=add k s x :: h2)) as (h2' & o' & E2); [discriminate|].
          rewrite E2, app_assoc in E. apply app_inj_tail in E. destruct E as (E & ->).
          destruct h2' as [|a h2']; simpl in E2; inversion E2; subst.
          + exfalso. apply (Ha x). reflexivity.
          + exists h1, h2'. split; auto. apply kept_snoc in K. tauto. }
      destruct (step_vec k b o b' S C) as [(s' & x' & -> & A)|[(n & -> & A)|(A1 & A2 & A3)]].
      + apply at_insert_nth in A. destruct A as (A1 & A2 & A3). rewrite A1.
        assert (NS : forall n, add k s' x' = set_size k n -> s < n) by (intros n E; exfalso; eapply add_size; eauto).
        destruct (Nat.eq_dec s' s) as [->|D].
        * split; [|lia]. intros Hs. destruct (I1 Hs) as (L & E & (SL & HL)). exists (set_insert x' L).
          rewrite A3, Nat.eqb_refl, E. split; auto. split; [apply set_insert_sorted; auto|].
          intros y. rewrite set_insert_in, HL. split.
          -- intros [->|(h1 & h2 & -> & K)].
             ++ exists h, []. split; auto. intros n [].
             ++ exists h1, (h2 ++ [add k s x']). split; [rewrite <- app_assoc; reflexivity|]. apply kept_snoc. auto.
          -- intros (h1 & h2 & E' & K). destruct (exists_last (l:=add k s y :: h2)) as (h2' & o' & E2); [discriminate|].
             rewrite E2, app_assoc in E'. apply app_inj_tail in E'. destruct E' as (E' & <-).
             destruct h2' as [|a h2']; simpl in E2; inversion E2; subst.
             ++ left. match goal with X : add _ _ _ = add _ _ _ |- _ => apply add_inj in X; tauto end.
             ++ right. exists h1, h2'. split; auto. apply kept_snoc in K. tauto.
        * assert (Ha : forall x, add k s' x' <> add k s x) by (intros x E; apply add_inj in E; tauto).
          split; [|auto]. intros Hs. destruct (I1 Hs) as (L & E & Sp). exists L. rewrite A3.
          destruct (Nat.eqb s s') eqn:Q; [apply Nat.eqb_eq in Q; congruence|]. auto.
      + rewrite A, resize_len. assert (Ha : forall x, set_size k n <> add k s x) by (intros x E; symmetry in E; eapply add_size; eauto).
        split.
        * intros Hs. rewrite resize_nth, (proj2 (Nat.ltb_lt _ _) Hs).
          assert (Hz : forall n0, set_size k n = set_size k n0 -> s < n0) by (intros n0 E; apply size_inj in E; lia).
          destruct (Nat.ltb s (length (vec k b))) eqn:Q.
          -- apply Nat.ltb_lt in Q. destruct (I1 Q) as (L & E & Sp). exists L. auto.
          -- apply Nat.ltb_ge in Q. exists []. split; auto.
        * intros Hs. split; [constructor|]. intros x. split; [intros []|]. intros (h1 & h2 & E & K).
          destruct (exists_last (l:=add k s x :: h2)) as (h2' & o' & E2); [discriminate|].
          rewrite E2, app_assoc in E. apply app_inj_tail in E. destruct E as (E & <-).
          destruct h2' as [|a h2']; simpl in E2; inversion E2; subst.
          -- match goal with X : _ = set_size _ _ |- _ => apply add_size in X; auto end.
          -- apply kept_snoc in K. destruct K as (_ & K). specialize (K n eq_refl). lia.
      + rewrite A3. split; [|auto]. intros Hs. destruct (I1 Hs) as (L & E & Sp). exists L. split; auto. apply Same; auto. intros n E'. exfalso. eapply A2; eauto.
      all: auto. intros Hs. apply Same; auto. intros n E'. exfalso. eapply A2; eauto. }
  intros h b H N Hs. rewrite size_vec in Hs. destruct (X h b H N) as (X1 & _). destruct (X1 Hs) as (L & E & SL & HL).
  exists L. rewrite get_vec. split; auto. split; [|split; auto]. apply Nm. rewrite get_vec. auto.
Qed.
(** The number of lists is the last size set, or 1. *)
Theorem C51_list_sizes : forall k l p m d h b, no_copy h -> run (new_block l p m d) h = Ok b ->
  ((forall n, ~ In (set_size k n) h) -> size k b = 1) /\
  (forall h1 n h2, h = h1 ++ set_size k n :: h2 -> (forall n', ~ In (set_size k n') h2) -> size k b = n).
Proof.
  intros k l p m d.
  assert (A : forall h b0 b, no_copy h -> run b0 h = Ok b -> (forall n, ~ In (set_size k n) h) -> length (vec k b) = length (vec k b0)).
  { intros h b0 b N H. revert N. revert h b H. hist_ind; [auto|].
    intros h b o b' _ IH S N D. apply no_copy_snoc in N. destruct N as (N & C).
    rewrite <- IH; auto; [|intros n X; apply (D n), in_app_iff; auto].
    destruct (step_vec k b o b' S C) as [(s' & x' & -> & Q)|[(n & -> & Q)|(_ & _ & Q)]].
    - apply at_insert_nth in Q. tauto.
    - exfalso. apply (D n), in_app_iff. right; left; auto.
    - congruence. }
  intros h b N H. rewrite size_vec. split.
  - intros D. rewrite (A h _ _ N H D). destruct k; reflexivity.
  - intros h1 n h2 -> D. change (set_size k n :: h2) with ([set_size k n] ++ h2) in *. rewrite app_assoc in H.
    rewrite run_app in H. destruct (run _ (h1 ++ [set_size k n])) as [b1| |] eqn:E; try discriminate.
    assert (N2 : no_copy h2) by (intros o Ho; apply N, in_app_iff; right; right; auto).
    rewrite (A h2 b1 b N2 H D). rewrite run_app in E. destruct (run _ h1) as [b2| |] eqn:E2; try discriminate.
    simpl in E. destruct k; simpl in *; inversion E; subst; apply resize_len.
Qed.
(** Adding to a list that does not exist throws; nothing else does. *)
Theorem C51_out_of_range : forall b o, step b o = OutOfRange <-> exists k s x, o = add k s x /\ size k b <= s.
Proof.
  intros b o. split.
  - intros H. destruct o; simpl in H; try discriminate;
    try (destruct (Nat.ltb (k_num b) 8); discriminate);
    match type of H with lift _ ?o = _ => destruct o eqn:E; simpl in H; try discriminate end; apply at_insert_none in E.
    + exists Near; eauto. + exists Int; eauto. + exists NonInt; eauto.
  - intros (k & s & x & -> & L). rewrite size_vec in L. apply at_insert_none with (x:=x) in L. destruct k; simpl in *; rewrite L; reflexivity.
Qed.

Lemma copy_kids_lt n f g i : i < n -> copy_kids n f g i = f i.
Proof. induction n as [|n IH]; intros H; [lia|]. simpl. destruct (Nat.eqb i n) eqn:E; [apply Nat.eqb_eq in E; subst; auto|apply Nat.eqb_neq in E; apply IH; lia]. Qed.
(** The copy constructor makes an equal block. *)
Theorem C51_copy_constructor : forall o, same_block (copy_block o) o.
Proof.
  intros o. unfold same_block. repeat split; auto.
  - intros i Hi. unfold GetChildId, GetBlockChildrenNum in *. simpl. rewrite copy_kids_lt; auto.
  - intros [] s; reflexivity.
  - intros []; reflexivity.
Qed.
(** CopyContent makes the target equal to the source exactly when the target holds no nodes: the
    source's nodes are appended to the target's, everything else is replaced. *)
Theorem C51_copy_content : forall b o, exists b', step b (CopyContent o) = Ok b' /\
  GetBlockNodeList b' = GetBlockNodeList b ++ GetBlockNodeList o /\
  same_block (set_nodes b' (GetBlockNodeList o)) o /\
  (same_block b' o <-> GetBlockNodeList b = []).
Proof.
  intros b o. eexists. split; [reflexivity|]. split; [reflexivity|].
  assert (E : forall v, v = k_nodes o -> same_block (mkblk (k_level o) (k_parent o) (k_num o) (copy_kids (k_num o) (k_kid o) (k_kid b))
            (k_near o) (k_int o) (k_non o) (k_pmin o) (k_delta o) v (k_quads o)) o).
  { intros v ->. unfold same_block. repeat split; auto.
    - intros i Hi. unfold GetChildId, GetBlockChildrenNum in *. simpl. rewrite copy_kids_lt; auto.
    - intros [] s; reflexivity.
    - intros []; reflexivity. }
  split; [apply E; reflexivity|]. split.
  - intros S. destruct S as (_ & _ & _ & _ & S & _). unfold GetBlockNodeList in *. simpl in S.
    apply (f_equal (@length nat)) in S. rewrite app_length in S. destruct (k_nodes b); auto. simpl in S. lia.
  - intros S. apply E. unfold GetBlockNodeList in S. rewrite S. reflexivity.
Qed.
Theorem C51_copy_content_equal_refuted : exists b o b', step b (CopyContent o) = Ok b' /\ GetBlockNodeList b' <> GetBlockNodeList o.
Proof.
  exists (set_nodes (new_block 0 0 (mkpt 0 0 0) 0) [7]), (new_block 0 0 (mkpt 0 0 0) 0).
  eexists. split; [reflexivity|]. discriminate.
Qed.

Definition ex_hist : list op :=
  [AddNode 4; AddNode 2; AddQuadPoint 3 1; AddChild 9; AddNearNeigh 0 5; AddNearNeigh 0 1; SetNearNeighSize 3;
   AddNearNeigh 2 8; SetNearNeighSize 1; SetNearNeighSize 3; AddNearNeigh 2 7; DelNodeList; AddNode 6].
Example C51_nonvacuous : no_copy ex_hist /\ match run (new_block 2 1 (mkpt 0 0 0) 1) ex_hist with Ok b =>
  GetNearNeighs b 0 = Some [1; 5] /\ GetNearNeighs b 2 = Some [7] /\ GetBlockNodeList b = [6] /\
  step b (AddBlockToIntList 1 0) = OutOfRange /\ GetChildId b 0 = Some 9 | _ => False end.
Proof.
  split; [intros o H; simpl in H; intuition (subst; reflexivity)|]. vm_compute. repeat split.
Qed.
