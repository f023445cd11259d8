(** * C43: the CAD projection cache. *)
From Coq Require Import QArith Qabs Qround ZArith List Lia Arith Bool.
From Verif Require Import ModelCache.
Import ListNotations.
Local Open Scope Z_scope.

(** ** Specification: what two points must share to share a cache entry *)
(** x rounded to six decimals, as a multiple of 1e-6 (ties to even) *)
Definition rounds_to (x : Q) (k : Z) : Prop :=
  let e := (Qabs x * 1000000 - inject_Z k)%Q in
  (Qabs e < 1 # 2 \/ (Qabs e == 1 # 2 /\ Z.Even k))%Q.
Definition same_print1 (x y : Q) : Prop := ((0 <= x)%Q <-> (0 <= y)%Q) /\ exists k, rounds_to x k /\ rounds_to y k.
Definition same_print (p q : point) : Prop :=
  let '(x, y, z) := p in let '(x', y', z') := q in same_print1 x x' /\ same_print1 y y' /\ same_print1 z z'.

(** ** Lemmas *)
Lemma micros_rounds x : rounds_to x (micros x).
Proof.
  unfold rounds_to, micros. set (y := (Qabs x * 1000000)%Q).
  assert (F1 := Qfloor_le y). assert (F2 := Qlt_floor y). rewrite inject_Z_plus in F2. change (inject_Z 1) with 1%Q in F2.
  set (f := Qfloor y) in *.
  destruct (Qle_bool (1 # 2) (y - inject_Z f)) eqn:E; cbn [negb].
  - apply Qle_bool_iff in E. destruct (Qeq_bool (y - inject_Z f) (1 # 2)) eqn:E2.
    + apply Qeq_bool_iff in E2. right. destruct (Z.even f) eqn:Ev.
      * split; [rewrite Qabs_pos; [exact E2|rewrite E2; discriminate]|apply Z.even_spec; auto].
      * split.
        -- rewrite inject_Z_plus. change (inject_Z 1) with 1%Q. rewrite Qabs_neg.
           ++ setoid_replace (y - (inject_Z f + 1))%Q with ((y - inject_Z f) - 1)%Q by ring. rewrite E2. reflexivity.
           ++ setoid_replace (y - (inject_Z f + 1))%Q with ((y - inject_Z f) - 1)%Q by ring. rewrite E2. discriminate.
        -- apply Z.even_spec. rewrite Z.even_add. rewrite Ev. reflexivity.
    + left. apply Qeq_bool_neq in E2. rewrite inject_Z_plus. change (inject_Z 1) with 1%Q.
      assert (L : ((1 # 2) < y - inject_Z f)%Q).
      { apply Qle_lteq in E. destruct E as [E|E]; auto. symmetry in E. contradiction. }
      apply Qabs_Qlt_condition. split.
      * apply Qlt_minus_iff in L. apply Qlt_minus_iff.
        setoid_replace (y - (inject_Z f + 1) + - - (1 # 2))%Q with (y - inject_Z f + - (1 # 2))%Q by ring. exact L.
      * apply Qlt_trans with 0%Q; [|reflexivity]. apply Qlt_minus_iff in F2. apply Qlt_minus_iff.
        setoid_replace (0 + - (y - (inject_Z f + 1)))%Q with (inject_Z f + 1 + - y)%Q by ring. exact F2.
  - left. assert (L : (y - inject_Z f < 1 # 2)%Q).
    { apply Qnot_le_lt. intros H. apply Qle_bool_iff in H. congruence. }
    rewrite Qabs_pos; auto. apply Qle_minus_iff in F1. setoid_replace (y - inject_Z f)%Q with (y + - inject_Z f)%Q by ring. exact F1.
Qed.
Lemma rounds_unique x k k' : rounds_to x k -> rounds_to x k' -> k = k'.
Proof.
  unfold rounds_to. set (y := (Qabs x * 1000000)%Q). intros H H'.
  assert (A : forall k, (Qabs (y - inject_Z k) < 1 # 2 \/ (Qabs (y - inject_Z k) == 1 # 2 /\ Z.Even k))%Q ->
     (- (1 # 2) <= y - inject_Z k /\ y - inject_Z k <= 1 # 2)%Q).
  { intros j [Hj|[Hj _]].
    - apply Qabs_Qlt_condition in Hj. split; apply Qlt_le_weak; tauto.
    - apply Qabs_Qle_condition. rewrite Hj. apply Qle_refl. }
  assert (B := A k H). assert (B' := A k' H').
  assert (D : (inject_Z (k - k') <= 1 /\ inject_Z (k' - k) <= 1)%Q).
  { unfold Z.sub. rewrite !inject_Z_plus, !inject_Z_opp. destruct B as (B1 & B2), B' as (B1' & B2').
    generalize (inject_Z k) (inject_Z k') B1 B2 B1' B2'. clear. intros a b B1 B2 B1' B2'. split;
    apply Qle_minus_iff in B1; apply Qle_minus_iff in B2; apply Qle_minus_iff in B1'; apply Qle_minus_iff in B2'; apply Qle_minus_iff.
    - assert (X := Qplus_le_compat _ _ _ _ B1 B2'). setoid_replace (0+0)%Q with 0%Q in X by ring.
      setoid_replace (1 + - (a + - b))%Q with (y - a + - - (1 # 2) + ((1 # 2) + - (y - b)))%Q by ring. exact X.
    - assert (X := Qplus_le_compat _ _ _ _ B1' B2). setoid_replace (0+0)%Q with 0%Q in X by ring.
      setoid_replace (1 + - (b + - a))%Q with (y - b + - - (1 # 2) + ((1 # 2) + - (y - a)))%Q by ring. exact X. }
  destruct D as (D1 & D2). change 1%Q with (inject_Z 1) in D1, D2. rewrite <- Zle_Qle in D1, D2.
  destruct (Z.eq_dec k k') as [|N]; auto. exfalso.
  (* difference is one: both are ties, both even *)
  assert (W : forall k k', k' = k + 1 -> (Qabs (y - inject_Z k) < 1 # 2 \/ (Qabs (y - inject_Z k) == 1 # 2 /\ Z.Even k))%Q ->
      (Qabs (y - inject_Z k') < 1 # 2 \/ (Qabs (y - inject_Z k') == 1 # 2 /\ Z.Even k'))%Q -> False).
  { clear. intros k k' -> H H'.
    assert (T : ~ ((Qabs (y - inject_Z k) < 1 # 2)%Q /\ (Qabs (y - inject_Z (k + 1)) <= 1 # 2)%Q) /\
                ~ ((Qabs (y - inject_Z k) <= 1 # 2)%Q /\ (Qabs (y - inject_Z (k + 1)) < 1 # 2)%Q)).
    { assert (G : (1 <= Qabs (y - inject_Z k) + Qabs (y - inject_Z (k+1)))%Q).
      { rewrite <- (Qabs_opp (y - inject_Z (k+1))). eapply Qle_trans; [|apply Qabs_triangle].
        rewrite inject_Z_plus. setoid_replace (y - inject_Z k + - (y - (inject_Z k + inject_Z 1)))%Q with 1%Q by (change (inject_Z 1) with 1%Q; ring). discriminate. }
      split; intros (X & Y); apply (Qlt_irrefl 1); eapply Qle_lt_trans; try exact G.
      - setoid_replace 1%Q with ((1#2)+(1#2))%Q by reflexivity. apply Qplus_lt_le_compat; auto.
      - setoid_replace 1%Q with ((1#2)+(1#2))%Q by reflexivity. rewrite (Qplus_comm (Qabs _)). apply Qplus_lt_le_compat; auto. }
    destruct T as (T1 & T2). destruct H as [H|(H & E)].
    - apply T1. split; auto. destruct H' as [H'|(H' & _)]; [apply Qlt_le_weak; auto|rewrite H'; apply Qle_refl].
    - destruct H' as [H'|(H' & E')].
      + apply T2. split; auto. rewrite H; apply Qle_refl.
      + destruct E as (a & ->), E' as (b & E'). lia. }
  assert (X : k' = k + 1 \/ k = k' + 1) by lia. destruct X as [X|X]; eapply W; eauto.
Qed.

Fixpoint val (acc : Z) (l : list char) : Z :=
  match l with [] => acc | Dig d :: r => val (acc * 10 + d) r | _ :: r => val acc r end.
Lemma val_app l1 l2 a : val a (l1 ++ l2) = val (val a l1) l2.
Proof. revert a; induction l1 as [|[]]; intros; simpl; auto. Qed.
Lemma digits_val f : forall n, 0 <= n -> val 0 (digits f n) = n.
Proof.
  induction f as [|f IH]; intros n H; simpl; [lia|]. destruct (n <? 10) eqn:E; [simpl; lia|]. apply Z.ltb_ge in E.
  rewrite val_app, IH by (apply Z.div_pos; lia). simpl. rewrite (Z.div_mod n 10) at 3 by lia. lia.
Qed.
Lemma digits_only f : forall n c, In c (digits f n) -> exists d, c = Dig d.
Proof.
  induction f as [|f IH]; intros n c H; simpl in H; [destruct H as [<-|[]]; eauto|].
  destruct (n <? 10); [destruct H as [<-|[]]; eauto|]. apply in_app_iff in H. destruct H as [H|[<-|[]]]; eauto.
Qed.
Lemma digits_cons f n : exists d r, digits f n = Dig d :: r.
Proof.
  destruct (digits f n) as [|c r] eqn:E.
  - destruct f; simpl in E; [discriminate|]. destruct (n <? 10); [discriminate|]. destruct (digits f (n / 10)); discriminate.
  - destruct (digits_only f n c) as (d & ->); [rewrite E; left; auto|]. eauto.
Qed.
Lemma six_val n : 0 <= n < 1000000 -> val 0 (six n) = n.
Proof.
  intros H. unfold six. cbn [val].
  assert (D1 := Z.div_mod n 10 ltac:(lia)). assert (D2 := Z.div_mod (n/10) 10 ltac:(lia)). assert (D3 := Z.div_mod (n/100) 10 ltac:(lia)).
  assert (D4 := Z.div_mod (n/1000) 10 ltac:(lia)). assert (D5 := Z.div_mod (n/10000) 10 ltac:(lia)). assert (D6 := Z.div_mod (n/100000) 10 ltac:(lia)).
  rewrite Z.div_div in D2, D3, D4, D5, D6 by lia.
  assert (n / 1000000 = 0) by (apply Z.div_small; lia).
  change (10*10) with 100 in D2; change (100*10) with 1000 in D3; change (1000*10) with 10000 in D4; change (10000*10) with 100000 in D5; change (100000*10) with 1000000 in D6. lia.
Qed.
Lemma six_inj n m : 0 <= n < 1000000 -> 0 <= m < 1000000 -> six n = six m -> n = m.
Proof. intros A B E. rewrite <- (six_val n A), <- (six_val m B), E. reflexivity. Qed.
Lemma decimal_inj n m : 0 <= n -> 0 <= m -> decimal n = decimal m -> n = m.
Proof. unfold decimal. intros A B E. rewrite <- (digits_val (Z.to_nat (Z.log2 n)) n A), E. apply digits_val. auto. Qed.
Lemma micros_nonneg x : 0 <= micros x.
Proof.
  unfold micros. set (y := (Qabs x * 1000000)%Q).
  assert (0 <= Qfloor y). { change 0 with (Qfloor 0). apply Qfloor_resp_le. apply Qmult_le_0_compat; [apply Qabs_nonneg|discriminate]. }
  destruct (negb _); [auto|]. destruct (Qeq_bool _ _); [destruct (Z.even _)|]; lia.
Qed.
Lemma dot_split (a a' b b' : list char) : ~ In Dot a -> ~ In Dot a' -> a ++ Dot :: b = a' ++ Dot :: b' -> a = a' /\ b = b'.
Proof.
  revert a'. induction a as [|c a IH]; intros [|c' a'] H H' E; simpl in E; inversion E; subst; auto.
  - exfalso. apply H'. left; auto.
  - exfalso. apply H. left; auto.
  - destruct (IH a') as (-> & ->); auto; intros X; [apply H|apply H']; right; auto.
Qed.
Lemma app_same_len (a a' b b' : list char) : length a = length a' -> a ++ b = a' ++ b' -> a = a' /\ b = b'.
Proof. revert a'. induction a; intros [|c a'] L E; simpl in *; try discriminate; auto. inversion E; subst. destruct (IHa a') as (-> & ->); auto. Qed.
Lemma to_string_inj x y r r' : to_string x ++ r = to_string y ++ r' ->
  ((0 <= x)%Q <-> (0 <= y)%Q) /\ micros x = micros y /\ r = r'.
Proof.
  unfold to_string. intros E. rewrite <- !app_assoc in E.
  assert (E' : ((if Qle_bool 0 x then [] else [Minus]) ++ decimal (micros x / 1000000)) ++ Dot :: (six (micros x mod 1000000) ++ r) =
               ((if Qle_bool 0 y then [] else [Minus]) ++ decimal (micros y / 1000000)) ++ Dot :: (six (micros y mod 1000000) ++ r')).
  { rewrite <- !app_assoc. exact E. }
  apply dot_split in E'.
  - destruct E' as (E1 & E2).
    apply app_same_len in E2; [|reflexivity]. destruct E2 as (E2 & ->).
    assert (P : forall x, (Qle_bool 0 x = true <-> (0 <= x)%Q)) by (intros; apply Qle_bool_iff).
    assert (D : forall n, exists d r, decimal n = Dig d :: r) by (intros; apply digits_cons).
    assert (S : Qle_bool 0 x = Qle_bool 0 y /\ decimal (micros x / 1000000) = decimal (micros y / 1000000)).
    { destruct (D (micros x / 1000000)) as (d & s & Ds), (D (micros y / 1000000)) as (d' & s' & Ds').
      destruct (Qle_bool 0 x), (Qle_bool 0 y); simpl in E1; auto; rewrite ?Ds, ?Ds' in *; try discriminate; inversion E1; auto. }
    destruct S as (S1 & S2). split; [rewrite <- !P, S1; tauto|]. split; auto.
    assert (Nx := micros_nonneg x). assert (Ny := micros_nonneg y).
    apply decimal_inj in S2; try (apply Z.div_pos; lia). apply six_inj in E2; try (apply Z.mod_pos_bound; lia).
    rewrite (Z.div_mod (micros x) 1000000), (Z.div_mod (micros y) 1000000) by lia. lia.
  - intros H. apply in_app_iff in H. destruct H as [H|H].
    + destruct (Qle_bool 0 x); simpl in H; intuition discriminate.
    + destruct (digits_only _ _ _ H); discriminate.
  - intros H. apply in_app_iff in H. destruct H as [H|H].
    + destruct (Qle_bool 0 y); simpl in H; intuition discriminate.
    + destruct (digits_only _ _ _ H); discriminate.
Qed.
Lemma same_print1_micros x y : same_print1 x y <-> ((0 <= x)%Q <-> (0 <= y)%Q) /\ micros x = micros y.
Proof.
  unfold same_print1. split; intros (A & B); split; auto.
  - destruct B as (k & B1 & B2). rewrite (rounds_unique x _ k (micros_rounds x) B1). symmetry. apply (rounds_unique y _ k (micros_rounds y) B2).
  - exists (micros x). split; [|rewrite B]; apply micros_rounds.
Qed.

(** ** Theorems *)
(** The key string determines exactly the signs and the six-decimal roundings of the coordinates:
    no two different triples of printed numbers run together into the same string. *)
Theorem C43_same_key_iff_same_rounding : forall p q, point_to_string p = point_to_string q <-> same_print p q.
Proof.
  intros [[x y] z] [[x' y'] z']. unfold point_to_string, same_print. rewrite !same_print1_micros. split.
  - intros E. apply to_string_inj in E. destruct E as (A1 & A2 & E). apply to_string_inj in E. destruct E as (B1 & B2 & E).
    rewrite <- (app_nil_r (to_string z)), <- (app_nil_r (to_string z')) in E. apply to_string_inj in E. tauto.
  - intros ((A1 & A2) & (B1 & B2) & C1 & C2).
    assert (T : forall x y, ((0 <= x)%Q <-> (0 <= y)%Q) -> micros x = micros y -> to_string x = to_string y).
    { intros a b H E. unfold to_string. rewrite E. destruct (Qle_bool 0 a) eqn:Qa, (Qle_bool 0 b) eqn:Qb; auto.
      - apply Qle_bool_iff in Qa. apply H in Qa. apply Qle_bool_iff in Qa. congruence.
      - apply Qle_bool_iff in Qb. apply H in Qb. apply Qle_bool_iff in Qb. congruence. }
    rewrite (T x x'), (T y y'), (T z z'); auto.
Qed.

Lemma queries_app V hash project l1 l2 m : queries V hash project m (l1 ++ l2) =
  (let '(m1, v1) := queries V hash project m l1 in let '(m2, v2) := queries V hash project m1 l2 in (m2, v1 ++ v2)).
Proof.
  revert m. induction l1 as [|p l1 IH]; intros m; simpl.
  - destruct (queries V hash project m l2); reflexivity.
  - destruct (pull_back V hash project m p) as [m' v]. rewrite IH. destruct (queries V hash project m' l1) as [m1 v1].
    destruct (queries V hash project m1 l2); reflexivity.
Qed.
Lemma cache_inv V hash project l k : forall m vs, queries V hash project (fresh V) l = (m, vs) ->
  match find V k (m_cache V m) with
  | Some v => exists l1 p l2, l = l1 ++ p :: l2 /\ hash (point_to_string p) = k /\ v = project p /\ forall p', In p' l1 -> hash (point_to_string p') <> k
  | None => forall p, In p l -> hash (point_to_string p) <> k
  end.
Proof.
  induction l as [|p l IH] using rev_ind; intros m vs E; simpl in E.
  - inversion E; subst. simpl. intros p [].
  - rewrite queries_app in E. destruct (queries V hash project (fresh V) l) as [m1 v1]. specialize (IH m1 v1 eq_refl).
    simpl in E. unfold pull_back in E.
    destruct (find V (hash (point_to_string p)) (m_cache V m1)) as [v|] eqn:F; injection E as <- _; cbn [m_cache].
    + destruct (find V k (m_cache V m1)) as [w|] eqn:G.
      * destruct IH as (l1 & q & l2 & -> & A & B & C). exists l1, q, (l2 ++ [p]). rewrite <- app_assoc. repeat split; auto.
      * intros q Hq. apply in_app_iff in Hq. destruct Hq as [Hq|[<-|[]]]; auto. intros <-. congruence.
    + cbn [find]. destruct (N.eqb (hash (point_to_string p)) k) eqn:K.
      * apply N.eqb_eq in K. subst k. rewrite F in IH. exists l, p, []. repeat split; auto.
      * apply N.eqb_neq in K. destruct (find V k (m_cache V m1)) as [w|] eqn:G.
        -- destruct IH as (l1 & q & l2 & -> & A & B & C). exists l1, q, (l2 ++ [p]). rewrite <- app_assoc. repeat split; auto.
        -- intros q Hq. apply in_app_iff in Hq. destruct Hq as [Hq|[<-|[]]]; auto.
Qed.
(** Every answer is the projection of the first point of the history whose string hashes alike. *)
Theorem C43_answer_is_first_projection_with_the_key : forall V hash project l p m vs,
  queries V hash project (fresh V) l = (m, vs) ->
  exists l1 q l2, l ++ [p] = l1 ++ q :: l2 /\ hash (point_to_string q) = hash (point_to_string p) /\
    (forall q', In q' l1 -> hash (point_to_string q') <> hash (point_to_string p)) /\
    snd (pull_back V hash project m p) = project q.
Proof.
  intros V hash project l p m vs E. assert (X := cache_inv V hash project l (hash (point_to_string p)) m vs E).
  unfold pull_back. destruct (find V (hash (point_to_string p)) (m_cache V m)) as [v|].
  - destruct X as (l1 & q & l2 & -> & A & B & C). exists l1, q, (l2 ++ [p]). rewrite <- app_assoc. simpl. auto.
  - exists l, p, []. simpl. auto.
Qed.
(** The cache is transparent for all histories exactly when points with equal hashes have equal
    projections. *)
Theorem C43_transparent_iff : forall V hash project,
  (forall l p m vs, queries V hash project (fresh V) l = (m, vs) -> snd (pull_back V hash project m p) = project p) <->
  (forall p q, hash (point_to_string p) = hash (point_to_string q) -> project p = project q).
Proof.
  intros V hash project. split.
  - intros H p q K. specialize (H [p] q). simpl in H. unfold pull_back at 1 in H. simpl in H. specialize (H _ _ eq_refl).
    unfold pull_back in H. simpl in H. rewrite K, N.eqb_refl in H. simpl in H. auto.
  - intros H l p m vs E. destruct (C43_answer_is_first_projection_with_the_key V hash project l p m vs E) as (l1 & q & l2 & _ & A & _ & ->). auto.
Qed.
(** So a projection that tells two points with the same six-decimal print apart is answered wrongly
    for the second of them, whatever the hash function. *)
Theorem C43_transparency_refuted : forall V hash project p q, same_print p q -> project p <> project q ->
  let m := fst (queries V hash project (fresh V) [p]) in snd (pull_back V hash project m q) = project p.
Proof.
  intros V hash project p q S N. apply C43_same_key_iff_same_rounding in S.
  simpl. unfold pull_back. simpl. rewrite S, N.eqb_refl. reflexivity.
Qed.
(** number of projections computed = number of distinct hashes among the queries *)
Theorem C43_projections_computed_once_per_key : forall V hash project l m vs, queries V hash project (fresh V) l = (m, vs) ->
  (m_new V m + m_hits V m = length l /\ m_new V m = length (nodup N.eq_dec (map (fun p => hash (point_to_string p)) l)))%nat.
Proof.
  intros V hash project l. induction l as [|p l IH] using rev_ind; intros m vs E.
  - simpl in E. inversion E; subst. auto.
  - rewrite queries_app in E. destruct (queries V hash project (fresh V) l) as [m1 v1] eqn:E1. specialize (IH m1 v1 eq_refl).
    assert (X := cache_inv V hash project l (hash (point_to_string p)) m1 v1 E1).
    rewrite map_app, app_length. simpl in E. unfold pull_back in E. cbn [map length].
    set (f := fun p => hash (point_to_string p)) in *.
    assert (ND : forall (L : list N) x, length (nodup N.eq_dec (L ++ [x])) = (length (nodup N.eq_dec L) + if in_dec N.eq_dec x L then 0 else 1)%nat).
    { clear. induction L as [|a L IHL]; intros x; [reflexivity|]. cbn [app nodup].
      destruct (in_dec N.eq_dec a (L ++ [x])) as [i|n], (in_dec N.eq_dec a L) as [i'|n'].
      - rewrite IHL. destruct (in_dec N.eq_dec x L) as [j|j], (in_dec N.eq_dec x (a :: L)) as [j'|j']; try reflexivity; exfalso; [apply j'; right; auto|]. destruct j' as [->|j']; auto.
      - apply in_app_iff in i. destruct i as [i|[<-|[]]]; [contradiction|]. rewrite IHL. cbn [length].
        destruct (in_dec N.eq_dec x L), (in_dec N.eq_dec x (x :: L)); simpl in *; try tauto; lia.
      - exfalso. apply n, in_app_iff. auto.
      - cbn [length]. rewrite IHL. destruct (in_dec N.eq_dec x L) as [j|j], (in_dec N.eq_dec x (a :: L)) as [j'|j']; try lia; [exfalso; apply j'; right; auto|].
        destruct j' as [->|j']; [|contradiction]. exfalso. apply n, in_app_iff. right; left; auto. }
    rewrite ND. change (hash (point_to_string p)) with (f p) in *.
    destruct (find V (f p) (m_cache V m1)) as [v|] eqn:F; injection E as <- _; cbn [m_new m_hits].
    + destruct X as (l1 & q & l2 & -> & A & _). destruct (in_dec N.eq_dec (f p) (map f (l1 ++ q :: l2))) as [i|n]; [lia|].
      exfalso. apply n. apply in_map_iff. exists q. split; auto. apply in_app_iff; right; left; auto.
    + destruct (in_dec N.eq_dec (f p) (map f l)) as [i|n]; [|lia].
      apply in_map_iff in i. destruct i as (q & A & B). exfalso. eapply X; eauto.
Qed.
(** two points 4e-7 apart share their print *)
Example C43_nonvacuous : same_print (0, 0, 0)%Q (4 # 10000000, 0, 0)%Q /\ ~ same_print (0, 0, 0)%Q (6 # 10000000, 0, 0)%Q /\
  to_string (-3 # 2) = [Minus; Dig 1; Dot; Dig 5; Dig 0; Dig 0; Dig 0; Dig 0; Dig 0].
Proof.
  split; [|split].
  - apply C43_same_key_iff_same_rounding. vm_compute. reflexivity.
  - intros H. apply C43_same_key_iff_same_rounding in H. vm_compute in H. discriminate.
  - vm_compute. reflexivity.
Qed.
