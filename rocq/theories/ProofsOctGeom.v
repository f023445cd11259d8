(** Geometry of the octree: boxes on an integer grid, separation of far pairs. *)
From Coq Require Import QArith Qabs Qminmax Qround ZArith List Lia Arith Bool Permutation Lqa.
From Verif Require Import ModelOctree ProofsOctTree ProofsOctLevels ProofsOctFacts ProofsOctLists ProofsFmmCover SpecOctree.
Import ListNotations.
Local Open Scope nat_scope.

(** coordinate by axis *)
Definition co (a : nat) (p : pt) : Q := match a with 0 => px p | 1 => py p | _ => pz p end.
Definition bit (a c : nat) : Z :=
  match a with
  | 0 => match c with 1 | 2 | 5 | 6 => 1%Z | _ => 0%Z end
  | 1 => match c with 2 | 3 | 6 | 7 => 1%Z | _ => 0%Z end
  | _ => match c with 4 | 5 | 6 | 7 => 1%Z | _ => 0%Z end
  end.
Lemma bit01 a c : bit a c = 0%Z \/ bit a c = 1%Z.
Proof. destruct a as [|[|a]]; do 8 (destruct c as [|c]; [simpl; auto|]); simpl; auto. Qed.
Lemma bit_inj c c' : c < 8 -> c' < 8 -> (forall a, a < 3 -> bit a c = bit a c') -> c = c'.
Proof.
  intros H H' E. assert (E0 := E 0 ltac:(lia)). assert (E1 := E 1 ltac:(lia)). assert (E2 := E 2 ltac:(lia)).
  do 8 (destruct c as [|c]; [do 8 (destruct c' as [|c']; [simpl in *; try lia; discriminate|]); lia|]). lia.
Qed.
Definition rshift (r : Q -> Q) (z : Z) (x d : Q) : Q := if Z.eqb z 1 then r (x + d)%Q else x.
Lemma child_min_co r m d c a : c < 8 -> co a (child_min r m d c) = rshift r (bit a c) (co a m) d.
Proof. intros H. unfold rshift. destruct a as [|[|a]]; do 8 (destruct c as [|c]; [reflexivity|]); lia. Qed.

Section Geom.
  Variable I : oin.
  Hypothesis W : wf_in I.
  Notation st := (octree I).
  Notation bs := (st_blocks (octree I)).
  Notation B := (getb (st_blocks (octree I))).
  Notation N := (o_N I).

  Definition code (k : nat) : nat := nth (k - hd 0 (b_kids (B (b_parent (B k))))) (cs_of I bs (b_parent (B k))) 0.
  Lemma code_ok k : 0 < k < length bs -> let p := b_parent (B k) in
    code k < 8 /\ exists ks, B k = with_kids (child_block I (S (b_level (B p))) p (b_delta (B p) / 2)%Q (B p) (code k)) ks.
  Proof.
    intros Hk p. assert (HT := F_tree I W). destruct (parent_info I bs HT k Hk) as (A & C). fold p in A, C.
    assert (T3 := proj2 (proj2 (proj2 HT))). destruct (T3 p ltac:(lia)) as [E|(a & A1 & E & D)].
    - rewrite E in C. destruct C.
    - rewrite E in C. apply in_seq in C.
      assert (Hd : hd 0 (b_kids (B p)) = a) by (rewrite E; destruct (length (cs_of I bs p)); [lia|reflexivity]).
      unfold code. fold p. rewrite Hd. destruct (D (k - a) ltac:(lia)) as (_ & ks & F). replace (a + (k - a)) with k in F by lia.
      split; [|exists ks; exact F].
      assert (X : In (nth (k - a) (cs_of I bs p) 0) (cs_of I bs p)) by (apply nth_In; lia). apply cs_of_in in X. tauto.
  Qed.
  Lemma code_inj k k' : 0 < k < length bs -> 0 < k' < length bs -> b_parent (B k) = b_parent (B k') -> code k = code k' -> k = k'.
  Proof.
    intros Hk Hk' E H. assert (HT := F_tree I W). destruct (parent_info I bs HT k Hk) as (A & C). destruct (parent_info I bs HT k' Hk') as (A' & C').
    unfold code in H. rewrite <- E in *. set (p := b_parent (B k)) in *.
    assert (T3 := proj2 (proj2 (proj2 HT))). destruct (T3 p ltac:(lia)) as [E1|(a & A1 & E1 & D)].
    - rewrite E1 in C. destruct C.
    - rewrite E1 in C, C'. apply in_seq in C. apply in_seq in C'.
      assert (Hd : hd 0 (b_kids (B p)) = a) by (rewrite E1; destruct (length (cs_of I bs p)); [lia|reflexivity]).
      rewrite Hd in H. assert (X := proj1 (NoDup_nth (cs_of I bs p) 0) (cs_of_nodup I bs p) (k - a) (k' - a) ltac:(lia) ltac:(lia) H). lia.
  Qed.

  Definition wz (l : nat) : Z := (2 ^ Z.of_nat (N - l))%Z.
  Lemma wz_pos l : (0 < wz l)%Z.
  Proof. unfold wz. apply Z.pow_pos_nonneg; lia. Qed.
  Lemma wz_S l : l < N -> wz l = (2 * wz (S l))%Z.
  Proof. intros H. unfold wz. replace (N - l) with (S (N - S l)) by lia. rewrite Nat2Z.inj_succ, Z.pow_succ_r by lia. reflexivity. Qed.

  Fixpoint Xc (n a k : nat) : Z :=
    match n with 0 => 0%Z | S m => (Xc m a (b_parent (B k)) + bit a (code k) * wz (b_level (B k)))%Z end.
  (** lower corner of block k on the finest grid *)
  Definition X (a k : nat) : Z := Xc (b_level (B k)) a k.
  Definition wid (k : nat) : Z := wz (b_level (B k)).
  Lemma X_0 a : X a 0 = 0%Z.
  Proof. unfold X. rewrite (proj2 (level_pos I bs (F_tree I W) 0 (F_pos I W)) eq_refl). reflexivity. Qed.
  Lemma X_step a k : 0 < k < length bs -> X a k = (X a (b_parent (B k)) + bit a (code k) * wid k)%Z.
  Proof. intros H. unfold X, wid. rewrite (parent_level I bs (F_tree I W) k H) at 1. reflexivity. Qed.
  Lemma wid_parent k : 0 < k < length bs -> wid (b_parent (B k)) = (2 * wid k)%Z.
  Proof.
    intros H. unfold wid. assert (L := parent_level I bs (F_tree I W) k H). assert (Y := F_level_le I W k ltac:(lia)). rewrite L. apply wz_S. lia.
  Qed.
  Lemma X_parent a k : 0 < k < length bs -> (X a (b_parent (B k)) <= X a k /\ X a k + wid k <= X a (b_parent (B k)) + wid (b_parent (B k)))%Z.
  Proof. intros H. rewrite (X_step a k), wid_parent by auto. assert (P := wz_pos (b_level (B k))). fold (wid k) in P. destruct (bit01 a (code k)) as [->| ->]; lia. Qed.

  Lemma X_path a b l : b < length bs -> l <= b_level (B b) ->
    (X a (pathb I b l) <= X a b /\ X a b + wid b <= X a (pathb I b l) + wid (pathb I b l))%Z.
  Proof.
    intros Hb Hl. replace l with (b_level (B b) - (b_level (B b) - l)) by lia.
    assert (Hd : b_level (B b) - l <= b_level (B b)) by lia. revert Hd. generalize (b_level (B b) - l) as n.
    induction n; intros Hn.
    - rewrite Nat.sub_0_r, (path_leaf I W) by auto. lia.
    - specialize (IHn ltac:(lia)). assert (P := path_parent I W b (b_level (B b) - S n) Hb ltac:(lia)).
      replace (S (b_level (B b) - S n)) with (b_level (B b) - n) in P by lia.
      destruct (path_facts I W b (b_level (B b) - n) Hb ltac:(lia)) as (A1 & A2 & _).
      assert (A0 := path_pos I W b (b_level (B b) - n) Hb ltac:(lia)).
      assert (Y := X_parent a (pathb I b (b_level (B b) - n)) ltac:(lia)). rewrite P in Y. lia.
  Qed.
  Lemma X_div a k : k < length bs -> (wid k | X a k)%Z.
  Proof.
    revert k. induction k as [k IH] using lt_wf_ind. intros Hk. destruct (Nat.eq_dec k 0) as [->|Nk].
    - rewrite X_0. apply Z.divide_0_r.
    - rewrite (X_step a k) by lia. destruct (parent_info I bs (F_tree I W) k ltac:(lia)) as (A & _).
      apply Z.divide_add_r; [|apply Z.divide_factor_r]. apply Z.divide_trans with (wid (b_parent (B k))); [|apply IH; lia].
      rewrite wid_parent by lia. apply Z.divide_factor_r.
  Qed.
  Lemma X_root a k : k < length bs -> (0 <= X a k /\ X a k + wid k <= wz 0)%Z.
  Proof.
    intros Hk. assert (Y := X_path a k 0 Hk ltac:(lia)).
    assert (E : pathb I k 0 = 0).
    { destruct (path_facts I W k 0 Hk ltac:(lia)) as (A1 & A2 & _). apply (level_pos I bs (F_tree I W)); auto. }
    rewrite E, X_0 in Y. unfold wid at 2 in Y. rewrite (proj2 (level_pos I bs (F_tree I W) 0 (F_pos I W)) eq_refl) in Y. lia.
  Qed.

  (** cubes of the same level do not overlap *)
  Definition apart (k k' : nat) : Prop := exists a, a < 3 /\ ((X a k + wid k <= X a k')%Z \/ (X a k' + wid k' <= X a k)%Z).
  Lemma same_level_apart k k' : k < length bs -> k' < length bs -> b_level (B k) = b_level (B k') -> k <> k' -> apart k k'.
  Proof.
    assert (HT := F_tree I W). remember (b_level (B k)) as l eqn:El. revert k k' El.
    induction l; intros k k' El Hk Hk' E NE.
    - symmetry in El, E. assert (Z1 := proj1 (level_pos I bs HT k Hk) El). assert (Z2 := proj1 (level_pos I bs HT k' Hk') E). congruence.
    - assert (K0 : 0 < k) by (destruct (Nat.eq_dec k 0) as [->|]; [assert (Z := proj2 (level_pos I bs HT 0 Hk) eq_refl); lia|lia]).
      assert (K1 : 0 < k') by (destruct (Nat.eq_dec k' 0) as [->|]; [assert (Z := proj2 (level_pos I bs HT 0 Hk') eq_refl); lia|lia]).
      assert (L := parent_level I bs HT k ltac:(lia)). assert (L' := parent_level I bs HT k' ltac:(lia)).
      destruct (parent_info I bs HT k ltac:(lia)) as (A & _). destruct (parent_info I bs HT k' ltac:(lia)) as (A' & _).
      assert (Wk : wid k = wid k') by (unfold wid; rewrite <- El, E; reflexivity).
      destruct (Nat.eq_dec (b_parent (B k)) (b_parent (B k'))) as [P|P].
      + destruct (Z.eq_dec (bit 0 (code k)) (bit 0 (code k'))) as [E0|E0]; [destruct (Z.eq_dec (bit 1 (code k)) (bit 1 (code k'))) as [E1|E1]; [destruct (Z.eq_dec (bit 2 (code k)) (bit 2 (code k'))) as [E2|E2]|]|].
        * exfalso. apply NE. apply code_inj; auto; try lia. apply bit_inj; [apply code_ok; lia|apply code_ok; lia|].
          intros a Ha. destruct a as [|[|[|]]]; auto; lia.
        * exists 2. split; [lia|]. rewrite (X_step 2 k), (X_step 2 k') by lia. rewrite P, Wk. destruct (bit01 2 (code k)) as [F|F], (bit01 2 (code k')) as [F'|F']; rewrite F, F' in *; lia.
        * exists 1. split; [lia|]. rewrite (X_step 1 k), (X_step 1 k') by lia. rewrite P, Wk. destruct (bit01 1 (code k)) as [F|F], (bit01 1 (code k')) as [F'|F']; rewrite F, F' in *; lia.
        * exists 0. split; [lia|]. rewrite (X_step 0 k), (X_step 0 k') by lia. rewrite P, Wk. destruct (bit01 0 (code k)) as [F|F], (bit01 0 (code k')) as [F'|F']; rewrite F, F' in *; lia.
      + destruct (IHl (b_parent (B k)) (b_parent (B k')) ltac:(lia) ltac:(lia) ltac:(lia) ltac:(lia) P) as (a & Ha & D).
        exists a. split; auto. assert (Y := X_parent a k ltac:(lia)). assert (Y' := X_parent a k' ltac:(lia)). lia.
  Qed.
  (** members of one frontier do not overlap *)
  Lemma front_apart l k k' : front I l k -> front I l k' -> k <> k' -> apart k k'.
  Proof.
    assert (X1 : forall k k', front I l k -> front I l k' -> b_level (B k) < b_level (B k') -> apart k k').
    { intros x y (Hx & Fx) (Hy & Fy) L. destruct Fx as [Fx|(Fx & Kx)]; [destruct Fy; lia|].
      destruct (path_facts I W y (b_level (B x)) Hy ltac:(lia)) as (A1 & A2 & A3 & _).
      assert (NE : x <> pathb I y (b_level (B x))) by (intros E; apply A3; [lia|]; rewrite <- E; auto).
      destruct (same_level_apart x (pathb I y (b_level (B x))) Hx A1 ltac:(congruence) NE) as (a & Ha & D).
      exists a. split; auto. assert (Y := X_path a y (b_level (B x)) Hy ltac:(lia)). lia. }
    intros F F' NE. destruct (Nat.lt_trichotomy (b_level (B k)) (b_level (B k'))) as [L|[L|L]].
    - apply X1; auto.
    - apply same_level_apart; auto; [apply F|apply F'].
    - destruct (X1 k' k F' F L) as (a & Ha & D). exists a. split; auto. tauto.
  Qed.

  (** ** positions *)
  Definition hgrid : Q := (b_delta (root_block I) / inject_Z (wz 0))%Q.
  Definition rmin (a : nat) : Q := co a (b_min (root_block I)).
  Lemma wz0_ne : ~ (inject_Z (wz 0) == 0)%Q.
  Proof. intros E. assert (P := wz_pos 0). unfold Qeq, inject_Z in E. simpl in E. lia. Qed.
  Lemma root_fields : b_min (B 0) = b_min (root_block I) /\ b_delta (B 0) = b_delta (root_block I).
  Proof. destruct (F_tree I W) as (_ & (k0 & E) & _). rewrite E. auto. Qed.
  Lemma kid_fields k : 0 < k < length bs -> b_min (B k) = child_min (o_rnd I) (b_min (B (b_parent (B k)))) (b_delta (B (b_parent (B k))) / 2)%Q (code k) /\
    b_delta (B k) = (b_delta (B (b_parent (B k))) / 2)%Q.
  Proof.
    intros Hk. destruct (code_ok k Hk) as (_ & ks & E). split; rewrite E at 1; reflexivity.
  Qed.
  Lemma delta_grid k : k < length bs -> (b_delta (B k) == hgrid * inject_Z (wid k))%Q.
  Proof.
    revert k. induction k as [k IH] using lt_wf_ind. intros Hk. destruct (Nat.eq_dec k 0) as [->|Nk].
    - rewrite (proj2 root_fields). unfold wid, hgrid. rewrite (proj2 (level_pos I bs (F_tree I W) 0 Hk) eq_refl). field. apply wz0_ne.
    - destruct (parent_info I bs (F_tree I W) k ltac:(lia)) as (A & _). rewrite (proj2 (kid_fields k ltac:(lia))).
      rewrite (IH (b_parent (B k))) by lia. rewrite wid_parent by lia. rewrite inject_Z_mult. change (inject_Z 2) with 2%Q. field.
  Qed.
  Lemma max_coord_nonneg : (0 <= max_coord I)%Q.
  Proof.
    unfold max_coord. assert (Y : forall l m, (0 <= m)%Q -> (0 <= fold_left (fun m i => let p := o_pos I i in Qmax (Qmax (Qmax m (Qabs (px p))) (Qabs (py p))) (Qabs (pz p))) l m)%Q).
    { induction l as [|x l IHl]; intros m Hm; [exact Hm|]. cbn [fold_left]. apply IHl. cbv zeta.
      eapply Qle_trans; [exact Hm|]. eapply Qle_trans; [apply Q.le_max_l|]. eapply Qle_trans; [apply Q.le_max_l|]. apply Q.le_max_l. }
    apply Y. lra.
  Qed.

  (** ** grid meeting, no rounding involved *)
  Definition gmeet (k k' : nat) : Prop := forall a, a < 3 -> (X a k <= X a k' + wid k' /\ X a k' <= X a k + wid k)%Z.
  Lemma meet_sym k k' : gmeet k k' -> gmeet k' k.
  Proof. intros H a Ha. destruct (H a Ha). split; auto. Qed.
  Lemma meet_parent_l k k' : 0 < k < length bs -> gmeet k k' -> gmeet (b_parent (B k)) k'.
  Proof. intros Hk H a Ha. destruct (H a Ha). destruct (X_parent a k Hk). split; lia. Qed.

  (** the coarser frontier member above j *)
  Lemma front_up l j : 1 <= l -> front I (S l) j -> exists j', front I l j' /\ In j (refine1 bs j') /\ (j' = j \/ (0 < j < length bs /\ j' = b_parent (B j))).
  Proof.
    intros Hl (Hj & F). assert (HT := F_tree I W). destruct (Nat.le_gt_cases (b_level (B j)) l) as [L|L].
    - destruct F as [F|(F & Kj)]; [lia|]. exists j. split; [split; auto; destruct (Nat.eq_dec (b_level (B j)) l); [auto|right; split; auto; lia]|].
      split; auto. unfold refine1. rewrite Kj. left; auto.
    - destruct F as [F|(F & _)]; [|lia].
      assert (J0 : 0 < j) by (destruct (Nat.eq_dec j 0) as [->|]; [assert (Z := proj2 (level_pos I bs HT 0 Hj) eq_refl); lia|lia]).
      assert (Lp := parent_level I bs HT j ltac:(lia)). destruct (parent_info I bs HT j ltac:(lia)) as (A & C).
      exists (b_parent (B j)). split; [split; [lia|left; lia]|]. split; [|auto]. unfold refine1. destruct (b_kids (B (b_parent (B j)))); [destruct C|auto].
  Qed.


  (** ** rounded positions *)
  Variable e : Q.
  Hypothesis RE : rounding_within I e.
  Notation m := (max_coord I).
  Notation r := (o_rnd I).
  Definition NQ : Q := inject_Z (Z.of_nat N).
  Lemma e_nonneg : (0 <= e)%Q. Proof. apply RE. Qed.
  Lemma r_bound x : (- (3 * m + 3) <= x -> x <= 3 * m + 3 -> x - e <= r x /\ r x <= x + e)%Q.
  Proof.
    intros A C. destruct RE as (_ & _ & _ & R). assert (Y := R x ltac:(apply Qabs_Qle_condition; split; auto)).
    apply Qabs_Qle_condition in Y. lra.
  Qed.
  Lemma small_e : (0 <= e /\ 4 * e + 2 * (NQ * e) <= 1 # 1000 /\ 0 <= m /\ e * m + e <= (1 # 20) * m /\ 0 <= e * m)%Q.
  Proof.
    destruct RE as (A & C & D & _). assert (M := max_coord_nonneg). fold NQ in C. repeat split; auto; try lra. apply Qmult_le_0_compat; auto.
  Qed.
  Lemma root_side : (b_delta (root_block I) <= (22 # 10) * m + (1 # 20) * m /\ (22 # 10) * m - (1 # 20) * m <= b_delta (root_block I))%Q.
  Proof.
    destruct small_e as (E0 & _ & M0 & E1 & E2). cbn [root_block b_delta].
    assert (Y := r_bound (22 # 10) ltac:(lra) ltac:(lra)). set (t := r (22 # 10)) in *. clearbody t.
    assert (T1 : ((t - (22 # 10)) * m <= e * m)%Q) by (apply Qmult_le_compat_r; lra).
    assert (T2 : (((22 # 10) - t) * m <= e * m)%Q) by (apply Qmult_le_compat_r; lra).
    assert (Z := r_bound (t * m) ltac:(lra) ltac:(lra)). lra.
  Qed.
  Lemma root_corner a : (rmin a <= - (11 # 10) * m + (1 # 20) * m /\ - (11 # 10) * m - (1 # 20) * m <= rmin a)%Q.
  Proof.
    destruct small_e as (E0 & _ & M0 & E1 & E2). unfold rmin.
    assert (Y := r_bound (11 # 10) ltac:(lra) ltac:(lra)). assert (C : co a (b_min (root_block I)) = r (- r (11 # 10) * m)%Q) by (destruct a as [|[|a]]; reflexivity).
    rewrite C. set (t := r (11 # 10)) in *. clearbody t.
    assert (T1 : ((t - (11 # 10)) * m <= e * m)%Q) by (apply Qmult_le_compat_r; lra).
    assert (T2 : (((11 # 10) - t) * m <= e * m)%Q) by (apply Qmult_le_compat_r; lra).
    assert (Z := r_bound (- t * m) ltac:(lra) ltac:(lra)). lra.
  Qed.
  Lemma hgrid_nonneg : (0 <= hgrid)%Q.
  Proof.
    unfold hgrid. apply Qle_shift_div_l.
    - assert (P := wz_pos 0). unfold Qlt, inject_Z. simpl. lia.
    - assert (P := root_side). assert (M := max_coord_nonneg). lra.
  Qed.
  (** grid coordinate of an integer *)
  Definition gx (a : nat) (z : Z) : Q := (rmin a + hgrid * inject_Z z)%Q.
  Lemma gx_le a x y : (x <= y)%Z -> (gx a x <= gx a y)%Q.
  Proof. intros H. unfold gx. apply Qplus_le_r. rewrite !(Qmult_comm hgrid). apply Qmult_le_compat_r; [rewrite <- Zle_Qle; auto|apply hgrid_nonneg]. Qed.
  Lemma gx_range a z : (0 <= z <= wz 0)%Z -> (- (12 # 10) * m <= gx a z /\ gx a z <= (12 # 10) * m)%Q.
  Proof.
    intros Hz. assert (A := gx_le a 0 z ltac:(lia)). assert (C := gx_le a z (wz 0) ltac:(lia)).
    assert (D := root_corner a). assert (F := root_side). assert (M := max_coord_nonneg).
    assert (E0 : (gx a 0 == rmin a)%Q) by (unfold gx; change (inject_Z 0) with 0%Q; ring).
    assert (E1 : (gx a (wz 0) == rmin a + b_delta (root_block I))%Q) by (unfold gx, hgrid; field; apply wz0_ne).
    rewrite E0 in A. rewrite E1 in C. lra.
  Qed.
  Lemma gx_add a x y : (gx a (x + y) == gx a x + hgrid * inject_Z y)%Q.
  Proof. unfold gx. rewrite inject_Z_plus. ring. Qed.
  Definition lq (k : nat) : Q := (inject_Z (Z.of_nat (b_level (B k))) * e)%Q.
  Lemma lq_le k : k < length bs -> (0 <= lq k /\ lq k <= NQ * e)%Q.
  Proof.
    intros Hk. assert (Y := F_level_le I W k Hk). unfold lq, NQ. assert (E := e_nonneg). split.
    - apply Qmult_le_0_compat; auto. change 0%Q with (inject_Z 0). rewrite <- Zle_Qle. lia.
    - apply Qmult_le_compat_r; auto. rewrite <- Zle_Qle. lia.
  Qed.
  Lemma pos_grid a k : k < length bs -> (gx a (X a k) - lq k <= co a (b_min (B k)) /\ co a (b_min (B k)) <= gx a (X a k) + lq k)%Q.
  Proof.
    revert k. induction k as [k IH] using lt_wf_ind. intros Hk. destruct (Nat.eq_dec k 0) as [->|Nk].
    - rewrite (proj1 root_fields). rewrite X_0. destruct (lq_le 0 Hk). unfold gx, rmin. change (inject_Z 0) with 0%Q. lra.
    - destruct (parent_info I bs (F_tree I W) k ltac:(lia)) as (A & _). destruct (kid_fields k ltac:(lia)) as (E1 & E2). rewrite E1.
      assert (Hc := proj1 (code_ok k ltac:(lia))). rewrite (child_min_co _ _ _ _ a Hc). rewrite <- E2. assert (P := IH (b_parent (B k)) ltac:(lia) ltac:(lia)).
      assert (D := delta_grid k Hk). rewrite (X_step a k) by lia. rewrite gx_add.
      assert (L : (lq k == lq (b_parent (B k)) + e)%Q).
      { unfold lq. rewrite (parent_level I bs (F_tree I W) k) at 1 by lia. rewrite Nat2Z.inj_succ, <- Z.add_1_r, inject_Z_plus. change (inject_Z 1) with 1%Q. ring. }
      assert (Gr := gx_range a (X a k) ltac:(assert (Y := X_root a k Hk); assert (P0 := wz_pos (b_level (B k))); fold (wid k) in P0; lia)).
      assert (Lp := lq_le k Hk). assert (Lk := lq_le (b_parent (B k)) ltac:(lia)). destruct small_e as (S0 & S1 & S2 & S3 & _).
      unfold rshift. destruct (bit01 a (code k)) as [F|F]; rewrite F; cbn [Z.eqb Pos.eqb].
      + change (0 * wid k)%Z with 0%Z. change (inject_Z 0) with 0%Q. lra.
      + rewrite Z.mul_1_l. rewrite (X_step a k), F, Z.mul_1_l, gx_add in Gr by lia. rewrite <- D in *.
        set (u := co a (b_min (B (b_parent (B k))))) in *. set (v := b_delta (B k)) in *. set (g := gx a (X a (b_parent (B k)))) in *.
        assert (R := r_bound (u + v) ltac:(lra) ltac:(lra)). lra.
  Qed.
  (** upper sides of the boxes, exact and as computed by the code *)
  Lemma top_grid a k : k < length bs -> (gx a (X a k + wid k) - lq k <= co a (b_min (B k)) + b_delta (B k) /\ co a (b_min (B k)) + b_delta (B k) <= gx a (X a k + wid k) + lq k)%Q.
  Proof. intros Hk. assert (P := pos_grid a k Hk). rewrite gx_add, <- (delta_grid k Hk). lra. Qed.
  Lemma pmax_grid a k : k < length bs -> (gx a (X a k + wid k) - lq k - e <= co a (pmax r (B k)) /\ co a (pmax r (B k)) <= gx a (X a k + wid k) + lq k + e)%Q.
  Proof.
    intros Hk. assert (P := top_grid a k Hk).
    assert (Gr := gx_range a (X a k + wid k) ltac:(assert (Y := X_root a k Hk); assert (P0 := wz_pos (b_level (B k))); fold (wid k) in P0; lia)).
    assert (Lp := lq_le k Hk). destruct small_e as (S0 & S1 & S2 & S3 & _).
    assert (C : co a (pmax r (B k)) = r (2 * (b_delta (B k) / 2) + co a (b_min (B k)))%Q) by (destruct a as [|[|a]]; reflexivity). rewrite C.
    assert (H2 : (2 * (b_delta (B k) / 2) == b_delta (B k))%Q) by field. set (hh := (2 * (b_delta (B k) / 2))%Q) in *. clearbody hh.
    assert (R := r_bound (hh + co a (b_min (B k))) ltac:(lra) ltac:(lra)). lra.
  Qed.

  (** the tests of the code accept boxes whose grid boxes meet, in spite of rounding *)
  Lemma r_toll : ((1 # 1000) - e <= r toll /\ r toll <= (1 # 1000) + e)%Q.
  Proof. destruct small_e as (S0 & S1 & S2 & S3 & _). apply (r_bound (1 # 1000)); lra. Qed.
  Lemma overlap_true a k k' : k < length bs -> k' < length bs -> (X a k <= X a k' + wid k')%Z -> (X a k' <= X a k + wid k)%Z ->
    overlap r (co a (b_min (B k))) (co a (pmax r (B k))) (co a (b_min (B k'))) (co a (pmax r (B k'))) = true.
  Proof.
    intros Hk Hk' A C. apply (gx_le a) in A. apply (gx_le a) in C.
    assert (P := pos_grid a k Hk). assert (P' := pos_grid a k' Hk'). assert (T := pmax_grid a k Hk). assert (T' := pmax_grid a k' Hk').
    assert (Gr : forall j, j < length bs -> (- (12 # 10) * m <= gx a (X a j) /\ gx a (X a j + wid j) <= (12 # 10) * m)%Q).
    { intros j Hj. assert (Y := X_root a j Hj). assert (P0 := wz_pos (b_level (B j))). fold (wid j) in P0. split; [apply (gx_range a)|apply (gx_range a)]; lia. }
    assert (G1 := Gr k Hk). assert (G2 := Gr k' Hk'). assert (L := lq_le k Hk). assert (L' := lq_le k' Hk'). assert (Tl := r_toll).
    destruct small_e as (S0 & S1 & S2 & S3 & _).
    assert (U : (gx a (X a k) <= gx a (X a k + wid k))%Q) by (apply gx_le; assert (P0 := wz_pos (b_level (B k))); unfold wid; lia).
    assert (U' : (gx a (X a k') <= gx a (X a k' + wid k'))%Q) by (apply gx_le; assert (P0 := wz_pos (b_level (B k'))); unfold wid; lia).
    unfold overlap. apply andb_true_iff. split; apply Qle_bool_iff.
    - assert (R := r_bound (co a (b_min (B k)) - r toll) ltac:(lra) ltac:(lra)). lra.
    - assert (R := r_bound (co a (pmax r (B k)) + r toll) ltac:(lra) ltac:(lra)). lra.
  Qed.
  Lemma near_zero x : (- (2 * (NQ * e) + e) <= x -> x <= 2 * (NQ * e) + e -> Qle_bool (Qabs (r x)) (r toll) = true)%Q.
  Proof.
    intros A C. destruct small_e as (S0 & S1 & S2 & S3 & _). assert (Tl := r_toll).
    assert (0 <= NQ * e)%Q by (destruct (lq_le 0 (F_pos I W)); lra).
    assert (R := r_bound x ltac:(lra) ltac:(lra)). apply Qle_bool_iff. apply Qabs_Qle_condition. split; lra.
  Qed.
  Lemma faces_true2 a k k' : k < length bs -> k' < length bs -> X a k' = (X a k + wid k)%Z ->
    faces_meet r (co a (b_min (B k))) (co a (pmax r (B k))) (co a (b_min (B k'))) (co a (pmax r (B k'))) = true.
  Proof.
    intros Hk Hk' E. unfold faces_meet. apply orb_true_iff. right. assert (P := pos_grid a k' Hk'). assert (T := pmax_grid a k Hk). rewrite <- E in T.
    assert (L := lq_le k Hk). assert (L' := lq_le k' Hk'). apply near_zero; lra.
  Qed.
  Lemma faces_true1 a k k' : k < length bs -> k' < length bs -> X a k = (X a k' + wid k')%Z ->
    faces_meet r (co a (b_min (B k))) (co a (pmax r (B k))) (co a (b_min (B k'))) (co a (pmax r (B k'))) = true.
  Proof.
    intros Hk Hk' E. unfold faces_meet. apply orb_true_iff. left. assert (P := pos_grid a k Hk). assert (T := pmax_grid a k' Hk'). rewrite <- E in T.
    assert (L := lq_le k Hk). assert (L' := lq_le k' Hk'). apply near_zero; lra.
  Qed.
  Lemma meet_touches l k k' : front I l k -> front I l k' -> k <> k' -> gmeet k k' -> touches r (B k) (B k') = true.
  Proof.
    intros F F' NE H. assert (Hk := proj1 F). assert (Hk' := proj1 F').
    assert (Fm : exists a, a < 3 /\ faces_meet r (co a (b_min (B k))) (co a (pmax r (B k))) (co a (b_min (B k'))) (co a (pmax r (B k'))) = true).
    { destruct (front_apart l k k' F F' NE) as (a & Ha & D). exists a. split; auto. destruct (H a Ha) as (M1 & M2). destruct D as [D|D].
      - apply faces_true2; auto. lia.
      - apply faces_true1; auto. lia. }
    assert (Ov : forall a, a < 3 -> overlap r (co a (b_min (B k))) (co a (pmax r (B k))) (co a (b_min (B k'))) (co a (pmax r (B k'))) = true).
    { intros a Ha. destruct (H a Ha). apply overlap_true; auto. }
    assert (O0 := Ov 0 ltac:(lia)). assert (O1 := Ov 1 ltac:(lia)). assert (O2 := Ov 2 ltac:(lia)). cbn [co] in O0, O1, O2.
    unfold touches. rewrite O0, O1, O2. cbn [andb]. rewrite !andb_true_r.
    destruct Fm as (a & Ha & Fm). destruct a as [|[|[|]]]; try lia; cbn [co] in Fm; rewrite Fm; cbn [orb]; auto; rewrite ?orb_true_r; auto.
  Qed.

  (** everything that touches a block is in its near list *)
  Lemma meet_near k s j : 0 < k < length bs -> s < near_levels I st k -> front I (b_level (B k) + s) j -> gmeet k j -> In j (near I st k s).
  Proof.
    revert s j. induction k as [k IH] using lt_wf_ind. intros s j Hk Hs F M.
    destruct (Nat.eq_dec (b_level (B k)) 1) as [L1|L1].
    - rewrite (near_levels_eq I W), L1 in Hs by auto. simpl in Hs. assert (s = 0) by lia. subst. rewrite (near_1 I W) by auto.
      apply (lvl1_front I W). rewrite L1 in F. exact F.
    - destruct (parent_ok I W k Hk L1) as (P1 & P2 & P3 & P4). revert j F M. induction s; intros j F M.
      + rewrite (near_0 I W) by auto. apply near0_in. destruct (Nat.eq_dec j k) as [->|NE]; [auto|right].
        rewrite Nat.add_0_r in F. replace (b_level (B k)) with (S (b_level (B k) - 1)) in F by lia.
        destruct (front_up (b_level (B k) - 1) j ltac:(lia) F) as (j' & F' & R & C).
        exists j'. split; [|split; auto].
        * apply (IH (b_parent (B k))); auto; try lia; [apply (near_levels_pos I W); lia|rewrite P2, Nat.add_0_r; auto|].
          apply meet_parent_l; auto. destruct C as [->|(J0 & ->)]; auto. apply meet_sym. apply meet_parent_l; auto. apply meet_sym; auto.
        * apply (meet_touches (b_level (B k))); auto; [split; [lia|auto]|]. replace (b_level (B k)) with (S (b_level (B k) - 1)) by lia. auto.
      + rewrite (near_S I W) by auto. apply near_next_in. rewrite Nat.add_succ_r in F.
        destruct (front_up (b_level (B k) + s) j ltac:(lia) F) as (j' & F' & R & C).
        exists j'. split.
        * apply IHs; auto; [lia|]. destruct C as [->|(J0 & ->)]; auto. apply meet_sym. apply meet_parent_l; auto. apply meet_sym; auto.
        * unfold refine1 in R. destruct (b_kids (B j')) as [|x r] eqn:Kj; [left; split; auto; destruct R as [|[]]; auto|].
          right. split; auto. destruct (near_levels_front I W k (S s) Hk Hs) as (Fk & _).
          apply (meet_touches (b_level (B k) + S s)); auto.
          -- rewrite Nat.add_succ_r; auto.
          -- intros <-. assert (Kk : b_kids (B k) = []) by (destruct Fk as (_ & [Fk|(_ & Fk)]); [lia|auto]).
             destruct C as [->|(J0 & ->)]; [congruence|].
             assert (Y := parent_level I bs (F_tree I W) k J0).
             destruct F' as (_ & [F'|(F' & K')]); [lia|congruence].
  Qed.

  (** far pairs have disjoint boxes *)
  Lemma far_apart k s j : 0 < k < length bs -> s < near_levels I st k -> In j (nonint_list I st k s) -> ~ gmeet k j.
  Proof.
    intros Hk Hs Hj M. destruct (Nat.eq_dec (b_level (B k)) 1) as [L1|L1]; [rewrite nonint_1 in Hj by auto; destruct Hj|].
    assert (F := nonint_front I W k s j Hk L1 Hs Hj). apply (nonint_in I) in Hj; auto. destruct Hj as (_ & Hj). apply Hj.
    apply (near_in_int I W); auto. apply meet_near; auto.
  Qed.

  (** distance: at least one side of the smaller of the two boxes, up to rounding *)
  Lemma far_gap k s j : 0 < k < length bs -> s < near_levels I st k -> In j (nonint_list I st k s) ->
    exists a, a < 3 /\ (co a (b_min (B k)) + b_delta (B k) + (Qmin (b_delta (B k)) (b_delta (B j)) - 2 * (NQ * e)) <= co a (b_min (B j)) \/
                        co a (b_min (B j)) + b_delta (B j) + (Qmin (b_delta (B k)) (b_delta (B j)) - 2 * (NQ * e)) <= co a (b_min (B k)))%Q.
  Proof.
    intros Hk Hs Hj. assert (NM := far_apart k s j Hk Hs Hj).
    assert (Hjl : j < length bs).
    { destruct (Nat.eq_dec (b_level (B k)) 1) as [L1|L1]; [rewrite nonint_1 in Hj by auto; destruct Hj|]. apply (nonint_front I W k s j Hk L1 Hs Hj). }
    assert (Ex : exists a, a < 3 /\ ((X a k + wid k < X a j)%Z \/ (X a j + wid j < X a k)%Z)).
    { assert (Dc : forall a, {(X a k + wid k < X a j)%Z \/ (X a j + wid j < X a k)%Z} + {~ ((X a k + wid k < X a j)%Z \/ (X a j + wid j < X a k)%Z)}).
      { intros a. destruct (Z_lt_dec (X a k + wid k) (X a j)); [left; auto|]. destruct (Z_lt_dec (X a j + wid j) (X a k)); [left; auto|right; tauto]. }
      destruct (Dc 0) as [D|D0]; [exists 0; auto|]. destruct (Dc 1) as [D|D1]; [exists 1; auto|]. destruct (Dc 2) as [D|D2]; [exists 2; auto|].
      exfalso. apply NM. intros a Ha. assert (D : ~ ((X a k + wid k < X a j)%Z \/ (X a j + wid j < X a k)%Z)) by (destruct a as [|[|[|]]]; auto; lia). lia. }
    assert (Dv : exists w, w = Z.min (wid k) (wid j) /\ (w | wid k)%Z /\ (w | wid j)%Z /\ (0 < w)%Z).
    { assert (Dd : forall l l', l <= l' <= N -> (wz l' | wz l)%Z).
      { intros l l' Hl. unfold wz. replace (N - l) with ((N - l') + (l' - l)) by lia. rewrite Nat2Z.inj_add, Z.pow_add_r by lia. apply Z.divide_factor_l. }
      assert (Lk := F_level_le I W k ltac:(lia)). assert (Lj := F_level_le I W j ltac:(lia)).
      assert (Wk := wz_pos (b_level (B k))). assert (Wj := wz_pos (b_level (B j))). fold (wid k) in Wk. fold (wid j) in Wj.
      exists (Z.min (wid k) (wid j)). split; auto. destruct (Nat.le_ge_cases (b_level (B k)) (b_level (B j))) as [Le|Le].
      - assert (Y := Dd _ _ (conj Le Lj)). fold (wid k) (wid j) in Y. assert (Z.min (wid k) (wid j) = wid j) as ->; [|repeat split; auto; apply Z.divide_refl].
        apply Z.min_r. apply Z.divide_pos_le; auto.
      - assert (Y := Dd _ _ (conj Le Lk)). fold (wid k) (wid j) in Y. assert (Z.min (wid k) (wid j) = wid k) as ->; [|repeat split; auto; apply Z.divide_refl].
        apply Z.min_l. apply Z.divide_pos_le; auto. }
    destruct Dv as (w & Ew & D1 & D2 & Wp).
    assert (Gap : forall a, (X a k + wid k < X a j -> X a k + wid k + w <= X a j)%Z /\ (X a j + wid j < X a k -> X a j + wid j + w <= X a k)%Z).
    { intros a. assert (Xk : (w | X a k)%Z) by (apply Z.divide_trans with (wid k); auto; apply X_div; lia).
      assert (Xj : (w | X a j)%Z) by (apply Z.divide_trans with (wid j); auto; apply X_div; lia).
      destruct D1 as (z1 & Z1), D2 as (z2 & Z2), Xk as (z3 & Z3), Xj as (z4 & Z4). rewrite Z1, Z2, Z3, Z4. split; intros H.
      - assert (z3 + z1 < z4)%Z by nia. nia.
      - assert (z4 + z2 < z3)%Z by nia. nia. }
    assert (Qm : (Qmin (b_delta (B k)) (b_delta (B j)) <= hgrid * inject_Z w)%Q).
    { rewrite Ew. destruct (Z.min_spec (wid k) (wid j)) as [(_ & ->)|(_ & ->)]; rewrite <- delta_grid by lia; [apply Q.le_min_l|apply Q.le_min_r]. }
    destruct Ex as (a & Ha & D). exists a. split; auto. destruct (Gap a) as (G1 & G2).
    assert (L := lq_le k ltac:(lia)). assert (L' := lq_le j Hjl). destruct D as [D|D]; [left; apply G1 in D|right; apply G2 in D].
    - assert (T := top_grid a k ltac:(lia)). assert (P := pos_grid a j Hjl). apply (gx_le a) in D. rewrite gx_add in D. lra.
    - assert (T := top_grid a j ltac:(lia)). assert (P := pos_grid a k ltac:(lia)). apply (gx_le a) in D. rewrite gx_add in D. lra.
  Qed.
  Lemma front_disjoint l k k' : front I l k -> front I l k' -> k <> k' ->
    exists a, a < 3 /\ (co a (b_min (B k)) + b_delta (B k) - 2 * (NQ * e) <= co a (b_min (B k')) \/
                        co a (b_min (B k')) + b_delta (B k') - 2 * (NQ * e) <= co a (b_min (B k)))%Q.
  Proof.
    intros F F' NE. destruct (front_apart l k k' F F' NE) as (a & Ha & D). exists a. split; auto. assert (Hk := proj1 F). assert (Hk' := proj1 F').
    assert (L := lq_le k Hk). assert (L' := lq_le k' Hk').
    assert (T := top_grid a k Hk). assert (T' := top_grid a k' Hk'). assert (P := pos_grid a k Hk). assert (P' := pos_grid a k' Hk').
    destruct D as [D|D]; [left|right]; apply (gx_le a) in D; lra.
  Qed.

  (** ** points in boxes (C33) *)
  Lemma delta_nonneg k : k < length bs -> (0 <= b_delta (B k))%Q.
  Proof.
    intros Hk. rewrite delta_grid by lia. assert (P := hgrid_nonneg). assert (Wp := wz_pos (b_level (B k))). apply Qmult_le_0_compat; auto. fold (wid k) in Wp.
    change 0%Q with (inject_Z 0). rewrite <- Zle_Qle. lia.
  Qed.
  (** the side of the threshold of axis [a] a point falls on *)
  Lemma octant_bit (rr : Q -> Q) mm d p a : a < 3 -> (bit a (octant rr mm d p) = 0%Z /\ co a p <= rr (co a mm + d) \/ bit a (octant rr mm d p) = 1%Z /\ rr (co a mm + d) < co a p)%Q.
  Proof.
    intros Ha. unfold octant.
    destruct (Qle_bool (pz p) (rr (pz mm + d)%Q)) eqn:Ez; [apply Qle_bool_iff in Ez|assert (Ez' : ~ (pz p <= rr (pz mm + d))%Q) by (rewrite <- Qle_bool_iff; congruence); apply Qnot_le_lt in Ez'];
    (destruct (Qle_bool (py p) (rr (py mm + d)%Q)) eqn:Ey; [apply Qle_bool_iff in Ey|assert (Ey' : ~ (py p <= rr (py mm + d))%Q) by (rewrite <- Qle_bool_iff; congruence); apply Qnot_le_lt in Ey']);
    (destruct (Qle_bool (px p) (rr (px mm + d)%Q)) eqn:Exx; [apply Qle_bool_iff in Exx|assert (Ex' : ~ (px p <= rr (px mm + d))%Q) by (rewrite <- Qle_bool_iff; congruence); apply Qnot_le_lt in Ex']);
    destruct a as [|[|[|]]]; try lia; cbn [co bit]; tauto.
  Qed.
  Lemma kid_in_box p k : 0 < k < length bs -> inside_within (lq (b_parent (B k))) p (B (b_parent (B k))) ->
    octant r (b_min (B (b_parent (B k)))) (b_delta (B k)) p = code k -> inside_within (lq k) p (B k).
  Proof.
    intros Hk H E. destruct (kid_fields k Hk) as (E1 & E2). assert (Dn := delta_nonneg k ltac:(lia)).
    assert (L : (lq k == lq (b_parent (B k)) + e)%Q).
    { unfold lq. rewrite (parent_level I bs (F_tree I W) k) at 1 by lia. rewrite Nat2Z.inj_succ, <- Z.add_1_r, inject_Z_plus. change (inject_Z 1) with 1%Q. ring. }
    destruct (parent_info I bs (F_tree I W) k ltac:(lia)) as (A & _). assert (Lp := lq_le (b_parent (B k)) ltac:(lia)).
    intros a Ha. destruct (H a Ha) as (Y1 & Y2). change (axis a) with (co a) in *. assert (Pp := pos_grid a (b_parent (B k)) ltac:(lia)).
    assert (Gr := gx_range a (X a (b_parent (B k))) ltac:(assert (Y := X_root a (b_parent (B k)) ltac:(lia)); assert (P0 := wz_pos (b_level (B (b_parent (B k))))); fold (wid (b_parent (B k))) in P0; lia)).
    assert (Gr' := gx_range a (X a (b_parent (B k)) + wid (b_parent (B k))) ltac:(assert (Y := X_root a (b_parent (B k)) ltac:(lia)); assert (P0 := wz_pos (b_level (B (b_parent (B k))))); fold (wid (b_parent (B k))) in P0; lia)).
    rewrite gx_add, <- (delta_grid (b_parent (B k)) ltac:(lia)) in Gr'.
    assert (Db : (b_delta (B (b_parent (B k))) == 2 * b_delta (B k))%Q) by (rewrite E2 at 1; field). rewrite Db in Y2, Gr'.
    assert (Ob := octant_bit r (b_min (B (b_parent (B k)))) (b_delta (B k)) p a Ha). rewrite E in Ob.
    assert (Hc := proj1 (code_ok k ltac:(lia))). rewrite E1. rewrite (child_min_co _ _ _ _ a Hc). rewrite <- E2. unfold rshift.
    set (u := co a (b_min (B (b_parent (B k))))) in *. set (v := b_delta (B k)) in *. set (g := gx a (X a (b_parent (B k)))) in *.
    destruct small_e as (S0 & S1 & S2 & S3 & _). assert (R := r_bound (u + v) ltac:(lra) ltac:(lra)).
    destruct Ob as [(F & Ob)|(F & Ob)]; rewrite F; cbn [Z.eqb Pos.eqb]; lra.
  Qed.
  Lemma root_inside p : inside p (root_block I) -> inside_within (lq 0) p (B 0).
  Proof.
    intros H a Ha. destruct (H a Ha) as (Y1 & Y2). destruct root_fields as (E1 & E2). rewrite E1, E2. assert (L := lq_le 0 (F_pos I W)). lra.
  Qed.
  Lemma quads_in_box k q : k < length bs -> (forall q, q < o_nq I -> inside (o_qpos I q) (root_block I)) -> In q (b_quads (B k)) -> inside_within (lq k) (o_qpos I q) (B k).
  Proof.
    intros Hk HR. revert k Hk. induction k as [k IH] using lt_wf_ind. intros Hk Hq. destruct (Nat.eq_dec k 0) as [->|Nk].
    - apply root_inside. apply HR. exact (quad_bound I W 0 q Hk Hq).
    - destruct (parent_info I bs (F_tree I W) k ltac:(lia)) as (A & _). apply kid_in_box; [lia|apply IH; try lia; apply (quads_parent I bs (F_tree I W)); auto; lia|].
      destruct (code_ok k ltac:(lia)) as (_ & ks & E). rewrite (proj2 (kid_fields k ltac:(lia))). rewrite E in Hq. simpl in Hq. apply filter_In in Hq. destruct Hq as (_ & Hq). apply Nat.eqb_eq in Hq. exact Hq.
  Qed.
  Lemma nodes_in_box k q : k < length bs -> (forall q, q < o_nd I -> inside (o_pos I q) (root_block I)) -> In q (b_nodes (B k)) -> inside_within (lq k) (o_pos I q) (B k).
  Proof.
    intros Hk HR. revert k Hk. induction k as [k IH] using lt_wf_ind. intros Hk Hq. destruct (Nat.eq_dec k 0) as [->|Nk].
    - apply root_inside. apply HR. exact (node_bound I W 0 q Hk Hq).
    - destruct (parent_info I bs (F_tree I W) k ltac:(lia)) as (A & _). apply kid_in_box; [lia|apply IH; try lia; apply (nodes_parent I bs (F_tree I W)); auto; lia|].
      destruct (code_ok k ltac:(lia)) as (_ & ks & E). rewrite (proj2 (kid_fields k ltac:(lia))). rewrite E in Hq. simpl in Hq. apply filter_In in Hq. destruct Hq as (_ & Hq). apply Nat.eqb_eq in Hq. exact Hq.
  Qed.
  Lemma nodes_in_root d : d < o_nd I -> inside (o_pos I d) (root_block I).
  Proof.
    intros Hd. assert (M : forall l m, In d l -> (0 <= m)%Q -> let rr := fold_left (fun m i => let p := o_pos I i in Qmax (Qmax (Qmax m (Qabs (px p))) (Qabs (py p))) (Qabs (pz p))) l m in
        (m <= rr /\ Qabs (px (o_pos I d)) <= rr /\ Qabs (py (o_pos I d)) <= rr /\ Qabs (pz (o_pos I d)) <= rr)%Q).
    { assert (Mono : forall l m, (m <= fold_left (fun m i => let p := o_pos I i in Qmax (Qmax (Qmax m (Qabs (px p))) (Qabs (py p))) (Qabs (pz p))) l m)%Q).
      { induction l as [|x l IHl]; intros m; [apply Qle_refl|]. cbn [fold_left]. eapply Qle_trans; [|apply IHl]. cbv zeta.
        eapply Qle_trans; [apply Q.le_max_l|]. eapply Qle_trans; [apply Q.le_max_l|]. apply Q.le_max_l. }
      induction l as [|x l IHl]; intros m Hin Hm; [destruct Hin|]. split; [apply Mono|]. cbn [fold_left]. destruct Hin as [->|Hin].
      - set (m1 := let p := o_pos I d in Qmax (Qmax (Qmax m (Qabs (px p))) (Qabs (py p))) (Qabs (pz p))).
        assert (Y := Mono l m1). assert (A1 : (Qabs (px (o_pos I d)) <= m1)%Q) by (unfold m1; cbv zeta; eapply Qle_trans; [apply Q.le_max_r|]; eapply Qle_trans; [apply Q.le_max_l|]; apply Q.le_max_l).
        assert (A2 : (Qabs (py (o_pos I d)) <= m1)%Q) by (unfold m1; cbv zeta; eapply Qle_trans; [apply Q.le_max_r|]; apply Q.le_max_l).
        assert (A3 : (Qabs (pz (o_pos I d)) <= m1)%Q) by (unfold m1; cbv zeta; apply Q.le_max_r). repeat split; eapply Qle_trans; eauto.
      - apply IHl; auto. cbv zeta. eapply Qle_trans; [exact Hm|]. eapply Qle_trans; [apply Q.le_max_l|]. eapply Qle_trans; [apply Q.le_max_l|]. apply Q.le_max_l. }
    destruct (M (seq 0 (o_nd I)) 0%Q ltac:(apply in_seq; lia) ltac:(lra)) as (_ & M1 & M2 & M3). fold (max_coord I) in M1, M2, M3.
    intros a Ha. change (axis a) with (co a).
    assert (Ab : (Qabs (co a (o_pos I d)) <= max_coord I)%Q) by (destruct a as [|[|[|]]]; cbn [co]; auto; lia).
    apply Qabs_Qle_condition in Ab. assert (C := root_corner a). unfold rmin in C. assert (D := root_side). assert (P := max_coord_nonneg). lra.
  Qed.
End Geom.
