(** Far field: multipole and local expansions with linear operators. *)
From Coq Require Import Reals List Lia Lra Arith Bool Permutation.
From Verif Require Import ModelOctree ModelFmm SpecFmm LibSum ProofsOctTree ProofsOctLevels ProofsOctFacts ProofsOctLists ProofsFmmCover ProofsFmmDirect.
Import ListNotations.
Local Open Scope nat_scope.

Lemma lin_zero F : lin F -> F (fun _ => 0%R) = 0%R.
Proof.
  intros (E & A & M). rewrite (E (fun _ => 0%R) (fun k => 0 * 0)%R) by (intros; lra). rewrite (M 0%R (fun _ => 0%R)). lra.
Qed.
Lemma lin_sum F {T} (l : list T) (a : T -> R) (v : T -> coefs) u : lin F ->
  (forall k, u k = suml l (fun x => a x * v x k)%R) -> F u = suml l (fun x => a x * F (v x))%R.
Proof.
  intros HF. revert u. induction l as [|x l IH]; intros u H.
  - simpl. rewrite <- (lin_zero F HF). apply HF. exact H.
  - destruct HF as (E & A & M). rewrite (E u (fun k => a x * v x k + suml l (fun y => a y * v y k))%R) by exact H.
    rewrite (A (fun k => a x * v x k)%R), M. rewrite (IH (fun k => suml l (fun y => a y * v y k))%R) by reflexivity. reflexivity.
Qed.
Lemma lin_sum1 F {T} (l : list T) (v : T -> coefs) u : lin F -> (forall k, u k = suml l (fun x => v x k)) -> F u = suml l (fun x => F (v x)).
Proof.
  intros HF H. rewrite (lin_sum F l (fun _ => 1%R) v u HF).
  - apply suml_ext. intros. lra.
  - intros k. rewrite H. apply suml_ext. intros. lra.
Qed.
Lemma lin_comp F T : lin F -> lin_op T -> lin (fun u => F (T u)).
Proof.
  intros (E & A & M) HT. split; [|split].
  - intros u v H. apply E. intros k. apply (HT k); auto.
  - intros u v. rewrite <- A. apply E. intros k. apply (HT k).
  - intros a u. rewrite <- M. apply E. intros k. apply (HT k).
Qed.

Lemma fold_upd {T} (f : nat -> T -> T) l (M0 : nat -> T) x : NoDup l ->
  fold_left (fun M b => upd M b (f b (M b))) l M0 x = if mem x l then f x (M0 x) else M0 x.
Proof.
  revert M0; induction l as [|a l IH]; intros M0 ND; [reflexivity|]. inversion ND; subst. cbn [fold_left]. rewrite IH by auto.
  unfold upd. unfold mem. cbn [existsb]. fold (mem x l). destruct (Nat.eqb_spec x a) as [->|NE]; cbn [orb].
  - apply mem_false in H1. rewrite H1. auto.
  - destruct (mem x l); auto.
Qed.

Section Far.
  Variable I : oin.
  Hypothesis W : wf_in I.
  Notation st := (octree I).
  Notation bs := (st_blocks (octree I)).
  Notation B := (getb (st_blocks (octree I))).
  Notation N := (o_N I).
  Notation lv := (fun x => b_level (getb (st_blocks (octree I)) x)).
  Variable G : geo.
  Hypothesis HG : geo_lin G.
  Variable K : kern.
  Variable phi : nat -> R.
  Notation E := (lin_eops G).
  Notation den := (density I K phi).

  (** ** ancestors *)
  Lemma anc_path b n : b < length bs -> n <= b_level (B b) -> anc bs b n = pathb I b (b_level (B b) - n).
  Proof.
    intros Hb. induction n; intros Hn.
    - rewrite Nat.sub_0_r. symmetry. apply (path_leaf I W); auto.
    - cbn [anc]. rewrite IHn by lia. replace (b_level (B b) - n) with (S (b_level (B b) - S n)) by lia.
      apply (path_parent I W); auto. lia.
  Qed.
  Definition leafq (q : nat) : nat := qb I q N.
  Lemma level_N_leaf b : b < length bs -> b_level (B b) = N -> b_kids (B b) = [].
  Proof.
    intros Hb H. destruct (b_kids (B b)) as [|k r] eqn:E0; auto. exfalso.
    destruct (kid_info I bs (F_tree I W) b k Hb) as (A & _ & C & _); [rewrite E0; left; auto|].
    assert (X := F_level_le I W k ltac:(lia)). lia.
  Qed.
  Lemma leafq_facts q : q < o_nq I -> In (leafq q) (st_childless st) /\ In q (b_quads (B (leafq q))).
  Proof.
    intros Hq. destruct (qb_front I W q N Hq ltac:(lia)) as ((A & C) & D). split; auto. apply (F_leaf I W); auto.
    destruct C as [C|(_ & C)]; auto. apply level_N_leaf; auto.
  Qed.
  Lemma leafq_unique q b : In b (st_childless st) -> In q (b_quads (B b)) -> leafq q = b.
  Proof.
    intros Hb Hq. assert (Hl := F_cl I W b Hb). assert (Hn := quad_bound I W b q Hl Hq). destruct (leafq_facts q Hn) as (A & C).
    assert (K1 := proj2 (F_leaf I W b Hl) Hb). assert (K2 := proj2 (F_leaf I W (leafq q) (F_cl I W _ A)) A).
    apply (quads_leaf_unique I bs (F_tree I W) _ _ q); auto. apply (F_cl I W); auto.
  Qed.
  Lemma quad_path q x : x < length bs -> In q (b_quads (B x)) ->
    b_level (B x) <= b_level (B (leafq q)) /\ x = pathb I (leafq q) (b_level (B x)).
  Proof.
    intros Hx Hq. assert (Hn := quad_bound I W x q Hx Hq). destruct (leafq_facts q Hn) as (A & C). assert (Hl := F_cl I W _ A).
    assert (HT := F_tree I W).
    destruct (Nat.le_gt_cases (b_level (B x)) (b_level (B (leafq q)))) as [L|L].
    - split; auto. destruct (path_facts I W (leafq q) (b_level (B x)) Hl L) as (A1 & A2 & _ & _ & A5).
      apply (quads_same_level I bs HT _ _ q); auto.
    - exfalso. destruct (anc_nth I W x (b_level (B (leafq q))) Hx L) as (A1 & A2 & A3 & A4 & _).
      assert (leafq q = nth (b_level (B (leafq q))) (ancestors bs x) 0) by (apply (quads_same_level I bs HT _ _ q); auto).
      apply A3. rewrite <- H. apply (F_leaf I W); auto.
  Qed.

  (** coefficients of a unit source seen from block c *)
  Definition momv (c q : nat) : coefs := carry_up G bs q (leafq q) (b_level (B (leafq q)) - b_level (B c)).
  Lemma mom_leaf c q : In c (st_childless st) -> In q (b_quads (B c)) -> momv c q = gS G c q.
  Proof. intros Hc Hq. unfold momv. rewrite (leafq_unique q c Hc Hq), Nat.sub_diag. reflexivity. Qed.
  Lemma mom_step p k q : 0 < k < length bs -> b_parent (B k) = p -> In q (b_quads (B k)) -> momv p q = gMM G p k (momv k q).
  Proof.
    intros Hk Hp Hq. assert (HT := F_tree I W). assert (L := parent_level I bs HT k Hk). rewrite Hp in L.
    destruct (parent_info I bs HT k Hk) as (A & _). rewrite Hp in A.
    assert (Hqp : In q (b_quads (B p))) by (rewrite <- Hp; apply (quads_parent I bs HT); auto).
    assert (Hn := quad_bound I W k q ltac:(lia) Hq). assert (Hl := F_cl I W _ (proj1 (leafq_facts q Hn))).
    destruct (quad_path q k ltac:(lia) Hq) as (K1 & K2). destruct (quad_path q p ltac:(lia) Hqp) as (P1 & P2).
    unfold momv. replace (b_level (B (leafq q)) - b_level (B p)) with (S (b_level (B (leafq q)) - b_level (B k))) by lia.
    cbn [carry_up]. rewrite !anc_path by (auto; lia).
    replace (b_level (B (leafq q)) - (b_level (B (leafq q)) - b_level (B k))) with (b_level (B k)) by lia.
    replace (b_level (B (leafq q)) - S (b_level (B (leafq q)) - b_level (B k))) with (b_level (B p)) by lia.
    rewrite <- K2, <- P2. reflexivity.
  Qed.

  (** ** leaf expansions *)
  Lemma elem_val b c j : fst (elem_exp E I st K b c j) = b /\
    forall k, snd (elem_exp E I st K b c j) k = suml (cell_quads I (b_quads (B b)) c) (fun q => shp K q j * jxw K q / 4 / PI * gS G b q k)%R.
  Proof.
    unfold elem_exp. generalize (cell_quads I (b_quads (B b)) c). intros l.
    assert (X : forall m, fst m = b -> fst (fold_left (fun m q => msrc E m (shp K q j * jxw K q / 4 / PI)%R q) l m) = b /\
      forall k, snd (fold_left (fun m q => msrc E m (shp K q j * jxw K q / 4 / PI)%R q) l m) k = (snd m k + suml l (fun q => shp K q j * jxw K q / 4 / PI * gS G b q k))%R).
    { induction l as [|q l IH]; intros m Hm; [split; auto; intros; simpl; lra|]. cbn [fold_left].
      destruct (IH (msrc E m (shp K q j * jxw K q / 4 / PI)%R q) Hm) as (A & C). split; auto.
      intros k. rewrite C. cbn [msrc lin_eops snd]. rewrite Hm. simpl. lra. }
    destruct (X (mz E b) eq_refl) as (A & C). split; auto. intros k. rewrite C. cbn [mz lin_eops snd]. lra.
  Qed.
  Lemma leaf_val b m : fst (leaf_exp E I st K phi b m) = fst m /\
    forall k, snd (leaf_exp E I st K phi b m) k = (snd m k + suml (b_quads (B b)) (fun q => den q / 4 / PI * gS G b q k))%R.
  Proof.
    unfold leaf_exp.
    assert (X1 : forall c (l : list (nat * nat)) m, fst (fold_left (fun m jd => maddc E m (elem_exp E I st K b c (fst jd)) (phi (snd jd))) l m) = fst m /\
      forall k, snd (fold_left (fun m jd => maddc E m (elem_exp E I st K b c (fst jd)) (phi (snd jd))) l m) k =
        (snd m k + suml l (fun jd => phi (snd jd) * snd (elem_exp E I st K b c (fst jd)) k))%R).
    { intros c l. induction l as [|a l IH]; intros m0; [split; auto; intros; simpl; lra|]. cbn [fold_left].
      destruct (IH (maddc E m0 (elem_exp E I st K b c (fst a)) (phi (snd a)))) as (A & C). split; [exact A|].
      intros k. rewrite C. change (suml (a :: l) ?f) with (f a + suml l f)%R. cbv beta. change (snd (maddc E m0 ?x ?y) k) with (snd m0 k + y * snd x k)%R. lra. }
    assert (X2 : forall L m, fst (fold_left (fun m c => fold_left (fun m jd => maddc E m (elem_exp E I st K b c (fst jd)) (phi (snd jd))) (dof_list I c) m) L m) = fst m /\
      forall k, snd (fold_left (fun m c => fold_left (fun m jd => maddc E m (elem_exp E I st K b c (fst jd)) (phi (snd jd))) (dof_list I c) m) L m) k =
        (snd m k + suml L (fun c => suml (dof_list I c) (fun jd => phi (snd jd) * snd (elem_exp E I st K b c (fst jd)) k)))%R).
    { induction L as [|c L IH]; intros m0; [split; auto; intros; simpl; lra|]. cbn [fold_left].
      destruct (X1 c (dof_list I c) m0) as (A1 & C1).
      destruct (IH (fold_left (fun m jd => maddc E m (elem_exp E I st K b c (fst jd)) (phi (snd jd))) (dof_list I c) m0)) as (A & C).
      split; [rewrite A; exact A1|]. intros k. rewrite C, C1. change (suml (c :: L) ?f) with (f c + suml L f)%R. cbv beta. lra. }
    destruct (X2 (cells_in I (b_quads (B b))) m) as (A & C). split; [exact A|]. intros k.
    etransitivity; [apply C|]. f_equal.
    rewrite <- (suml_nub_part (cell_of I) (b_quads (B b))). apply suml_ext. intros c _.
    rewrite (suml_ext (dof_list I c) _ (fun jd => suml (cell_quads I (b_quads (B b)) c) (fun q => shp K q (fst jd) * jxw K q * phi (snd jd) * (/ 4 / PI * gS G b q k)))%R).
    2:{ intros jd _. rewrite (proj2 (elem_val b c (fst jd))). rewrite <- suml_scal. apply suml_ext. intros q _. unfold Rdiv. lra. }
    rewrite suml_swap. apply suml_ext. intros q Hq. unfold cell_quads in Hq. apply filter_In in Hq. destruct Hq as (_ & Hq). apply Nat.eqb_eq in Hq.
    unfold density. rewrite Hq. rewrite suml_scal_r. unfold Rdiv. lra.
  Qed.

  Definition src (c : nat) (k : nat) : R := suml (b_quads (B c)) (fun q => den q / 4 / PI * momv c q k)%R.

  Definition Minv (l : nat) (M : nat -> ME E) : Prop :=
    (forall x, fst (M x) = x) /\
    (forall x, x < length bs -> (l <= b_level (B x) \/ b_kids (B x) = []) -> forall k, snd (M x) k = src x k) /\
    (forall x, x < length bs -> b_level (B x) < l -> b_kids (B x) <> [] -> forall k, snd (M x) k = 0%R).

  Lemma leaves_inv order : Permutation order (st_childless st) -> Minv N (leaves E I st K phi order).
  Proof.
    intros HP. assert (ND : NoDup order) by (apply Permutation_sym in HP; apply (Permutation_NoDup HP), (F_cl_nodup I W)).
    assert (V : forall x, leaves E I st K phi order x = if mem x order then leaf_exp E I st K phi x (mz E x) else mz E x).
    { intros x. unfold leaves. rewrite (fold_upd (fun b m => leaf_exp E I st K phi b m)) by auto. reflexivity. }
    split; [|split].
    - intros x. rewrite V. destruct (mem x order); [rewrite (proj1 (leaf_val x (mz E x)))|]; reflexivity.
    - intros x Hx HC k. assert (Kx : b_kids (B x) = []).
      { destruct HC as [L|]; auto. apply level_N_leaf; auto. assert (Y := F_level_le I W x Hx). lia. }
      assert (C := proj1 (F_leaf I W x Hx) Kx). rewrite V.
      assert (Mx : mem x order = true) by (apply mem_in; apply Permutation_sym in HP; apply (Permutation_in _ HP); auto). rewrite Mx.
      rewrite (proj2 (leaf_val x (mz E x))). cbn [mz lin_eops snd]. rewrite Rplus_0_l. unfold src. apply suml_ext. intros q Hq.
      rewrite mom_leaf; auto.
    - intros x Hx _ HK k. rewrite V. assert (Mx : mem x order = false).
      { apply mem_false. intros H. apply HK. apply (F_leaf I W); auto. apply (Permutation_in _ HP); auto. }
      rewrite Mx. reflexivity.
  Qed.

  (** ** upward pass *)
  Lemma asc_fold L (M : nat -> ME E) : (forall x, fst (M x) = x) ->
    (forall k, In k L -> ~ In (b_parent (B k)) L) ->
    (forall x, fst (fold_left (ascend1 E st) L M x) = x) /\
    forall x j, snd (fold_left (ascend1 E st) L M x) j =
      (snd (M x) j + suml (filter (fun k => Nat.eqb (b_parent (B k)) x) L) (fun k => gMM G x k (snd (M k)) j))%R.
  Proof.
    revert M; induction L as [|a L IH]; intros M HM HP; [split; auto; intros; simpl; lra|]. cbn [fold_left].
    set (M1 := ascend1 E st M a).
    assert (Na : a <> b_parent (B a)) by (intros X; apply (HP a); [left; auto|left; auto]).
    assert (V : forall x, fst (M1 x) = x /\ forall j, snd (M1 x) j = (snd (M x) j + (if Nat.eqb (b_parent (B a)) x then gMM G x a (snd (M a)) j else 0))%R).
    { intros x. unfold M1, ascend1, upd. destruct (Nat.eqb_spec x (b_parent (B a))) as [->|NE].
      - rewrite Nat.eqb_refl. cbn [madd mz lin_eops fst snd]. rewrite !HM, Nat.eqb_refl.
        destruct (Nat.eqb_spec (b_parent (B a)) a); [congruence|]. split; auto. intros j. lra.
      - rewrite HM. destruct (Nat.eqb_spec (b_parent (B a)) x); [congruence|]. split; auto. intros; lra. }
    destruct (IH M1) as (A & C).
    - intros x. apply V.
    - intros k Hk Hi. apply (HP k); right; auto.
    - split; auto. intros x j. rewrite C. rewrite (proj2 (V x)). cbn [filter].
      assert (Eq : forall k, In k L -> gMM G x k (snd (M1 k)) j = gMM G x k (snd (M k)) j).
      { intros k Hk. destruct HG as (G1 & _). apply (G1 x k j). intros j'. rewrite (proj2 (V k)).
        destruct (Nat.eqb_spec (b_parent (B a)) k); [|lra]. exfalso. apply (HP a); [left; auto|]. right. congruence. }
      rewrite (suml_ext _ (fun k => gMM G x k (snd (M1 k)) j) (fun k => gMM G x k (snd (M k)) j)).
      2:{ intros k Hk. apply filter_In in Hk. apply Eq; tauto. }
      destruct (Nat.eqb (b_parent (B a)) x); simpl; lra.
  Qed.

  Lemma asc_level l L M : 1 <= l <= N -> Permutation L (level_ids st l) -> Minv l M -> Minv (l - 1) (fold_left (ascend1 E st) L M).
  Proof.
    intros Hl HP (I1 & I2 & I3). assert (HT := F_tree I W).
    assert (InL : forall k, In k L <-> k < length bs /\ b_level (B k) = l).
    { intros k. rewrite <- (F_level_ids I W) by lia. split; apply Permutation_in; auto. apply Permutation_sym; auto. }
    assert (K0 : forall k, In k L -> 0 < k < length bs).
    { intros k Hk. apply InL in Hk. destruct Hk as (A & C). split; auto. destruct (Nat.eq_dec k 0) as [->|]; [|lia].
      assert (Y := proj2 (level_pos I bs HT 0 A) eq_refl). lia. }
    assert (ND : NoDup L) by (apply Permutation_sym in HP; apply (Permutation_NoDup HP), seq_NoDup).
    destruct (asc_fold L M I1) as (A & C).
    { intros k Hk Hp. assert (Y := parent_level I bs HT k (K0 k Hk)). apply InL in Hp. apply InL in Hk. lia. }
    assert (Z : forall x, x < length bs -> b_level (B x) <> l - 1 \/ b_kids (B x) = [] -> filter (fun k => Nat.eqb (b_parent (B k)) x) L = []).
    { intros x Hx HC. apply filter_nil. intros k Hk. apply Nat.eqb_neq. intros Ep.
      assert (Y := parent_level I bs HT k (K0 k Hk)). rewrite Ep in Y. assert (Hk' := proj1 (InL k) Hk).
      destruct HC as [HC|HC]; [lia|]. destruct (parent_info I bs HT k (K0 k Hk)) as (_ & X). rewrite Ep, HC in X. destruct X. }
    split; [|split]; auto.
    - intros x Hx HC k. rewrite C. destruct (Nat.eq_dec (b_level (B x)) (l - 1)) as [Lx|Lx].
      + destruct (b_kids (B x)) as [|k0 ks] eqn:Kx.
        * rewrite Z by auto. simpl. rewrite Rplus_0_r. apply I2; auto.
        * rewrite (I3 x Hx ltac:(lia) ltac:(congruence)). rewrite Rplus_0_l.
          assert (PK : Permutation (filter (fun k => Nat.eqb (b_parent (B k)) x) L) (b_kids (B x))).
          { apply NoDup_Permutation; [apply NoDup_filter; auto|apply (kids_nodup I bs HT); auto|].
            intros y. rewrite filter_In, Nat.eqb_eq. split.
            - intros (Y1 & Y2). destruct (parent_info I bs HT y (K0 y Y1)) as (_ & X). rewrite Y2 in X. auto.
            - intros Y. destruct (kid_info I bs HT x y Hx Y) as (Y1 & Y2 & Y3 & _). split; auto. apply InL. split; [lia|]. lia. }
          rewrite (suml_perm _ _ _ PK).
          rewrite (suml_ext _ _ (fun y => suml (b_quads (B y)) (fun q => den q / 4 / PI * momv x q k)%R)).
          2:{ intros y Hy. destruct (kid_info I bs HT x y Hx Hy) as (Y1 & Y2 & Y3 & _).
              destruct HG as (G1 & _).
              rewrite (lin_sum (fun u => gMM G x y u k) (b_quads (B y)) (fun q => den q / 4 / PI)%R (fun q => momv y q)); [|apply G1|].
              - apply suml_ext. intros q Hq. rewrite (mom_step x y q); auto. lia.
              - intros j. apply I2; [lia|]. left. lia. }
          unfold src. rewrite <- suml_flat_map. apply suml_perm. apply Permutation_sym. apply (quads_kids_perm I bs HT); auto. congruence.
      + rewrite Z by auto. simpl. rewrite Rplus_0_r. apply I2; auto. destruct HC; [left; lia|auto].
    - intros x Hx Lx Kx k. rewrite C. rewrite Z by (auto; left; lia). rewrite I3 by (auto; lia). simpl. lra.
  Qed.

  Lemma ascend_inv up M : (forall l, 1 <= l <= N -> Permutation (up l) (level_ids st l)) -> Minv N M -> Minv 0 (ascend E I st up M).
  Proof.
    intros HP H. unfold ascend.
    enough (X : forall n M, n <= N -> Minv n M -> Minv 0 (fold_left (fun M level => fold_left (ascend1 E st) (up level) M) (rev (seq 1 n)) M)) by (apply X; auto).
    induction n; intros M0 Hn H0; [exact H0|]. rewrite seq_S, rev_app_distr. cbn [rev app fold_left]. apply IHn; [lia|].
    replace n with (S n - 1) at 1 by lia. apply asc_level; auto; try lia. apply HP. lia.
  Qed.

  (** multipole expansion of every block *)
  Lemma M_final s x : good_sched I st s -> x < length bs ->
    let M := ascend E I st (s_up s) (leaves E I st K phi (s_leaves s)) in
    fst (M x) = x /\ forall k, snd (M x) k = src x k.
  Proof.
    intros (_ & _ & H3 & H4 & _) Hx M. destruct (ascend_inv (s_up s) (leaves E I st K phi (s_leaves s)) H4 (leaves_inv _ H3)) as (A & C & _).
    split; [apply A|]. apply C; auto. left. lia.
  Qed.
End Far.
