(** * C87: scalar and vector elements chosen separately. *)
From Coq Require Import List Arith Bool Lia.
From Verif Require Import ModelBem ModelBc ProofsBc ModelOwn SpecOwn ProofsOwn PropOwn ModelTwoFe SpecTwoFe.
Import ListNotations.
Local Open Scope nat_scope.

Section TwoFe.
  Variable E : elements.
  Hypothesis W : two_handlers E.
  Notation n := (el_n E).
  Notation m := (el_m E).
  Notation np := (el_np E).
  Notation dim := (el_dim E).
  Notation nv := (el_nv E).
  Lemma total_gen (dofs : nat -> list nat) N : (forall i, i < N -> exists c, c < el_cells E /\ In i (dofs c)) ->
    forall i, i < N -> exists s, s < np /\ association (el_cells E) dofs (el_sub E) i = Some s.
  Proof.
    destruct W as (W0 & W1 & _). intros Cv i Hi. assert (L := association_least (el_cells E) dofs (el_sub E) i). destruct (association (el_cells E) dofs (el_sub E) i) as [s|]; cbn in L.
    - destruct L as ((c & C1 & C2 & C3) & _). exists s. split; auto. subst. apply W1. apply in_seq in C1. lia.
    - exfalso. destruct (Cv i Hi) as (c & C1 & C2). apply (L c); auto. apply in_seq. lia.
  Qed.
  Lemma assoc_total i : i < n -> exists s, s < np /\ association (el_cells E) (el_dofs E) (el_sub E) i = Some s.
  Proof. apply total_gen. apply W. Qed.
  Lemma vassoc_total j : j < nv -> exists s, s < np /\ association (el_cells E) (el_vdofs E) (el_sub E) j = Some s.
  Proof. apply total_gen. apply W. Qed.
  Lemma eo_range i : i < n -> el_o2s E i < n. Proof. apply subwise_range. apply assoc_total. Qed.
  Lemma eo_inj i j : i < n -> j < n -> el_o2s E i = el_o2s E j -> i = j. Proof. apply subwise_inj. apply assoc_total. Qed.
  Lemma ev_range j : j < nv -> el_vo2s E j < nv. Proof. apply subwise_range. apply vassoc_total. Qed.
  Lemma ev_inj i j : i < nv -> j < nv -> el_vo2s E i = el_vo2s E j -> i = j. Proof. apply subwise_inj. apply vassoc_total. Qed.
  Lemma s2o_filled old i : i < n -> i < nv -> el_s2o E old (el_o2s E i) = i.
  Proof.
    intros Hi Hv. unfold el_s2o.
    assert (G : forall l f, (In i l \/ f (el_o2s E i) = i) -> fold_left (fun t a => if Nat.ltb a n then upd t (el_o2s E a) a else t) l f (el_o2s E i) = i).
    { induction l as [|a l IH]; intros f Q; cbn [fold_left]; [destruct Q as [[]|]; auto|]. apply IH. destruct (Nat.ltb_spec a n) as [L|L].
      - unfold upd. destruct (Nat.eqb_spec (el_o2s E i) (el_o2s E a)) as [Z|Z]; [right; symmetry; apply eo_inj; auto|]. destruct Q as [[<-|Q]|Q]; auto. contradiction.
      - destruct Q as [[<-|Q]|Q]; auto. lia. }
    apply G. left. apply in_seq. lia.
  Qed.
  Lemma eo_onto i : i < n -> exists k, k < n /\ el_o2s E k = i. Proof. apply inj_surj; [apply eo_range|apply eo_inj]. Qed.
  Lemma ev_onto j : j < nv -> exists k, k < nv /\ el_vo2s E k = j. Proof. apply inj_surj; [apply ev_range|apply ev_inj]. Qed.
  Lemma domain_e i : i < n -> el_domain E (el_o2s E i) = association (el_cells E) (el_dofs E) (el_sub E) i.
  Proof.
    destruct W as (W0 & W1 & W2 & W3 & W4). intros Hi. unfold el_domain. symmetry. apply association_ext. intros c Hc. rewrite in_map_iff. split; [eauto|].
    intros (k & K1 & K2). apply eo_inj in K1; [subst; auto|apply (W2 c); auto|auto].
  Qed.
  Lemma dom_total i : i < n -> exists s, s < np /\ el_domain E i = Some s.
  Proof. intros Hi. destruct (eo_onto i Hi) as (k & Hk & <-). rewrite domain_e by auto. apply assoc_total; auto. Qed.
  Lemma stride : nv / dim = m.
  Proof. unfold el_nv. rewrite Nat.mul_comm. apply Nat.div_mul. destruct W. lia. Qed.
  Lemma below d k : d < dim -> k < m -> m * d + k < nv.
  Proof. intros Hd Hk. unfold el_nv. assert (m * S d <= m * dim) by (apply Nat.mul_le_mono_l; lia). rewrite Nat.mul_succ_r in *. lia. Qed.
  (** the loop over the components *)
  Lemma components_none dummy ds : fold_left (fun v d => match v, el_vread E (nv / dim * d + dummy) with Some v, Some j => Some (upd v j true) | _, _ => None end) ds None = None.
  Proof. induction ds as [|d ds IH]; cbn; auto. Qed.
  Lemma components_spec dummy : forall ds v,
    (fold_left (fun v d => match v, el_vread E (nv / dim * d + dummy) with Some v, Some j => Some (upd v j true) | _, _ => None end) ds (Some v) <> None <-> forall d, In d ds -> m * d + dummy < nv) /\
    (forall w, fold_left (fun v d => match v, el_vread E (nv / dim * d + dummy) with Some v, Some j => Some (upd v j true) | _, _ => None end) ds (Some v) = Some w ->
       forall j, w j = true <-> v j = true \/ exists d, In d ds /\ j = el_vo2s E (m * d + dummy)).
  Proof.
    induction ds as [|d ds IH]; intros v.
    - cbn. split; [split; [tauto|discriminate]|]. intros w Q j. injection Q as <-. split; [auto|intros [|(d & [] & _)]; auto].
    - cbn [fold_left]. unfold el_vread at 2 4. rewrite stride. destruct (Nat.ltb_spec (m * d + dummy) nv) as [L|L].
      + destruct (IH (upd v (el_vo2s E (m * d + dummy)) true)) as (I1 & I2). rewrite stride in *. split.
        * rewrite I1. split; [intros Q d' [<-|Z]; auto|intros Q d' Z; apply Q; right; auto].
        * intros w Q j. rewrite (I2 w Q j). unfold upd. destruct (Nat.eqb_spec j (el_vo2s E (m * d + dummy))) as [Z|Z].
          -- split; [intros _; right; exists d; cbn; auto|auto].
          -- split; [intros [A|(d' & A & B)]; [auto|right; exists d'; cbn; auto]|intros [A|(d' & [<-|A] & B)]; [auto|contradiction|right; eauto]].
      + assert (CN := components_none dummy ds). rewrite stride in CN. rewrite CN. split; [|discriminate]. split; [congruence|intros Q; specialize (Q d (or_introl eq_refl)); lia].
  Qed.
  Lemma vset_spec old me : forall is v,
    let r := fold_left (fun v i => if is_sub (el_domain E i) me then el_components E (el_s2o E old i) v else v) is (Some v) in
    (r <> None <-> forall i d, In i is -> el_domain E i = Some me -> d < dim -> m * d + el_s2o E old i < nv) /\
    (forall w, r = Some w -> forall j, w j = true <-> v j = true \/ exists i d, In i is /\ el_domain E i = Some me /\ d < dim /\ j = el_vo2s E (m * d + el_s2o E old i)).
  Proof.
    assert (N : forall is, fold_left (fun v i => if is_sub (el_domain E i) me then el_components E (el_s2o E old i) v else v) is None = None).
    { induction is as [|i is IH]; cbn; auto. destruct (is_sub (el_domain E i) me); auto. unfold el_components. rewrite components_none. auto. }
    induction is as [|i is IH]; intros v.
    - cbn. split; [split; [tauto|discriminate]|]. intros w Q j. injection Q as <-. split; [auto|intros [|(i & d & [] & _)]; auto].
    - cbn [fold_left]. destruct (is_sub (el_domain E i) me) eqn:Es.
      + apply is_sub_eq in Es. destruct (components_spec (el_s2o E old i) (seq 0 dim) v) as (C1 & C2). fold (el_components E (el_s2o E old i) (Some v)) in C1, C2.
        destruct (el_components E (el_s2o E old i) (Some v)) as [v'|] eqn:Ec.
        * destruct (IH v') as (I1 & I2). cbv zeta in *. split.
          -- rewrite I1. split; [intros Q i' d [<-|Z] D1 D2; [apply C1; [discriminate|apply in_seq; lia]|apply (Q i' d); auto]|intros Q i' d Z; apply Q; right; auto].
          -- intros w Q j. rewrite (I2 w Q j), (C2 v' eq_refl j). split.
             ++ intros [[A|(d & D1 & D2)]|(i' & d & A1 & A2)]; auto; right; [exists i, d; apply in_seq in D1|exists i', d]; cbn; [repeat split; auto; lia|tauto].
             ++ intros [A|(i' & d & [<-|A1] & A2 & A3 & A4)]; auto; [left; right; exists d; rewrite in_seq; split; auto; lia|right; exists i', d; auto].
        * cbv zeta. rewrite N. split; [|discriminate]. split; [congruence|]. intros Q. exfalso. apply (proj2 C1); [|reflexivity].
          intros d Hd. apply in_seq in Hd. apply (Q i d); auto; [left; auto|lia].
      + destruct (IH v) as (I1 & I2). cbv zeta in *. split.
        * rewrite I1. split; [intros Q i' d [<-|Z] D1 D2; [apply is_sub_eq in D1; congruence|apply (Q i' d); auto]|intros Q i' d Z; apply Q; right; auto].
        * intros w Q j. rewrite (I2 w Q j). split.
          -- intros [A|(i' & d & A1 & A2)]; auto; right; exists i', d; cbn; tauto.
          -- intros [A|(i' & d & [<-|A1] & A2 & A3 & A4)]; auto; [apply is_sub_eq in A2; congruence|right; exists i', d; auto].
  Qed.
  Lemma s2o_small old i : n <= m -> i < n -> el_s2o E old i < n /\ el_o2s E (el_s2o E old i) = i.
  Proof.
    intros L Hi. destruct (eo_onto i Hi) as (k & Hk & <-). rewrite s2o_filled; auto. unfold el_nv. destruct W as (W0 & _).
    assert (1 * m <= dim * m) by (apply Nat.mul_le_mono_r; lia). lia.
  Qed.
End TwoFe.

(** ** C87 *)
(** initialisation reads inside its tables on every process exactly when the vector element has at least as many nodes as
    the scalar one, whatever the tables held before *)
Theorem C87_initialisation_defined_iff : forall E old, two_handlers E ->
  ((forall p, p < el_np E -> el_vset E old p <> None) <-> el_n E <= el_m E).
Proof.
  intros E old W. assert (W0 := proj1 W). split.
  - intros Q. destruct (Nat.le_gt_cases (el_n E) (el_m E)) as [L|L]; auto. exfalso.
    set (k := Nat.min (el_n E) (el_nv E) - 1).
    assert (X : exists i, i < el_n E /\ el_m E * (el_dim E - 1) + el_s2o E old i >= el_nv E).
    { unfold k in *. destruct (Nat.eq_dec (el_m E) 0) as [Z|Z].
      - exists 0. split; [lia|]. unfold el_nv. rewrite Z, Nat.mul_0_r. lia.
      - assert (Dm : el_dim E * el_m E = el_m E * (el_dim E - 1) + el_m E).
        { rewrite <- (Nat.mul_1_r (el_m E)) at 3. rewrite <- Nat.mul_add_distr_l. rewrite Nat.mul_comm. f_equal. lia. }
        assert (el_m E * 1 <= el_m E * (el_dim E - 1)) by (apply Nat.mul_le_mono_l; lia).
        exists (el_o2s E (el_m E)). split; [apply eo_range; auto|]. rewrite s2o_filled; auto; unfold el_nv in *; lia. }
    destruct X as (i & Hi & Hx). destruct (dom_total E W i Hi) as (p & Hp & Dp).
    apply (Q p Hp). destruct (vset_spec E W old p (seq 0 (el_n E)) (fun _ => false)) as (V & _). cbv zeta in V. unfold el_vset.
    destruct (fold_left _ (seq 0 (el_n E)) (Some (fun _ => false))) eqn:Ef; auto. exfalso.
    assert (Z := proj1 V ltac:(discriminate) i (el_dim E - 1) ltac:(apply in_seq; lia) Dp ltac:(lia)). lia.
  - intros L p Hp. destruct (vset_spec E W old p (seq 0 (el_n E)) (fun _ => false)) as (V & _). cbv zeta in V. unfold el_vset. apply V.
    intros i d Hi _ Hd. apply in_seq in Hi. destruct (s2o_small E W old i L ltac:(lia)) as (S1 & _). apply (below E); auto; lia.
Qed.

(** when it is defined, no unknown of the vector handler has two owners, and those with an owner are the components of the
    first n of its m nodes *)
Theorem C87_owned_components : forall E old, two_handlers E -> el_n E <= el_m E ->
  (forall p q j, owns_vector E old p j -> owns_vector E old q j -> p = q) /\
  (forall p j, owns_vector E old p j -> p < el_np E /\ j < el_dim E * el_m E) /\
  (forall d k, d < el_dim E -> k < el_m E -> ((exists p, owns_vector E old p (el_vo2s E (d * el_m E + k))) <-> k < el_n E)).
Proof.
  intros E old W L.
  assert (O : forall p j, owns_vector E old p j <-> exists i d, i < el_n E /\ el_domain E i = Some p /\ d < el_dim E /\ j = el_vo2s E (el_m E * d + el_s2o E old i)).
  { intros p j. destruct (vset_spec E W old p (seq 0 (el_n E)) (fun _ => false)) as (V1 & V2). cbv zeta in *. unfold owns_vector, el_vset. split.
    - intros (v & Ev & Ej). apply (V2 v Ev j) in Ej. destruct Ej as [|(i & d & A & B)]; [discriminate|]. exists i, d. apply in_seq in A. split; [lia|tauto].
    - intros (i & d & A & B & C & D). destruct (fold_left _ (seq 0 (el_n E)) (Some (fun _ => false))) as [v|] eqn:Ef.
      + exists v. split; auto. apply (V2 v eq_refl j). right. exists i, d. rewrite in_seq. repeat split; auto; lia.
      + exfalso. apply (proj2 V1); auto. intros i' d' Hi' _ Hd'. apply in_seq in Hi'. destruct (s2o_small E W old i' L ltac:(lia)) as (S1 & _). apply (below E); auto; lia. }
  split; [|split].
  - intros p q j A B. apply O in A. apply O in B. destruct A as (i & d & A1 & A2 & A3 & ->), B as (i' & d' & B1 & B2 & B3 & B4).
    destruct (s2o_small E W old i L A1) as (S1 & S2), (s2o_small E W old i' L B1) as (T1 & T2).
    apply (ev_inj E W) in B4; [|apply below; auto; lia|apply below; auto; lia].
    assert (d = d').
    { assert (X : (el_m E * d + el_s2o E old i) / el_m E = d) by (rewrite Nat.mul_comm, Nat.div_add_l, Nat.div_small by lia; lia).
      assert (Y : (el_m E * d' + el_s2o E old i') / el_m E = d') by (rewrite Nat.mul_comm, Nat.div_add_l, Nat.div_small by lia; lia). rewrite <- X, B4, Y. auto. }
    subst d'. assert (Ez : el_s2o E old i = el_s2o E old i') by lia. rewrite <- S2, Ez, T2 in A2. congruence.
  - intros p j A. apply O in A. destruct A as (i & d & A1 & A2 & A3 & ->). split.
    + destruct (dom_total E W i A1) as (s & Hs & Es). congruence.
    + destruct (s2o_small E W old i L A1) as (S1 & S2). apply (ev_range E W). apply below; auto. lia.
  - intros d k Hd Hk. split.
    + intros (p & A). apply O in A. destruct A as (i & d' & A1 & A2 & A3 & A4). destruct (s2o_small E W old i L A1) as (S1 & S2).
      rewrite (Nat.mul_comm d) in A4. apply (ev_inj E W) in A4; [|apply below; auto; lia|apply below; auto; lia].
      assert (d = d').
      { assert (X : (el_m E * d + k) / el_m E = d) by (rewrite Nat.mul_comm, Nat.div_add_l, Nat.div_small by lia; lia).
        assert (Y : (el_m E * d' + el_s2o E old i) / el_m E = d') by (rewrite Nat.mul_comm, Nat.div_add_l, Nat.div_small by lia; lia). rewrite <- X, A4, Y. auto. }
      subst d'. lia.
    + intros Hn. destruct (dom_total E W (el_o2s E k) (eo_range E W k Hn)) as (p & Hp & Ep). exists p. apply O. exists (el_o2s E k), d.
      split; [apply eo_range; auto|]. split; auto. split; auto. rewrite s2o_filled; auto; [rewrite (Nat.mul_comm d); auto|].
      assert (B := below E 0 k ltac:(destruct W; lia) Hk). rewrite Nat.mul_0_r in B. exact B.
Qed.

(** so the vector unknowns are distributed over the processes exactly when the two elements have equally many nodes *)
Theorem C87_every_component_has_an_owner_iff : forall E old, two_handlers E -> el_n E <= el_m E ->
  ((forall j, j < el_dim E * el_m E -> exists p, owns_vector E old p j) <-> el_n E = el_m E).
Proof.
  intros E old W L. destruct (C87_owned_components E old W L) as (_ & _ & O). assert (W0 := proj1 W). split.
  - intros Q. destruct (Nat.eq_dec (el_n E) (el_m E)) as [|Z]; auto. exfalso.
    assert (B := below E 0 (el_n E) ltac:(lia) ltac:(lia)). assert (X : 0 * el_m E + el_n E < el_nv E) by (rewrite Nat.mul_0_r in B; exact B).
    assert (Y := Q _ (ev_range E W _ X)). apply O in Y; lia.
  - intros Z j Hj. destruct (ev_onto E W j Hj) as (k & Hk & <-). unfold el_nv in Hk.
    assert (Hm : el_m E <> 0) by (intros Q; rewrite Q, Nat.mul_0_r in Hk; lia).
    rewrite (Nat.div_mod k (el_m E) Hm), (Nat.mul_comm (el_m E)). apply O.
    + apply Nat.div_lt_upper_bound; auto. rewrite Nat.mul_comm. auto.
    + apply Nat.mod_upper_bound; auto.
    + rewrite Z. apply Nat.mod_upper_bound; auto.
Qed.

(** the error report and the hypersingular gradients compute the index of a component with the number of scalar nodes, the
    boundary data and the constraints with the number of vector nodes: the two agree exactly when these are equal *)
Theorem C87_two_index_rules_agree_iff : forall E old, two_handlers E -> 0 < el_n E -> el_n E <= el_m E ->
  ((forall d i, d < el_dim E -> i < el_n E -> el_error_dof E d i = el_normal_dof E old d (el_o2s E i)) <-> el_n E = el_m E).
Proof.
  intros E old W Hn L. assert (W0 := proj1 W).
  assert (S2 : forall i, i < el_n E -> el_s2o E old (el_o2s E i) = i).
  { intros i Hi. apply s2o_filled; auto. assert (B := below E 0 i ltac:(lia) ltac:(lia)). rewrite Nat.mul_0_r in B. exact B. }
  split.
  - intros Q. specialize (Q 1 0 ltac:(lia) Hn). unfold el_error_dof, el_normal_dof, el_vread in Q. rewrite (stride E W), S2 in Q by auto.
    assert (B1 := below E 1 0 ltac:(lia) ltac:(lia)). assert (B2 : 1 * el_n E + 0 < el_nv E) by lia.
    rewrite (proj2 (Nat.ltb_lt _ _) B1), (proj2 (Nat.ltb_lt _ _) B2) in Q. injection Q as Q. apply (ev_inj E W) in Q; lia.
  - intros Z d i Hd Hi. unfold el_error_dof, el_normal_dof. rewrite (stride E W), S2, Z, (Nat.mul_comm d) by auto. auto.
Qed.

(** with the same element in both places the sets are those of C71 *)
Definition same_element (U : numbering) : elements :=
  {| el_n := nu_n U; el_m := nu_n U; el_dim := nu_dim U; el_cells := nu_cells U; el_dofs := nu_dofs U; el_vdofs := nu_vdofs U; el_sub := nu_sub U; el_np := nu_np U |}.
Theorem C87_same_element : forall U old p j, well_numbered U -> 2 <= nu_dim U ->
  two_handlers (same_element U) /\ (owns_vector (same_element U) old p j <-> vcpu_set U p j = true).
Proof.
  intros U old p j W D. assert (T : two_handlers (same_element U)).
  { destruct W as (W0 & W1 & W2 & W3 & W4). repeat split; auto.
    - intros c k Hc Hk. cbn in *. apply (W4 c k Hc) in Hk. destruct Hk as (d & i & A & B & ->). assert (S d * nu_n U <= nu_dim U * nu_n U) by (apply Nat.mul_le_mono_r; lia). assert (i < nu_n U) by (apply (W2 c); auto). cbn in *. lia.
    - intros k Hk. cbn in *. destruct (Nat.eq_dec (nu_n U) 0) as [Z|Z]; [rewrite Z in Hk; lia|].
      destruct (W3 (k mod nu_n U)) as (c & C1 & C2); [apply Nat.mod_upper_bound; auto|]. exists c. split; auto. apply (W4 c k C1).
      exists (k / nu_n U), (k mod nu_n U). split; [apply Nat.div_lt_upper_bound; auto; lia|]. split; auto. rewrite Nat.mul_comm. apply Nat.div_mod; auto. }
  split; auto.
  assert (Es : forall i, i < nu_n U -> el_s2o (same_element U) old i = s2o U i).
  { intros i Hi. destruct (eo_onto _ T i Hi) as (k & Hk & <-). rewrite (s2o_filled _ T old k Hk). 2:{ assert (B := below (same_element U) 0 k ltac:(cbn; lia) Hk). rewrite Nat.mul_0_r in B. exact B. }
    change (el_o2s (same_element U) k) with (o2s U k). symmetry. exact (proj1 (proj2 (proj1 (C71_tables U W) k Hk))). }
  rewrite (vcpu_iff U p j). destruct (vset_spec _ T old p (seq 0 (nu_n U)) (fun _ => false)) as (V1 & V2). cbv zeta in *. unfold owns_vector, el_vset. cbn [same_element el_n] in *. split.
  - intros (v & Ev & Ej). apply (V2 v Ev j) in Ej. destruct Ej as [|(i & d & A & B & C & F)]; [discriminate|]. apply in_seq in A. exists d, i. split; auto. split; [lia|]. split; [exact B|].
    rewrite vec_index_eq by lia. rewrite (Es i) in F by lia. cbn [same_element el_m] in F. rewrite (Nat.mul_comm d). exact F.
  - intros (d & i & A & B & C & F). destruct (fold_left _ (seq 0 (nu_n U)) (Some (fun _ => false))) as [v|] eqn:Ef.
    + exists v. split; auto. apply (V2 v eq_refl j). right. exists i, d. rewrite in_seq. split; [lia|]. split; [exact C|]. split; auto.
      rewrite vec_index_eq in F by lia. rewrite (Es i B), (Nat.mul_comm _ d). exact F.
    + exfalso. apply (proj2 V1); auto. intros i' d' Hi' _ Hd'. apply in_seq in Hi'. rewrite (Es i') by lia. apply (below (same_element U)); auto. cbn. apply (proj1 (s2o_spec U W i' ltac:(lia))).
Qed.

(** ** equal numbers do not make the components those of the node *)
(** a closed polygon of four segments 0-1, 2-3, 1-2, 3-0 in the plane, FEQ of order 1 for the potential and FEDGQ of order
    0 for the vector fields: four nodes each *)
Definition polygon : elements :=
  {| el_n := 4; el_m := 4; el_dim := 2; el_cells := 4;
     el_dofs := fun c => match c with 0 => [0;1] | 1 => [2;3] | 2 => [1;2] | _ => [3;0] end;
     el_vdofs := fun c => [c; 4 + c]; el_sub := fun _ => 0; el_np := 1 |}.
Lemma polygon_ok : two_handlers polygon.
Proof.
  repeat split; cbn; try lia.
  - intros c i Hc. destruct c as [|[|[|[|c]]]]; cbn; lia.
  - intros i Hi. destruct i as [|[|[|[|i]]]]; [exists 0|exists 0|exists 1|exists 1|lia]; cbn; lia.
  - intros j Hj. do 8 (destruct j as [|j]; [first [exists 0; cbn; lia|exists 1; cbn; lia|exists 2; cbn; lia|exists 3; cbn; lia]|]). lia.
Qed.
(** node 1 (end of segments 0 and 2) gets the normal of segment 1, on which it does not lie, and nothing is reported *)
Theorem C87_normal_of_the_node_refuted : two_handlers polygon /\ el_n polygon = el_m polygon /\
  exists i, i < el_n polygon /\ forall d, d < el_dim polygon ->
    exists j, el_normal_dof polygon (fun _ => 0) d i = Some j /\
      forall c, c < el_cells polygon -> In j (map (el_vo2s polygon) (el_vdofs polygon c)) -> ~ In i (map (el_o2s polygon) (el_dofs polygon c)).
Proof.
  split; [exact polygon_ok|]. split; [reflexivity|]. exists 1. split; [cbn; lia|]. intros d Hd. cbn in Hd.
  destruct d as [|[|d]]; [exists 1|exists 5|lia]; (split; [vm_compute; reflexivity|]); intros c Hc; cbn in Hc;
    destruct c as [|[|[|[|c]]]]; try lia; vm_compute; intuition lia.
Qed.

(** a strip of two squares: bilinear scalar element (6 nodes), discontinuous bilinear vector element (8 nodes) *)
Definition strip_dg : elements :=
  {| el_n := 6; el_m := 8; el_dim := 3; el_cells := 2;
     el_dofs := fun c => match c with 0 => [0;1;2;3] | _ => [1;4;3;5] end;
     el_vdofs := fun c => flat_map (fun d => map (fun k => d * 8 + 4 * c + k) (seq 0 4)) (seq 0 3); el_sub := fun c => c; el_np := 2 |}.
Example C87_instance : two_handlers strip_dg /\ el_n strip_dg <= el_m strip_dg /\ 0 < el_n strip_dg /\ el_n strip_dg <> el_m strip_dg /\
  two_handlers polygon.
Proof.
  split; [|split; [cbn; lia|split; [cbn; lia|split; [cbn; lia|exact polygon_ok]]]]. repeat split; cbn; try lia.
  - intros c i Hc. destruct c as [|[|c]]; cbn; lia.
  - intros i Hi. do 6 (destruct i as [|i]; [first [exists 0; cbn; lia|exists 1; cbn; lia]|]). lia.
  - intros j Hj. do 24 (destruct j as [|j]; [first [exists 0; cbn; lia|exists 1; cbn; lia]|]). lia.
Qed.
