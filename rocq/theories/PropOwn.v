(** * Ownership of the degrees of freedom (C71). *)
From Coq Require Import List Arith Bool Reals Lia Lra.
From Verif Require Import ModelBem ModelBc ProofsBc ModelOwn SpecOwn ProofsOwn.
Import ListNotations.
Local Open Scope nat_scope.

Section Own.
  Variable U : numbering.
  Hypothesis W : well_numbered U.
  Notation n := (nu_n U).
  Notation np := (nu_np U).
  Notation dim := (nu_dim U).
  Notation assoc0 := (association (nu_cells U) (nu_dofs U) (nu_sub U)).
  Notation vassoc0 := (association (nu_cells U) (nu_vdofs U) (nu_sub U)).

  Lemma assoc0_total i : i < n -> exists s, s < np /\ assoc0 i = Some s.
  Proof.
    destruct W as (W0 & W1 & W2 & W3 & W4). intros Hi. assert (L := association_least (nu_cells U) (nu_dofs U) (nu_sub U) i). destruct (assoc0 i) as [s|]; cbn in L.
    - destruct L as ((c & C1 & C2 & C3) & _). exists s. split; auto. subst. apply W1. apply in_seq in C1. lia.
    - exfalso. destruct (W3 i Hi) as (c & C1 & C2). apply (L c); auto. apply in_seq. lia.
  Qed.
  Lemma o2s_range i : i < n -> o2s U i < n. Proof. apply subwise_range. apply assoc0_total. Qed.
  Lemma o2s_inj i j : i < n -> j < n -> o2s U i = o2s U j -> i = j. Proof. apply subwise_inj. apply assoc0_total. Qed.
  Lemma vassoc_scalar d i : d < dim -> i < n -> vassoc0 (d * n + i) = assoc0 i.
  Proof.
    destruct W as (W0 & W1 & W2 & W3 & W4). intros Hd Hi. symmetry. apply association_ext. intros c Hc. rewrite (W4 c _ Hc). split.
    - intros Q. exists d, i. auto.
    - intros (d' & i' & D1 & D2 & D3). assert (i' < n) by (apply (W2 c); auto). assert (d = d').
      { assert (X : (d * n + i) / n = d) by (rewrite Nat.div_add_l, Nat.div_small by lia; lia). assert (Y : (d' * n + i') / n = d') by (rewrite Nat.div_add_l, Nat.div_small by lia; lia). rewrite <- X, D3, Y. auto. }
      subst d'. replace i with i' by lia. auto.
  Qed.
  Lemma vec_split j : j < nvec U -> exists d i, d < dim /\ i < n /\ j = d * n + i.
  Proof.
    unfold nvec. intros Hj. destruct (Nat.eq_dec n 0) as [Z|Z]; [rewrite Z in Hj; lia|]. exists (j / n), (j mod n). split; [apply Nat.div_lt_upper_bound; auto; lia|]. split; [apply Nat.mod_upper_bound; auto|]. rewrite Nat.mul_comm. apply Nat.div_mod; auto.
  Qed.
  Lemma vec_below d i : d < dim -> i < n -> d * n + i < nvec U.
  Proof. intros Hd Hi. unfold nvec. assert (S d * n <= dim * n) by (apply Nat.mul_le_mono_r; lia). cbn in H. lia. Qed.
  Lemma vassoc0_total j : j < nvec U -> exists s, s < np /\ vassoc0 j = Some s.
  Proof. intros Hj. destruct (vec_split j Hj) as (d & i & Hd & Hi & ->). rewrite vassoc_scalar by auto. apply assoc0_total; auto. Qed.
  Lemma vo2s_range j : j < nvec U -> vo2s U j < nvec U. Proof. apply subwise_range. apply vassoc0_total. Qed.
  Lemma vo2s_inj i j : i < nvec U -> j < nvec U -> vo2s U i = vo2s U j -> i = j. Proof. apply subwise_inj. apply vassoc0_total. Qed.
  Lemma s2o_spec i : i < n -> s2o U i < n /\ o2s U (s2o U i) = i.
  Proof.
    intros Hi. destruct (inj_surj n (o2s U) o2s_range o2s_inj i Hi) as (k & Hk & <-). unfold s2o. rewrite (inverse_table_spec n (o2s U) o2s_range o2s_inj k Hk). auto.
  Qed.
  Lemma vs2o_spec j : j < nvec U -> vs2o U j < nvec U /\ vo2s U (vs2o U j) = j.
  Proof.
    intros Hi. destruct (inj_surj (nvec U) (vo2s U) vo2s_range vo2s_inj j Hi) as (k & Hk & <-). unfold vs2o. rewrite (inverse_table_spec (nvec U) (vo2s U) vo2s_range vo2s_inj k Hk). auto.
  Qed.
  Lemma domain_o2s i : i < n -> domain_of U (o2s U i) = assoc0 i.
  Proof.
    destruct W as (W0 & W1 & W2 & W3 & W4). intros Hi. unfold domain_of. symmetry. apply association_ext. intros c Hc. unfold dofs_now. rewrite in_map_iff. split; [eauto|].
    intros (k & K1 & K2). apply o2s_inj in K1; [subst; auto|apply (W2 c); auto|auto].
  Qed.
  Lemma vdomain_vo2s j : j < nvec U -> vdomain_of U (vo2s U j) = vassoc0 j.
  Proof.
    destruct W as (W0 & W1 & W2 & W3 & W4). intros Hi. unfold vdomain_of. symmetry. apply association_ext. intros c Hc. unfold vdofs_now. rewrite in_map_iff. split; [eauto|].
    intros (k & K1 & K2). apply vo2s_inj in K1; [subst; auto| |auto]. apply (W4 c k Hc) in K2. destruct K2 as (d & i & D1 & D2 & ->). apply vec_below; auto. apply (W2 c); auto.
  Qed.
  Lemma domain_total i : i < n -> exists s, s < np /\ domain_of U i = Some s.
  Proof. intros Hi. destruct (s2o_spec i Hi) as (A & B). rewrite <- B, domain_o2s by auto. apply assoc0_total; auto. Qed.
  Lemma vdomain_total i : i < nvec U -> exists s, s < np /\ vdomain_of U i = Some s.
  Proof. intros Hi. destruct (vs2o_spec i Hi) as (A & B). rewrite <- B, vdomain_vo2s by auto. apply vassoc0_total; auto. Qed.
  Lemma cpu_iff me i : cpu_set U me i = true <-> i < n /\ domain_of U i = Some me.
  Proof. unfold cpu_set. rewrite andb_true_iff, Nat.ltb_lt, is_sub_eq. tauto. Qed.
  Lemma vec_index_eq d i : dim <> 0 -> vec_index (nvec U) dim (vo2s U) (s2o U) d i = vo2s U (d * n + s2o U i).
  Proof. intros Hd. unfold vec_index, nvec. rewrite (Nat.mul_comm dim), Nat.div_mul by auto. rewrite (Nat.mul_comm n d). auto. Qed.
  Lemma vec_index_domain d i : d < dim -> i < n -> vec_index (nvec U) dim (vo2s U) (s2o U) d i < nvec U /\ vdomain_of U (vec_index (nvec U) dim (vo2s U) (s2o U) d i) = domain_of U i.
  Proof.
    intros Hd Hi. rewrite vec_index_eq by lia. destruct (s2o_spec i Hi) as (A & B). assert (V := vec_below d _ Hd A). split; [apply vo2s_range; auto|].
    rewrite vdomain_vo2s, vassoc_scalar by auto. rewrite <- B at 2. rewrite domain_o2s; auto.
  Qed.
  Lemma vcpu_iff me j : vcpu_set U me j = true <-> exists d i, d < dim /\ i < n /\ domain_of U i = Some me /\ j = vec_index (nvec U) dim (vo2s U) (s2o U) d i.
  Proof.
    unfold vcpu_set. set (vi := vec_index _ _ _ _).
    assert (G1 : forall i ds v, fold_left (fun v d => upd v (vi d i) true) ds v j = true <-> v j = true \/ exists d, In d ds /\ j = vi d i).
    { intros i. induction ds as [|d ds IH]; intros v; cbn [fold_left]; [split; [auto|intros [|(d & [] & _)]; auto]|]. rewrite IH. unfold upd. destruct (Nat.eqb_spec j (vi d i)) as [Q|Q].
      - split; [intros _; right; exists d; cbn; auto|auto].
      - split; [intros [A|(d' & A & B)]; [auto|right; exists d'; cbn; auto]|intros [A|(d' & [<-|A] & B)]; [auto|contradiction|right; eauto]]. }
    assert (G2 : forall is v, fold_left (vcpu_step U me) is v j = true <-> v j = true \/ exists i d, In i is /\ d < dim /\ domain_of U i = Some me /\ j = vi d i).
    { induction is as [|i is IH]; intros v; cbn [fold_left]; [split; [auto|intros [|(i & d & [] & _)]; auto]|]. rewrite IH. unfold vcpu_step. destruct (is_sub (domain_of U i) me) eqn:Es.
      - apply is_sub_eq in Es. fold vi. rewrite G1. split.
        + intros [[A|(d & D1 & D2)]|(i' & d & A1 & A2)]; auto; right; [exists i, d; apply in_seq in D1|exists i', d]; cbn; [repeat split; auto; lia|tauto].
        + intros [A|(i' & d & [<-|A1] & A2 & A3 & A4)]; auto; [left; right; exists d; rewrite in_seq; split; auto; lia|right; exists i', d; auto].
      - split.
        + intros [A|(i' & d & A1 & A2)]; auto; right; exists i', d; cbn; tauto.
        + intros [A|(i' & d & [<-|A1] & A2 & A3 & A4)]; auto; [apply is_sub_eq in A3; congruence|right; exists i', d; auto]. }
    rewrite G2. split.
    - intros [Q|(i & d & A & B & C & D)]; [discriminate|]. apply in_seq in A. exists d, i. repeat split; auto. lia.
    - intros (d & i & A & B & C & D). right. exists i, d. rewrite in_seq. repeat split; auto; lia.
  Qed.
End Own.

(** ** C71 *)
(** the owned sets partition the dofs among the processes *)
Theorem C71_partition : forall U i, well_numbered U -> i < nu_n U ->
  exists p, p < nu_np U /\ forall q, cpu_set U q i = true <-> q = p.
Proof.
  intros U i W Hi. destruct (domain_total U W i Hi) as (p & Hp & Ep). exists p. split; auto. intros q. rewrite cpu_iff. split; [intros (_ & E); congruence|intros ->; auto].
Qed.
(** the owner is the least subdomain among the cells of the dof, so it has a cell with that dof *)
Theorem C71_owner : forall U i p, well_numbered U -> i < nu_n U ->
  (cpu_set U p i = true <-> (exists c, c < nu_cells U /\ nu_sub U c = p /\ In i (dofs_now U c)) /\
                            forall c, c < nu_cells U -> In i (dofs_now U c) -> p <= nu_sub U c).
Proof.
  intros U i p W Hi. rewrite cpu_iff. assert (L := association_least (nu_cells U) (dofs_now U) (nu_sub U) i). fold (domain_of U i) in L.
  destruct (domain_total U W i Hi) as (s & Hs & Es). rewrite Es in L. cbn in L. destruct L as ((c & C1 & C2 & C3) & Lm). apply in_seq in C1. split.
  - intros (_ & E). assert (s = p) by congruence. subst p. split; [exists c; repeat split; auto; lia|]. intros c' H1 H2. apply Lm; auto. apply in_seq. lia.
  - intros ((c' & D1 & D2 & D3) & M). split; auto. rewrite Es. f_equal. assert (s <= p) by (rewrite <- D2; apply Lm; auto; apply in_seq; lia). assert (p <= s) by (rewrite <- C3; apply M; auto; lia). lia.
Qed.
(** every process owns a contiguous range, in the order of the processes *)
Theorem C71_contiguous : forall U i j p q, well_numbered U -> cpu_set U p i = true -> cpu_set U q j = true -> p < q -> i < j.
Proof.
  intros U i j p q W Hi Hj L. apply cpu_iff in Hi, Hj. destruct Hi as (Hi & Ei), Hj as (Hj & Ej).
  destruct (s2o_spec U W i Hi) as (Ai & Bi), (s2o_spec U W j Hj) as (Aj & Bj). rewrite <- Bi, domain_o2s in Ei by auto. rewrite <- Bj, domain_o2s in Ej by auto. rewrite <- Bi, <- Bj.
  eapply subwise_order; eauto. apply assoc0_total; auto.
Qed.
(** the tables stored before the renumbering describe it: mutually inverse permutations, and the cells' dofs are
    the old ones seen through the table *)
Theorem C71_tables : forall U, well_numbered U ->
  (forall i, i < nu_n U -> o2s U i < nu_n U /\ s2o U (o2s U i) = i /\ s2o U i < nu_n U /\ o2s U (s2o U i) = i) /\
  (forall j, j < nu_dim U * nu_n U -> vo2s U j < nu_dim U * nu_n U /\ vs2o U (vo2s U j) = j /\ vs2o U j < nu_dim U * nu_n U /\ vo2s U (vs2o U j) = j) /\
  (forall c i, c < nu_cells U -> i < nu_n U -> (In i (dofs_now U c) <-> In (s2o U i) (nu_dofs U c))).
Proof.
  intros U W. split; [|split].
  - intros i Hi. destruct (s2o_spec U W i Hi) as (A & B). repeat split; auto; [apply o2s_range; auto|]. apply inverse_table_spec; auto; [apply o2s_range; auto|apply o2s_inj; auto].
  - intros j Hj. destruct (vs2o_spec U W j Hj) as (A & B). repeat split; auto; [apply vo2s_range; auto|]. apply inverse_table_spec; auto; [apply vo2s_range; auto|apply vo2s_inj; auto].
  - intros c i Hc Hi. destruct (s2o_spec U W i Hi) as (A & B). unfold dofs_now. rewrite in_map_iff. split.
    + intros (k & K1 & K2). assert (Ek : k = s2o U i).
      { apply (o2s_inj U W); auto; [|congruence]. destruct W as (_ & _ & W2 & _). apply (W2 c); auto. }
      rewrite <- Ek. auto.
    + intros Q. exists (s2o U i). auto.
Qed.
(** the vector-valued sets, although built from the scalar ones, are those of the vector-valued handler: they
    partition its dofs, contiguously, and a process owns every component at its scalar dofs and no other *)
Theorem C71_vector_sets : forall U p j, well_numbered U -> (vcpu_set U p j = true <-> j < nu_dim U * nu_n U /\ vdomain_of U j = Some p).
Proof.
  intros U p j W. rewrite vcpu_iff. split.
  - intros (d & i & Hd & Hi & E & ->). destruct (vec_index_domain U W d i Hd Hi) as (A & B). rewrite B. auto.
  - intros (Hj & E). destruct (vs2o_spec U W j Hj) as (A & B). destruct (vec_split U (vs2o U j) A) as (d & k & Hd & Hk & Ek). exists d, (o2s U k).
    assert (So : s2o U (o2s U k) = k) by (apply inverse_table_spec; auto; [apply o2s_range; auto|apply o2s_inj; auto]).
    split; auto. split; [apply o2s_range; auto|]. split.
    + rewrite domain_o2s by auto. rewrite <- (vassoc_scalar U W d k Hd Hk), <- Ek, <- vdomain_vo2s by auto. rewrite B. auto.
    + rewrite vec_index_eq by lia. rewrite So, <- Ek. auto.
Qed.
Theorem C71_vector_partition : forall U j, well_numbered U -> j < nu_dim U * nu_n U -> exists p, p < nu_np U /\ forall q, vcpu_set U q j = true <-> q = p.
Proof.
  intros U j W Hj. destruct (vdomain_total U W j Hj) as (p & Hp & Ep). exists p. split; auto. intros q. rewrite C71_vector_sets by auto. split; [intros (_ & E); congruence|intros ->; auto].
Qed.
Theorem C71_vector_contiguous : forall U i j p q, well_numbered U -> vcpu_set U p i = true -> vcpu_set U q j = true -> p < q -> i < j.
Proof.
  intros U i j p q W Hi Hj L. apply C71_vector_sets in Hi, Hj; auto. destruct Hi as (Hi & Ei), Hj as (Hj & Ej).
  destruct (vs2o_spec U W i Hi) as (Ai & Bi), (vs2o_spec U W j Hj) as (Aj & Bj). rewrite <- Bi, vdomain_vo2s in Ei by auto. rewrite <- Bj, vdomain_vo2s in Ej by auto. rewrite <- Bi, <- Bj.
  eapply subwise_order; eauto. apply vassoc0_total; auto.
Qed.
(** the assertion of prepare_bem_vectors (boundary_conditions.cc 311-314) *)
Theorem C71_components_follow : forall U p d i, well_numbered U -> d < nu_dim U -> i < nu_n U ->
  vcpu_set U p (vec_index (nvec U) (nu_dim U) (vo2s U) (s2o U) d i) = cpu_set U p i.
Proof.
  intros U p d i W Hd Hi. destruct (vec_index_domain U W d i Hd Hi) as (A & B). apply eq_true_iff_eq. rewrite C71_vector_sets, cpu_iff, B by auto. tauto.
Qed.
Theorem C71_ghosted_contains_owned : forall U p i, well_numbered U -> cpu_set U p i = true -> ghosted U p i = true.
Proof.
  intros U p i W Hi. assert (Hn : i < nu_n U) by (apply cpu_iff in Hi; tauto). apply (C71_owner U i p W Hn) in Hi. destruct Hi as ((c & C1 & C2 & C3) & _).
  unfold ghosted. apply existsb_exists. exists c. rewrite in_seq, C2, Nat.eqb_refl. split; [lia|]. apply memb_in. auto.
Qed.
(** which processes own nothing: those whose every dof is also on a cell of a lower process *)
Theorem C71_owns_nothing_iff : forall U p, well_numbered U ->
  ((forall i, cpu_set U p i = false) <->
   forall c i, c < nu_cells U -> nu_sub U c = p -> In i (nu_dofs U c) -> exists c', c' < nu_cells U /\ nu_sub U c' < p /\ In i (nu_dofs U c')).
Proof.
  intros U p W. assert (T := C71_tables U W). destruct T as (T1 & _ & T3). assert (W' := W). destruct W' as (W0 & W1 & W2 & W3 & W4). split.
  - intros Hn c i Hc Hs Hi. assert (Ii : i < nu_n U) by (apply (W2 c); auto). specialize (Hn (o2s U i)).
    assert (D : domain_of U (o2s U i) = association (nu_cells U) (nu_dofs U) (nu_sub U) i) by (apply domain_o2s; auto).
    assert (L := association_least (nu_cells U) (nu_dofs U) (nu_sub U) i). destruct (assoc0_total U W i Ii) as (s & Ss & Es). rewrite Es in L. destruct L as ((c' & C1 & C2 & C3) & Lm). apply in_seq in C1.
    exists c'. split; [lia|]. split; auto. rewrite C3. assert (s <= p) by (rewrite <- Hs; apply Lm; auto; apply in_seq; lia).
    assert (s <> p); [|lia]. intros ->. assert (cpu_set U p (o2s U i) = true) by (apply cpu_iff; split; [apply T1; auto|congruence]). congruence.
  - intros Hc i. destruct (cpu_set U p i) eqn:E; auto. exfalso. assert (Hn : i < nu_n U) by (apply cpu_iff in E; tauto). apply (C71_owner U i p W Hn) in E. destruct E as ((c & C1 & C2 & C3) & Lm).
    apply T3 in C3; auto. destruct (Hc c _ C1 C2 C3) as (c' & D1 & D2 & D3). apply T3 in D3; auto. specialize (Lm c' D1 D3). lia.
Qed.
(** the reads of the first owned dof: defined exactly on the processes that own one, and then without effect *)
Theorem C71_touch_first_iff : forall U p (phi dphi : nat -> R),
  ((exists i, cpu_set U p i = true) <-> touch_first U p phi dphi <> None) /\
  (forall a b, touch_first U p phi dphi = Some (a, b) -> forall i, a i = phi i /\ b i = dphi i).
Proof.
  intros U p phi dphi. unfold touch_first, first_owned. destruct (find (cpu_set U p) (seq 0 (nu_n U))) as [k|] eqn:F.
  - split.
    + split; [discriminate|]. intros _. apply find_some in F. exists k. tauto.
    + intros a b Q i. injection Q as <- <-. unfold upd. destruct (Nat.eqb_spec i k) as [->|]; auto.
  - split; [|discriminate]. split; [|congruence]. intros (i & Hi). exfalso. assert (i < nu_n U) by (apply cpu_iff in Hi; tauto). rewrite (find_none _ _ F i) in Hi; [discriminate|]. apply in_seq. lia.
Qed.
(** process 0 owns all dofs of its cells, so the shift of the pure Neumann problem is defined as soon as process 0
    has a cell with a dof *)
Theorem C71_process_zero : forall U c i, well_numbered U -> c < nu_cells U -> nu_sub U c = 0 -> In i (nu_dofs U c) ->
  cpu_set U 0 (o2s U i) = true /\
  exists k, cpu_set U 0 k = true /\ (forall j, j < k -> cpu_set U 0 j = false) /\
    forall pot phi : nat -> R, exists s, shift0 U pot phi = Some s /\ (phi k + s = pot k)%R.
Proof.
  intros U c i W Hc Hs Hi. assert (Ii : i < nu_n U) by (destruct W as (_ & _ & W2 & _); apply (W2 c); auto).
  assert (C : cpu_set U 0 (o2s U i) = true).
  { apply (C71_owner U (o2s U i) 0 W); [apply o2s_range; auto|]. split; [|intros; lia]. exists c. repeat split; auto. unfold dofs_now. apply in_map. auto. }
  split; auto. unfold shift0. destruct (first_owned U 0) as [k|] eqn:F.
  - exists k. unfold first_owned in F. assert (G := find_some _ _ F). destruct G as (G1 & G2). split; auto. split.
    + intros j Hj. apply in_seq in G1. destruct (cpu_set U 0 j) eqn:E; auto. exfalso. revert F. replace (seq 0 (nu_n U)) with (seq 0 k ++ seq k (nu_n U - k)) by (rewrite <- seq_app; f_equal; lia).
      assert (In j (seq 0 k)) by (apply in_seq; lia). revert H. assert (Q : forall a, In a (seq 0 k) -> a <> k) by (intros a Ha; apply in_seq in Ha; lia).
      revert Q. generalize (seq 0 k) (seq k (nu_n U - k)). induction l as [|a l IH]; intros l2 Q Hin; [destruct Hin|]. cbn. destruct (cpu_set U 0 a) eqn:Ea.
      * intros X. injection X as X. apply (Q a); [left; auto|auto].
      * destruct Hin as [->|Hin]; [congruence|]. apply IH; auto. intros b Hb. apply Q. right. auto.
    + intros pot phi. eexists. split; [reflexivity|]. lra.
  - exfalso. assert (Hn := proj1 (proj1 (cpu_iff U 0 (o2s U i)) C)). unfold first_owned in F. rewrite (find_none _ _ F (o2s U i)) in C; [discriminate|]. apply in_seq. lia.
Qed.
(** refutes "every process can write back its part of the solution": a process may have cells and own no dof (the
    surface of a cube with one face on process 1), and then reads the first element of an empty set *)
Definition cube_faces (c : nat) : list nat :=
  nth c [[0;1;2;3]; [4;5;6;7]; [0;1;4;5]; [2;3;6;7]; [0;2;4;6]; [1;3;5;7]] [].
Definition cube : numbering := {| nu_n := 8; nu_dim := 3; nu_cells := 6; nu_dofs := cube_faces;
  nu_vdofs := fun c => flat_map (fun d => map (fun i => d * 8 + i) (cube_faces c)) [0;1;2];
  nu_sub := fun c => if Nat.eqb c 5 then 1 else 0; nu_np := 2 |}.
Lemma cube_ok : well_numbered cube.
Proof.
  split; [cbn; lia|]. split; [intros c _; cbn; destruct (Nat.eqb c 5); lia|].
  assert (C : forall c, c < nu_cells cube -> In c (seq 0 6)) by (intros c Hc; apply in_seq; cbn in Hc; lia).
  split; [intros c i Hc Hi; apply C in Hc; cbn in Hc; repeat (destruct Hc as [<-|Hc]; [cbn in Hi; cbn; lia|]); destruct Hc|].
  split.
  - intros i Hi. cbn in Hi. assert (Q : i < 4 \/ 4 <= i < 8) by lia. destruct Q; [exists 0|exists 1]; cbn; lia.
  - intros c j Hc. cbn [nu_vdofs cube]. rewrite in_flat_map. split.
    + intros (d & D1 & D2). apply in_map_iff in D2. destruct D2 as (i & <- & Hi). exists d, i. cbn [nu_dim nu_n cube]. split; [cbn in D1; lia|]. split; auto.
    + intros (d & i & D1 & D2 & ->). exists d. split; [cbn in D1; cbn; lia|]. apply in_map. exact D2.
Qed.
Theorem C71_every_process_owns_refuted : well_numbered cube /\ nu_sub cube 5 = 1 /\ (forall i, cpu_set cube 1 i = false) /\
  forall phi dphi : nat -> R, touch_first cube 1 phi dphi = None.
Proof.
  split; [exact cube_ok|]. split; auto. assert (N : forall i, cpu_set cube 1 i = false).
  { apply C71_owns_nothing_iff; [apply cube_ok|]. intros c i Hc Hs Hi. cbn in Hc, Hs. destruct (Nat.eqb_spec c 5) as [->|]; [|discriminate]. cbn in Hi.
    assert (Q : i < 8 /\ (i < 4 \/ 4 <= i)) by (repeat (destruct Hi as [<-|Hi]; [lia|]); destruct Hi). destruct Q as (Q1 & [Q|Q]); [exists 0|exists 1]; cbn; lia. }
  split; [exact N|]. intros phi dphi. reflexivity.
Qed.
(** a renumbering that does something: two quads glued along an edge, the first on process 1 *)
Definition strip : numbering := {| nu_n := 6; nu_dim := 3; nu_cells := 2; nu_dofs := fun c => nth c [[0;1;2;3]; [2;3;4;5]] [];
  nu_vdofs := fun c => flat_map (fun d => map (fun i => d * 6 + i) (nth c [[0;1;2;3]; [2;3;4;5]] [])) [0;1;2];
  nu_sub := fun c => 1 - c; nu_np := 2 |}.
Example C71_nonvacuous : well_numbered strip /\ map (o2s strip) (seq 0 6) = [4;5;0;1;2;3] /\ map (cpu_set strip 0) (seq 0 6) = [true;true;true;true;false;false] /\
  map (vcpu_set strip 1) (seq 0 18) = repeat false 12 ++ repeat true 6 /\ map (ghosted strip 1) (seq 0 6) = [true;true;false;false;true;true].
Proof.
  split; [|split; [|split; [|split]]; reflexivity].
  split; [cbn; lia|]. split; [intros c Hc; cbn [nu_sub nu_np strip]; lia|].
  split; [intros c i Hc Hi; cbn in Hc; destruct c as [|[|]]; [cbn in Hi; cbn; lia|cbn in Hi; cbn; lia|lia]|].
  split.
  - intros i Hi. cbn in Hi. assert (Q : i < 4 \/ 4 <= i < 6) by lia. destruct Q; [exists 0|exists 1]; cbn; lia.
  - intros c j Hc. cbn [nu_vdofs strip]. rewrite in_flat_map. split.
    + intros (d & D1 & D2). apply in_map_iff in D2. destruct D2 as (i & <- & Hi). exists d, i. cbn [nu_dim nu_n strip]. split; [cbn in D1; lia|]. split; auto.
    + intros (d & i & D1 & D2 & ->). exists d. split; [cbn in D1; cbn; lia|]. apply in_map. exact D2.
Qed.
