(** * C44 (driver), C45 (mesh loops), C46 (manifold ids), C55 (curvature loop). *)
From Coq Require Import QArith ZArith List Lia Arith Bool.
From Verif Require Import ModelOctree ModelDriver ModelConform.
Import ListNotations.
Local Open Scope nat_scope.

(** ** C44 *)
Section C44.
  Variables M Sol : Type.
  Variable read_domain : M.
  Variable refine_and_resize : Z -> M -> M.
  Variable update_triangulation : M -> M.
  Variable solve : M -> Sol.
  Variable adapt : M -> Sol -> M.
  Notation run := (run M Sol read_domain refine_and_resize update_triangulation solve adapt).
  Notation loop := (loop M Sol update_triangulation solve adapt).
  (** the k-th mesh: the initial one refined as requested, then k adaptive cycles *)
  Definition first_mesh (level : Z) : M := update_triangulation (refine_and_resize level read_domain).
  Definition mesh_after (level : Z) (k : nat) : M :=
    Nat.iter k (fun m => update_triangulation (adapt m (solve m))) (first_mesh level).
  (** a solve on mesh m with structures built for m *)
  Definition good_solve (m : M) : M * option M * option Sol := (m, Some m, Some (solve m)).

  Lemma loop_run global level c : (0 <= c < 2 ^ 32 - 1)%Z -> (global = true -> c = 0%Z) ->
    forall n k s, (Z.of_nat k + Z.of_nat n = c)%Z -> d_mesh _ _ s = mesh_after level k ->
    d_log _ _ s = map (fun j => good_solve (mesh_after level j)) (seq 0 k) ->
    forall fuel, S n < fuel -> exists s', loop global c fuel (Z.of_nat k) s = Some s' /\
      d_log _ _ s' = map (fun j => good_solve (mesh_after level j)) (seq 0 (S (k + n))) /\
      d_mesh _ _ s' = mesh_after level (k + n) /\ d_bem _ _ s' = Some (mesh_after level (k + n)) /\
      d_phi _ _ s' = Some (solve (mesh_after level (k + n))).
  Proof.
    intros Hc Hg n. induction n as [|n IH]; intros k s Hk Hm Hl fuel Hf.
    - destruct fuel as [|[|f]]; try lia. cbn [ModelDriver.loop].
      replace (Z.of_nat k <=? c)%Z with true by (symmetry; apply Z.leb_le; lia).
      replace (Z.of_nat k <? c)%Z with false by (symmetry; apply Z.ltb_ge; lia). rewrite andb_false_r.
      assert (U : u32 (Z.of_nat k + 1) = (Z.of_nat k + 1)%Z) by (apply Z.mod_small; lia). rewrite U.
      replace (Z.of_nat k + 1 <=? c)%Z with false by (symmetry; apply Z.leb_gt; lia).
      eexists. split; [reflexivity|]. rewrite Nat.add_0_r. cbn [solve_problem reinit d_log d_mesh d_bem d_phi option_map].
      rewrite Hl, Hm, seq_S, map_app. auto.
    - destruct fuel as [|f]; try lia. cbn [ModelDriver.loop].
      replace (Z.of_nat k <=? c)%Z with true by (symmetry; apply Z.leb_le; lia).
      replace (Z.of_nat k <? c)%Z with true by (symmetry; apply Z.ltb_lt; lia).
      assert (G : global = false) by (destruct global; auto; specialize (Hg eq_refl); lia). replace (negb global && true) with true by (rewrite G; reflexivity).
      assert (U : u32 (Z.of_nat k + 1) = Z.of_nat (S k)) by (unfold u32; rewrite Z.mod_small; lia). rewrite U.
      destruct (IH (S k) (update M Sol update_triangulation (adaptive_refinement M Sol adapt (solve_problem M Sol solve (reinit M Sol s)))) ltac:(lia)) with (fuel := f) as (s' & A & B & C); try lia.
      + cbn [update adaptive_refinement solve_problem reinit d_mesh d_phi d_bem option_map]. rewrite Hm. reflexivity.
      + cbn [update adaptive_refinement solve_problem reinit d_mesh d_phi d_bem d_log option_map]. rewrite Hl, Hm, seq_S, map_app. reflexivity.
      + exists s'. rewrite A. replace (k + S n) with (S k + n) by lia. auto.
  Qed.

  (** The run ends, having solved once per mesh: 1 + (number of cycles) times with local refinement,
      once with global refinement.  Each solve uses structures built for the mesh it is done on; the
      k-th mesh is the (k-1)-th refined with its own solution; the final state, which the errors and
      the output are computed from, is the last solve on the last mesh. *)
  Theorem C44_one_solve_per_cycle : forall (global : bool) (n_cycles pre : Z) (fuel : nat),
    (0 <= n_cycles < 2 ^ 32 - 1)%Z -> (0 <= pre < 2 ^ 32)%Z ->
    let c := if global then 0 else Z.to_nat n_cycles in
    let level := if global then n_cycles else pre in
    S (S c) <= fuel ->
    exists s, run global n_cycles pre fuel = Some s /\
      d_log _ _ s = map (fun k => good_solve (mesh_after level k)) (seq 0 (S c)) /\
      d_mesh _ _ s = mesh_after level c /\ d_bem _ _ s = Some (d_mesh _ _ s) /\ d_phi _ _ s = Some (solve (d_mesh _ _ s)).
  Proof.
    intros global n_cycles pre fuel Hn Hp c level Hf.
    assert (Un : u32 n_cycles = n_cycles) by (apply Z.mod_small; lia).
    assert (Up : u32 pre = pre) by (apply Z.mod_small; lia).
    unfold ModelDriver.run. rewrite Un, Up.
    destruct (loop_run global level (if global then 0%Z else n_cycles) ltac:(destruct global; lia) ltac:(destruct global; auto; discriminate)
      c 0 (update M Sol update_triangulation {| d_mesh := refine_and_resize (if global then n_cycles else pre) read_domain; d_bem := None; d_phi := None; d_log := [] |}))
      with (fuel := fuel) as (s & A & B & C & D & E); auto; try (unfold c; destruct global; lia).
    exists s. change (Z.of_nat 0) with 0%Z in A. rewrite A. cbn [Nat.add] in *. rewrite D, E, C. auto.
  Qed.
  (** "Number of cycles = -1" is accepted by the parameter file and, with local refinement, never ends. *)
  Theorem C44_minus_one_cycles_never_ends : forall (pre : Z) (fuel : nat), run false (-1) pre fuel = None.
  Proof.
    intros pre fuel. unfold ModelDriver.run. change (u32 (-1)) with (2 ^ 32 - 1)%Z.
    generalize (update M Sol update_triangulation {| d_mesh := refine_and_resize (u32 pre) read_domain; d_bem := None; d_phi := None; d_log := [] |}).
    assert (X : forall f i s, (0 <= i < 2 ^ 32)%Z -> loop false (2 ^ 32 - 1) f i s = None).
    { induction f as [|f IH]; intros i s Hi; auto. cbn [ModelDriver.loop].
      replace (i <=? 2 ^ 32 - 1)%Z with true by (symmetry; apply Z.leb_le; lia).
      apply IH. unfold u32. apply Z.mod_pos_bound. lia. }
    intros s. apply X. lia.
  Qed.
End C44.
Example C44_nonvacuous : option_map (fun s => (d_mesh _ _ s, length (d_log _ _ s)))
    (ModelDriver.run nat nat 5 (fun k m => m * 4 ^ Z.to_nat k) (fun m => m) (fun m => m + 1) (fun m phi => m + phi) false 2 1 10)
  = Some (4 * 21 + 2 - 3 + 0, 3) /\ (0 <= 2 < 2 ^ 32 - 1)%Z.
Proof. split; [vm_compute; reflexivity|lia]. Qed.

(** ** C46 *)
Lemma fold_set_surf ns t j : fold_left (fun t i => set_manifold (1 + i) (Surface i) t) (seq 0 ns) t j =
  if Nat.leb 1 j && Nat.leb j ns then Some (Surface (j - 1)) else t j.
Proof.
  induction ns as [|n IH]; [simpl; destruct j; reflexivity|]. rewrite seq_S, fold_left_app. cbn [fold_left]. unfold set_manifold at 1.
  destruct (Nat.eqb j (1 + (0 + n))) eqn:E.
  - apply Nat.eqb_eq in E. subst j. replace (Nat.leb 1 _ && _) with true by (symmetry; apply andb_true_iff; split; apply Nat.leb_le; lia). f_equal. f_equal. lia.
  - apply Nat.eqb_neq in E. rewrite IH. destruct (Nat.leb 1 j) eqn:A; auto. simpl.
    destruct (Nat.leb j n) eqn:B, (Nat.leb j (S n)) eqn:C; auto; apply Nat.leb_le in A; try apply Nat.leb_le in B; try apply Nat.leb_gt in B; try apply Nat.leb_le in C; try apply Nat.leb_gt in C; lia.
Qed.
Lemma fold_set_curve nc t j : fold_left (fun t i => set_manifold (11 + i) (Curve i) t) (seq 0 nc) t j =
  if Nat.leb 11 j && Nat.leb j (10 + nc) then Some (Curve (j - 11)) else t j.
Proof.
  induction nc as [|n IH].
  - simpl fold_left. destruct (Nat.leb 11 j) eqn:A; auto. apply Nat.leb_le in A. replace (Nat.leb j (10 + 0)) with false by (symmetry; apply Nat.leb_gt; lia). reflexivity.
  - rewrite seq_S, fold_left_app. cbn [fold_left]. unfold set_manifold at 1. destruct (Nat.eqb j (11 + (0 + n))) eqn:E.
    + apply Nat.eqb_eq in E. subst j. replace (Nat.leb 11 _ && _) with true by (symmetry; apply andb_true_iff; split; apply Nat.leb_le; lia). f_equal. f_equal. lia.
    + apply Nat.eqb_neq in E. rewrite IH. destruct (Nat.leb 11 j) eqn:A; auto. apply Nat.leb_le in A. cbn [andb].
      destruct (Nat.leb j (10 + n)) eqn:B, (Nat.leb j (10 + S n)) eqn:C; auto; try apply Nat.leb_le in B; try apply Nat.leb_gt in B; try apply Nat.leb_le in C; try apply Nat.leb_gt in C; lia.
Qed.
(** The manifold table after the first call: ids 11..10+nc hold the curves, of the ids 1..ns only
    those not among them hold the surfaces. *)
Theorem C46_manifold_table : forall ns nc j, manifolds_after 1 ns nc j =
  if Nat.leb 11 j && Nat.leb j (10 + nc) then Some (Curve (j - 11))
  else if Nat.leb 1 j && Nat.leb j ns then Some (Surface (j - 1)) else None.
Proof. intros. unfold manifolds_after, set_manifolds. cbn [seq fold_left]. rewrite !Nat.mul_1_l, fold_set_curve, fold_set_surf. reflexivity. Qed.
(** Every surface keeps its id iff there are at most ten surfaces or no curve. *)
Theorem C46_surfaces_keep_their_ids_iff : forall ns nc,
  (forall i, i < ns -> manifolds_after 1 ns nc (1 + i) = Some (Surface i)) <-> (ns <= 10 \/ nc = 0).
Proof.
  intros ns nc. split.
  - intros H. destruct (le_lt_dec ns 10) as [|L]; auto. right. destruct nc as [|nc]; auto. exfalso. specialize (H 10 L).
    rewrite C46_manifold_table in H. cbn [Nat.add Nat.leb andb] in H. discriminate.
  - intros H i Hi. rewrite C46_manifold_table.
    replace (Nat.leb 1 (1 + i) && Nat.leb (1 + i) ns) with true by (symmetry; apply andb_true_iff; split; apply Nat.leb_le; lia).
    replace (Nat.leb 11 (1 + i) && Nat.leb (1 + i) (10 + nc)) with false. { do 2 f_equal. lia. }
    symmetry. apply andb_false_iff. destruct (le_lt_dec 11 (1 + i)); [right|left]; apply Nat.leb_gt; lia.
Qed.
(** Curves always keep theirs. *)
Theorem C46_curves_keep_their_ids : forall ns nc i, i < nc -> manifolds_after 1 ns nc (11 + i) = Some (Curve i).
Proof.
  intros ns nc i H. rewrite C46_manifold_table.
  replace (Nat.leb 11 (11 + i) && Nat.leb (11 + i) (10 + nc)) with true by (symmetry; apply andb_true_iff; split; apply Nat.leb_le; lia).
  do 2 f_equal. lia.
Qed.
Theorem C46_distinct_ids_refuted : exists ns nc i, i < ns /\ manifolds_after 1 ns nc (1 + i) = Some (Curve 0).
Proof. exists 11, 1, 10. split; [lia|]. rewrite C46_manifold_table. reflexivity. Qed.
(** Surfaces found: all files up to the first missing number. *)
Theorem C46_files_found : forall ex fuel n, (forall i, 1 <= i <= n -> ex i = true) -> ex (S n) = false -> n < fuel -> scan ex fuel 1 = n.
Proof.
  intros ex fuel n H E L.
  assert (X : forall f k, k <= S n -> 1 <= k -> S n - k < f -> scan ex f k = S n - k).
  { induction f as [|f IH]; intros k A B C; [lia|]. cbn [scan]. destruct (Nat.eq_dec k (S n)) as [->|N].
    - rewrite E. lia.
    - rewrite H by lia. rewrite IH by lia. lia. }
  rewrite X; lia.
Qed.
Example C46_nonvacuous : manifolds_after 1 3 2 2 = Some (Surface 1) /\ manifolds_after 1 3 2 12 = Some (Curve 1) /\ manifolds_after 1 3 2 4 = None.
Proof. rewrite !C46_manifold_table. repeat split. Qed.

(** ** C55: the curvature loop's shape lookup *)
(** for every 32-bit material id: which surface, none, or an access outside the vector *)
Theorem C55_shape_lookup : forall (mid : Z) (n : nat), (0 <= mid < 2 ^ 32)%Z ->
  choose_shape mid n =
    if ((mid =? 0) || (2 ^ 31 <=? mid))%Z then OutOfBounds
    else if (mid <=? Z.of_nat n)%Z then Use (Z.to_nat mid - 1) else NoShape.
Proof.
  intros mid n H. unfold choose_shape, to_int.
  destruct (mid <? 2 ^ 31)%Z eqn:E.
  - apply Z.ltb_lt in E. replace (2 ^ 31 <=? mid)%Z with false by (symmetry; apply Z.leb_gt; lia). rewrite orb_false_r.
    destruct (mid =? 0)%Z eqn:Z0.
    + apply Z.eqb_eq in Z0. subst. replace (0 - 1 <? Z.of_nat n)%Z with true by (symmetry; apply Z.ltb_lt; lia). reflexivity.
    + apply Z.eqb_neq in Z0. replace (0 <=? mid - 1)%Z with true by (symmetry; apply Z.leb_le; lia).
      destruct (mid - 1 <? Z.of_nat n)%Z eqn:A, (mid <=? Z.of_nat n)%Z eqn:B; auto;
      try apply Z.ltb_lt in A; try apply Z.ltb_ge in A; try apply Z.leb_le in B; try apply Z.leb_gt in B; try lia. f_equal. lia.
  - apply Z.ltb_ge in E. replace (2 ^ 31 <=? mid)%Z with true by (symmetry; apply Z.leb_le; lia). rewrite orb_true_r.
    replace (mid - 2 ^ 32 - 1 <? Z.of_nat n)%Z with true by (symmetry; apply Z.ltb_lt; lia).
    replace (0 <=? mid - 2 ^ 32 - 1)%Z with false by (symmetry; apply Z.leb_gt; lia). reflexivity.
Qed.
(** so the loop is memory safe exactly on meshes without material id 0 (and without ids >= 2^31),
    although 0 is the default material id *)
Theorem C55_safe_iff_no_material_zero : forall (ids : list Z) (n : nat), (forall m, In m ids -> (0 <= m < 2 ^ 32)%Z) ->
  ((forall m, In m ids -> choose_shape m n <> OutOfBounds) <-> (forall m, In m ids -> (0 < m < 2 ^ 31)%Z)).
Proof.
  intros ids n H. split; intros A m Hm; specialize (A m Hm); specialize (H m Hm).
  - rewrite C55_shape_lookup in A by auto. destruct (m =? 0)%Z eqn:E; [exfalso; apply A; reflexivity|]. apply Z.eqb_neq in E.
    destruct (2 ^ 31 <=? m)%Z eqn:F; [exfalso; apply A; reflexivity|]. apply Z.leb_gt in F. lia.
  - rewrite C55_shape_lookup by auto. replace (m =? 0)%Z with false by (symmetry; apply Z.eqb_neq; lia).
    replace (2 ^ 31 <=? m)%Z with false by (symmetry; apply Z.leb_gt; lia). simpl. destruct (m <=? Z.of_nat n)%Z; discriminate.
Qed.
Example C55_nonvacuous : choose_shape 0 3 = OutOfBounds /\ choose_shape 3 3 = Use 2 /\ choose_shape 4 3 = NoShape.
Proof. repeat split. Qed.

(** ** C45 *)
(** the flag: set exactly when the longer extent exceeds ratio times the shorter, and then the cell
    is cut along the longer direction *)
Theorem C45_aspect_flag : forall ratio e0 e1 axis,
  aspect_flag ratio (e0, e1) = Some axis <->
  (axis = 0 /\ (e1 <= e0)%Q /\ (ratio * e1 < e0)%Q) \/ (axis = 1 /\ (e0 < e1)%Q /\ (ratio * e0 < e1)%Q).
Proof.
  intros ratio e0 e1 axis. unfold aspect_flag.
  assert (N : forall a b, negb (Qle_bool a b) = true <-> (b < a)%Q).
  { intros a b. rewrite negb_true_iff. split.
    - intros H. apply Qnot_le_lt. intros L. apply Qle_bool_iff in L. congruence.
    - intros H. destruct (Qle_bool a b) eqn:E; auto. apply Qle_bool_iff in E. exfalso. eapply Qlt_not_le; eauto. }
  destruct (Qle_bool e1 e0) eqn:E; cbn [negb].
  - apply Qle_bool_iff in E. destruct (negb (Qle_bool e0 (ratio * e1))) eqn:F.
    + apply N in F. split; [intros H; injection H as <-; cbn; auto|]. intros [(-> & _)|(_ & L & _)]; [reflexivity|]. exfalso. exact (Qlt_not_le _ _ L E).
    + split; [discriminate|]. intros [(_ & _ & L)|(_ & L & _)]; [apply N in L; congruence|exfalso; exact (Qlt_not_le _ _ L E)].
  - assert (E' : (e0 < e1)%Q) by (apply N; rewrite E; auto). destruct (negb (Qle_bool e1 (ratio * e0))) eqn:F.
    + apply N in F. split; [intros H; injection H as <-; cbn; auto|]. intros [(_ & L & _)|(-> & _)]; [|reflexivity]. exfalso. exact (Qlt_not_le _ _ E' L).
    + split; [discriminate|]. intros [(_ & L & _)|(_ & _ & L)]; [exfalso; exact (Qlt_not_le _ _ E' L)|apply N in L; congruence].
Qed.
Section C45.
  Variables M C F : Type.
  Variable cells : M -> list C.
  Variable flag : C -> option F.
  Variable execute : M -> list (C * F) -> M.
  Variable conform : M -> M.
  Notation go := (refinement_loop M C F cells flag execute conform).
  (** one full cycle *)
  Definition cycle (m : M) : M := conform (execute m (flagged M C F cells flag m)).
  Lemma flagged_nil m : flagged M C F cells flag m = [] <-> forall c, In c (cells m) -> flag c = None.
  Proof.
    unfold flagged. induction (cells m) as [|c l IH]; simpl; [split; [intros _ c []|auto]|].
    destruct (flag c) eqn:E; simpl.
    - split; [discriminate|]. intros H. specialize (H c (or_introl eq_refl)). congruence.
    - rewrite IH. split; [intros H d [<-|Hd]; auto|intros H d Hd; auto].
  Qed.
  Lemma ref_loop_spec : forall l r k m, exists n m', n <= l /\
    ref_loop M C F cells flag execute conform l r k m = (m', k + n, match n with 0 => r | S p => length (flagged M C F cells flag (Nat.iter p cycle m)) end) /\
    m' = Nat.iter n cycle m /\
    (n < l -> match n with 0 => r = 0 | S p => flagged M C F cells flag (Nat.iter p cycle m) = [] end) /\
    (forall p, S p < n -> flagged M C F cells flag (Nat.iter p cycle m) <> []) /\ (r <> 0 -> 0 < l -> 0 < n).
  Proof.
    induction l as [|l IH]; intros r k m.
    - exists 0, m. simpl. rewrite Nat.add_0_r. repeat split; auto; intros; lia.
    - cbn [ref_loop]. destruct r as [|r].
      + exists 0, m. rewrite Nat.add_0_r. repeat split; auto; intros; try lia.
      + destruct (IH (length (flagged M C F cells flag m)) (S k) (cycle m)) as (n & m' & A & B & D & E & G & K).
        assert (It : forall p, Nat.iter p cycle (cycle m) = Nat.iter (S p) cycle m).
        { induction p as [|p IHp]; [reflexivity|]. change (cycle (Nat.iter p cycle (cycle m)) = cycle (Nat.iter (S p) cycle m)). rewrite IHp. reflexivity. }
        exists (S n), m'. split; [lia|]. unfold cycle in B at 1. split; [|split; [|split; [|split; [|lia]]]].
        * etransitivity; [exact B|]. destruct n; [rewrite !Nat.add_1_r, Nat.add_0_r; reflexivity|]. rewrite It. f_equal. f_equal. lia.
        * rewrite D, It. reflexivity.
        * intros L. specialize (E ltac:(lia)). destruct n as [|p].
          -- destruct (flagged M C F cells flag m) eqn:Q; [simpl; auto|discriminate].
          -- rewrite It in E. auto.
        * intros p L. destruct p as [|p].
          -- simpl. intros Z. rewrite Z in *. simpl in *. destruct n as [|n]; [lia|].
             destruct l as [|l]; [lia|]. cbn [ref_loop] in B. injection B as _ B _. lia.
          -- rewrite <- It. apply G. lia.
  Qed.
  (** The loop makes between one and [bound] cycles; if it makes fewer than [bound] then no cell of
      the mesh it started its last cycle with was flagged, and in all earlier cycles some was. *)
  Theorem C45_loop_stops_and_why : forall bound m, 0 < bound -> exists n m' r, go bound m = (m', n, r) /\
    1 <= n <= bound /\ m' = Nat.iter n cycle m /\
    (n < bound -> forall c, In c (cells (Nat.iter (n - 1) cycle m)) -> flag c = None) /\
    (forall p, p + 1 < n -> exists c, In c (cells (Nat.iter p cycle m)) /\ flag c <> None).
  Proof.
    intros bound m Hb. destruct (ref_loop_spec bound 1 0 m) as (n & m' & A & B & D & E & G & K).
    specialize (K ltac:(lia) Hb). exists n, m'. eexists. split; [exact B|]. split; [lia|]. split; auto. split.
    - intros L c Hc. specialize (E L). destruct n as [|p]; [lia|]. replace (S p - 1) with p in Hc by lia. eapply flagged_nil; eauto.
    - intros p L. specialize (G p ltac:(lia)).
      destruct (flagged M C F cells flag (Nat.iter p cycle m)) as [|[c f] l] eqn:Q; [congruence|].
      exists c. assert (X : In (c, f) (flagged M C F cells flag (Nat.iter p cycle m))) by (rewrite Q; left; auto).
      unfold flagged in X. apply in_flat_map in X. destruct X as (c' & X1 & X2). destruct (flag c') eqn:Fc; [|destruct X2].
      destruct X2 as [X2|[]]. injection X2 as -> ->. split; auto. congruence.
  Qed.
  (** If restoring conformity is idempotent and refining without flags does nothing, a loop that
      stopped after two or more cycles but before the bound leaves a mesh without flagged cells. *)
  Theorem C45_early_stop_establishes_goal : forall bound m n m' r,
    (forall m, conform (conform m) = conform m) -> (forall m, execute m [] = m) ->
    go bound m = (m', n, r) -> 2 <= n < bound -> (forall c, In c (cells m') -> flag c = None) /\ conform m' = m'.
  Proof.
    intros bound m n m' r Hi He E Hn. destruct (C45_loop_stops_and_why bound m ltac:(lia)) as (n2 & m2 & r2 & E2 & _ & D & G & _).
    rewrite E in E2. injection E2 as <- <- <-. specialize (G ltac:(lia)).
    assert (X : m' = Nat.iter (n - 1) cycle m).
    { rewrite D. destruct n as [|[|n]]; try lia. replace (S (S n) - 1) with (S n) in * by lia.
      assert (S1 : forall k, Nat.iter (S k) cycle m = cycle (Nat.iter k cycle m)) by reflexivity.
      rewrite (S1 (S n)). unfold cycle at 1. rewrite (proj2 (flagged_nil _) G), He. rewrite (S1 n). apply Hi. }
    split; [rewrite X; auto|]. rewrite D. destruct n as [|n]; [lia|]. assert (S1 : forall k, Nat.iter (S k) cycle m = cycle (Nat.iter k cycle m)) by reflexivity. rewrite S1. apply Hi.
  Qed.
End C45.
(** With a single cycle the goal can fail: the conformity pass at the end of the cycle may produce a
    cell that exceeds the ratio. *)
Theorem C45_goal_after_one_cycle_refuted : exists (cells : nat -> list (Q * Q)) (execute : nat -> list ((Q * Q) * nat) -> nat) (conform : nat -> nat) m m' r,
  (forall m, conform (conform m) = conform m) /\ (forall m, execute m [] = m) /\
  refinement_loop nat (Q * Q) nat cells (aspect_flag (7 # 2)) execute conform 10 m = (m', 1, r) /\
  exists c, In c (cells m') /\ aspect_flag (7 # 2) c <> None.
Proof.
  exists (fun m => match m with 0 => [(1, 2)%Q] | _ => [(1, 4)%Q] end), (fun m _ => m), (fun _ => 1), 0.
  exists 1, 0. split; [reflexivity|]. split; [reflexivity|]. split; [vm_compute; reflexivity|].
  exists (1, 4)%Q. split; [left; reflexivity|]. vm_compute. discriminate.
Qed.
Example C45_nonvacuous : aspect_flag (7 # 2) (1, 4)%Q = Some 1 /\ aspect_flag (7 # 2) (1, 3)%Q = None /\
  refinement_loop nat (Q * Q) nat (fun m => match m with 0 => [(1, 4)%Q] | _ => [(1, 2)%Q; (1, 2)%Q] end) (aspect_flag (7 # 2))
    (fun m l => m + length l) (fun m => m) 10 0 = (1, 2, 0).
Proof. repeat split. Qed.
