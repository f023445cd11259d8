(** * C74: collective calls of the MPI processes *)
From Coq Require Import List Bool Arith Lia.
From Verif Require Import ModelBem ModelColl SpecColl ProofsColl.
Import ListNotations.
Local Open Scope nat_scope.

(** every process owns at least one node of the mesh *)
Definition every_process_owns (np : nat) (y : cyc) : Prop :=
  forall me, me < np -> exists i, i < y_n y /\ y_own y i = me.

(** the meshes on which a history of calls solves *)
Fixpoint solved (cur : option cyc) (h : list api) : list cyc :=
  match h with
  | [] => []
  | Api_reinit y :: h => solved (Some y) h
  | Api_solve :: h => match cur with Some y => y :: solved cur h | None => solved cur h end
  | _ :: h => solved cur h
  end.

(** ** joint executions of equal programs *)
Section JointFacts.
  Context {T : Type}.
  Variable np : nat.
  Variable ws : list T.
  Variable prog : nat -> list T.
  Hypothesis same : forall p, p < np -> prog p = ws.

  Lemma j_inv : forall j, jreach np (jstart prog) j ->
    exists l, forall p, p < np -> todo j p = l /\ (l = [] -> arrived j p = false).
  Proof.
    intros j K. remember (jstart prog) as j0. induction K as [|j1 j2 j3 K IH St]; subst.
    - exists ws. intros p Hp. split; [now apply same | reflexivity].
    - destruct (IH eq_refl) as (l & L). inversion St; subst.
      + exists l. intros q Hq. destruct (L q Hq) as [L1 L2]. split; auto. cbn. intros E.
        destruct (q =? p) eqn:EQ; auto. apply Nat.eqb_eq in EQ. subst q. congruence.
      + exists (tl l). intros q Hq. cbn. destruct (L q Hq) as [L1 _]. now rewrite L1.
  Qed.

  Lemma j_progress : forall j, jreach np (jstart prog) j -> finished np j \/ exists k, jstep np j k.
  Proof.
    intros j K. destruct (j_inv j K) as (l & L). destruct l as [|e l].
    - left. intros p Hp. now destruct (L p Hp).
    - destruct np as [|n] eqn:En; [left; intros p Hp; lia|]. right.
      destruct (forallb (arrived j) (seq 0 (S n))) eqn:F.
      + rewrite forallb_forall in F. eexists. apply (j_done _ j e); [lia|].
        intros p Hp. split.
        * apply F. apply in_seq. lia.
        * exists l. now destruct (L p Hp).
      + assert (X : exists p, p < S n /\ arrived j p = false).
        { clear L. revert F. generalize (S n). intros m. induction m as [|m IH]; [discriminate|].
          rewrite seq_S, forallb_app. cbn. intros F. destruct (forallb (arrived j) (seq 0 m)) eqn:F'.
          - exists m. split; [lia|]. cbn in F. now rewrite andb_true_r in F.
          - destruct (IH eq_refl) as (p & ? & ?). exists p. split; auto. }
        destruct X as (p & Hp & A). destruct (L p Hp) as [L1 _].
        eexists. eapply j_arrive; eauto.
  Qed.

  (** a measure decreasing with every step *)
  Definition jm (j : @joint T) (p : nat) : nat := 2 * length (todo j p) + (if arrived j p then 0 else 1).
  Definition jmeas (j : @joint T) : nat := list_sum (map (jm j) (seq 0 np)).

  Lemma sum_le : forall (f g : nat -> nat) l, (forall x, In x l -> f x <= g x) ->
    list_sum (map f l) <= list_sum (map g l).
  Proof.
    unfold list_sum. induction l as [|x l IH]; intros K; cbn; auto.
    pose proof (K x (or_introl eq_refl)). specialize (IH (fun z Z => K z (or_intror Z))). lia.
  Qed.
  Lemma sum_lt : forall (f g : nat -> nat) l x, (forall x, In x l -> f x <= g x) -> In x l -> f x < g x ->
    list_sum (map f l) < list_sum (map g l).
  Proof.
    pose proof sum_le as SL. unfold list_sum in *. induction l as [|z l IH]; intros x K I Lt; cbn; [destruct I|].
    pose proof (K z (or_introl eq_refl)). destruct I as [-> | I].
    - pose proof (SL f g l (fun z Z => K z (or_intror Z))). lia.
    - specialize (IH x (fun z Z => K z (or_intror Z)) I Lt). lia.
  Qed.

  Lemma jstep_decreases : forall j k, jstep np j k -> jmeas k < jmeas j.
  Proof.
    intros j k St. inversion St as [j' p e l Hp A E | j' e N0 K]; subst; unfold jmeas.
    - apply (sum_lt _ _ _ p).
      + intros q _. unfold jm. cbn. destruct (q =? p); destruct (arrived j q); lia.
      + apply in_seq. lia.
      + unfold jm. cbn. rewrite Nat.eqb_refl, A. lia.
    - apply (sum_lt _ _ _ 0).
      + intros q I. apply in_seq in I. destruct (K q) as [A (l & E)]; [lia|]. unfold jm. cbn. rewrite A, E. cbn. lia.
      + apply in_seq. lia.
      + destruct (K 0) as [A (l & E)]; [lia|]. unfold jm. cbn. rewrite A, E. cbn. lia.
  Qed.

  Lemma same_deadlock_free : deadlock_free np prog.
  Proof.
    split; [exact j_progress|]. intros f F0 F.
    assert (B : forall n, jmeas (f n) + n <= jmeas (f 0)).
    { induction n as [|n IH]; [lia|]. pose proof (jstep_decreases _ _ (F n)). lia. }
    specialize (B (S (jmeas (f 0)))). lia.
  Qed.
End JointFacts.

(** ** histories *)
Definition abs_api (np : nat) (s : sess) (a : api) : list aev :=
  match a, s_y s with
  | Api_reinit y, _ => a_reinit (y_direct y)
  | _, None => []
  | Api_solve, Some y => a_solve_problem (y_direct y) (negb (s_n0 s =? y_n y)) (s_first s) (hd np y) (y_itn y) (y_its y) (y_it y)
  | Api_refine, Some _ => ac [Use Phi]
  | Api_hyp_gradients, Some y => a_hyp_gradients
  | Api_errors, Some y => a_errors (y_itg y)
  | Api_output, Some _ => a_output
  end.
Fixpoint abs_history (np : nat) (s : sess) (h : list api) : list aev :=
  match h with
  | [] => []
  | a :: h => abs_api np s a ++ abs_history np (api_next s a) h
  end.

Lemma sem_api : forall np s a, sem Inv (abs_api np s a) Inv.
Proof.
  intros np s a. destruct a; cbn [abs_api].
  - apply i_reinit.
  - destruct (s_y s); [apply i_solve | apply sem_nil].
  - destruct (s_y s); [|apply sem_nil]. apply sem_checks. vm_compute. reflexivity.
  - destruct (s_y s); [apply i_hyp | apply sem_nil].
  - destruct (s_y s); [apply i_errors | apply sem_nil].
  - destruct (s_y s); [apply i_output | apply sem_nil].
Qed.
Lemma sem_history : forall np h s, sem Inv (abs_history np s h) Inv.
Proof.
  intros np. induction h as [|a h IH]; intros s; cbn [abs_history]; [apply sem_nil|].
  eapply sem_app; [apply sem_api | apply IH].
Qed.

Lemma owns_nonempty : forall y me, (exists i, i < y_n y /\ y_own y i = me) <-> nonempty y me = true.
Proof.
  intros y me. unfold nonempty. split.
  - intros (i & Hi & O). assert (I : In i (mine y me)).
    { apply filter_In. split; [apply in_seq; lia|]. unfold own. now apply Nat.eqb_eq. }
    destruct (mine y me); [destruct I | reflexivity].
  - intros K. destruct (mine y me) as [|i l] eqn:E; [discriminate|].
    assert (I : In i (mine y me)) by (rewrite E; now left).
    apply filter_In in I. destruct I as [I O]. exists i. split; [apply in_seq in I; lia|]. unfold own in O. now apply Nat.eqb_eq.
Qed.

Lemma next_y : forall s a, s_y (api_next s a) = match a with Api_reinit y => Some y | _ => s_y s end.
Proof. intros s []; unfold api_next; destruct (s_y s) eqn:E; cbn; auto. Qed.

Lemma matches_api : forall np s a me,
  (a = Api_solve -> forall y, s_y s = Some y -> nonempty y me = true) ->
  matches (abs_api np s a) (api_events np s a me).
Proof.
  intros np s a me K. destruct a; cbn [abs_api api_events].
  - apply m_reinit.
  - destruct (s_y s) as [y|]; [|constructor]. apply m_solve_problem. now apply K.
  - destruct (s_y s) as [y|]; constructor. constructor.
  - destruct (s_y s) as [y|]; [|constructor]. apply m_hyp_gradients.
  - destruct (s_y s) as [y|]; [|constructor]. apply m_errors.
  - destruct (s_y s) as [y|]; [|constructor]. apply m_output.
Qed.
Lemma matches_history : forall np me h s, Forall (fun y => nonempty y me = true) (solved (s_y s) h) ->
  matches (abs_history np s h) (history_events np s h me).
Proof.
  intros np me. induction h as [|a h IH]; intros s F; cbn [abs_history history_events]; [constructor|].
  apply matches_app.
  - apply matches_api. intros -> y E. cbn in F. rewrite E in F. now inversion F.
  - apply IH. rewrite next_y. destruct a; cbn in F; auto.
    destruct (s_y s); auto. now inversion F.
Qed.

Lemma seen_not_hidden : forall a o m, ~ In (Hidden o m) (calls a).
Proof.
  intros a o m I. apply in_flat_map in I. destruct I as (x & _ & I). destruct x; [|destruct I].
  destruct I as [I|[]]. destruct c; discriminate.
Qed.
Lemma sat0 : sat Inv pst0.
Proof.
  intros o. unfold sat_val, pst0. cbn. split; auto. destruct (snd (Inv o)); auto.
Qed.

(** every history of public calls, in which every process owns a node whenever a solve is made, has
    one list of library operations on whole objects which all processes perform, in this order, with
    the same mode of assembly; no write of a single entry triggers a communication, no assertion on
    mixed operations fails *)
Theorem C74_same_operations_on_all_processes : forall np h,
  Forall (every_process_owns np) (solved None h) ->
  exists ws, (forall o m, ~ In (Hidden o m) ws) /\
    forall me, me < np ->
      exists st d, run_evs pst0 (history_events np sess0 h me) = Some (st, ws, d).
Proof.
  intros np h F. exists (calls (abs_history np sess0 h)). split; [apply seen_not_hidden|].
  intros me Hme.
  assert (M : matches (abs_history np sess0 h) (history_events np sess0 h me)).
  { apply matches_history. eapply Forall_impl; [|exact F]. intros y K. apply owns_nonempty. now apply K. }
  destruct (sem_history np h sess0 pst0 _ sat0 M) as (st & d & R & _). eauto.
Qed.

(** what the other processes see of a process *)
Definition operations (np : nat) (h : list api) (me : nat) : list wire :=
  match run_evs pst0 (history_events np sess0 h me) with Some (_, ws, _) => ws | None => [] end.

Theorem C74_no_deadlock : forall np h,
  Forall (every_process_owns np) (solved None h) -> deadlock_free np (operations np h).
Proof.
  intros np h F. destruct (C74_same_operations_on_all_processes np h F) as (ws & _ & K).
  apply (same_deadlock_free np ws). intros p Hp. destruct (K p Hp) as (st & d & E). unfold operations. now rewrite E.
Qed.

Lemma run_first_none : forall o es st, In (First o false) es -> run_evs st es = None.
Proof.
  induction es as [|e es IH]; intros st I; [destruct I|]. cbn [run_evs]. destruct I as [-> | I].
  - reflexivity.
  - destruct (ev_step st e) as [[[s1 w1] d1]|]; auto. now rewrite IH.
Qed.
Lemma first_in_solve : forall np y me fresh first, nonempty y me = false ->
  In (First Phi false) (p_solve_problem np y me fresh first).
Proof.
  intros np y me fresh first E. unfold p_solve_problem. apply in_or_app; right. apply in_or_app; right.
  apply in_or_app; right. apply in_or_app; right. apply in_or_app; left.
  unfold p_solve_system. do 7 (apply in_or_app; right). apply in_or_app; right.
  unfold p_write_back. apply in_or_app; right. rewrite E. now left.
Qed.
Lemma first_in_history : forall np me h s, Exists (fun y => nonempty y me = false) (solved (s_y s) h) ->
  In (First Phi false) (history_events np s h me).
Proof.
  intros np me. induction h as [|a h IH]; intros s X; cbn in X; [inversion X|].
  cbn [history_events]. apply in_or_app.
  destruct a; cbn in X; try (right; apply IH; rewrite next_y; exact X).
  destruct (s_y s) as [y|] eqn:E.
  - inversion X; subst.
    + left. cbn [api_events]. rewrite E. now apply first_in_solve.
    + right. apply IH. now rewrite next_y, E.
  - right. apply IH. now rewrite next_y, E.
Qed.

(** a solve is defined on all processes exactly when every process owns a node: the write-back of the
    solution accesses the first owned node without a test *)
Theorem C74_defined_exactly_when_every_process_owns_a_node : forall np h,
  (forall me, me < np -> run_evs pst0 (history_events np sess0 h me) <> None) <->
  Forall (every_process_owns np) (solved None h).
Proof.
  intros np h. split.
  - intros K. apply Forall_forall. intros y I me Hme. apply owns_nonempty.
    destruct (nonempty y me) eqn:E; auto. exfalso. apply (K me Hme).
    apply (run_first_none Phi). apply first_in_history. cbn. apply Exists_exists. exists y. auto.
  - intros F me Hme. destruct (C74_same_operations_on_all_processes np h F) as (ws & _ & K).
    destruct (K me Hme) as (st & d & E). congruence.
Qed.

(** contributions to entries of other processes reach their owner only for the mass matrices and right
    hand sides of the projections, the hypersingular free terms b_i and the hypersingular gradients;
    the only others are zeros (the operator's += 0.).  In particular the contributions that the FMM
    products add to nodes of other processes are never delivered. *)
Theorem C74_contributions_to_other_processes : forall np h me st ws d o i v,
  Forall (every_process_owns np) (solved None h) -> me < np ->
  run_evs pst0 (history_events np sess0 h me) = Some (st, ws, d) -> In (o, i, v) d ->
  (exists a, o = B_i a) \/
  In o [Normals_matrix; Normals_rhs; Surface_matrix; Surface_rhs; Gradients_matrix; Gradients_rhs; Hyp_gradients] \/
  (o = Krylov /\ v = Wzero).
Proof.
  intros np h me st ws d o i v F Hme R I.
  assert (M : matches (abs_history np sess0 h) (history_events np sess0 h me)).
  { apply matches_history. eapply Forall_impl; [|exact F]. intros y K. apply owns_nonempty. now apply K. }
  destruct (sem_history np h sess0 pst0 _ sat0 M) as (st' & d' & R' & _ & D & _).
  rewrite R in R'. injection R' as _ _ <-. rewrite Forall_forall in D. specialize (D _ I). cbn in D.
  destruct D as [D | D]; auto. destruct o; try discriminate; cbn; eauto 10.
Qed.

(** the objects to which processes contribute entries of other processes: mass matrices and right hand
    sides of the three projections, hypersingular free terms, hypersingular gradients *)
Definition assembled_together (o : obj) : Prop :=
  (exists a, o = B_i a) \/
  In o [Normals_matrix; Normals_rhs; Surface_matrix; Surface_rhs; Gradients_matrix; Gradients_rhs; Hyp_gradients].

(** the entries of other processes that a list of events writes in object [o], and those of [o] among
    the deliveries, in order *)
Definition written_for_others (o : obj) (es : list ev) : list (nat * wval) :=
  flat_map (fun e => match e with
                     | Write p i _ v mine => if obj_eqb p o && negb mine then [(i, v)] else []
                     | _ => []
                     end) es.
Definition delivered (o : obj) (d : list (obj * nat * wval)) : list (nat * wval) :=
  flat_map (fun x => if obj_eqb (fst (fst x)) o then [(snd (fst x), snd x)] else []) d.

(** for these objects every contribution arrives, once and in order, and after every public call
    nothing is left waiting *)
Theorem C74_shared_contributions_all_arrive : forall np h me st ws d o,
  Forall (every_process_owns np) (solved None h) -> me < np ->
  run_evs pst0 (history_events np sess0 h me) = Some (st, ws, d) -> assembled_together o ->
  delivered o d = written_for_others o (history_events np sess0 h me) /\ queue st o = [].
Proof.
  intros np h me st ws d o F Hme R Sh.
  assert (M : matches (abs_history np sess0 h) (history_events np sess0 h me)).
  { apply matches_history. eapply Forall_impl; [|exact F]. intros y K. apply owns_nonempty. now apply K. }
  destruct (sem_history np h sess0 pst0 _ sat0 M) as (st' & d' & R' & S' & _ & K).
  rewrite R in R'. injection R' as <- _ <-.
  assert (Sh' : shared o = true).
  { destruct Sh as [(a & ->) | Sh]; auto. cbn in Sh. repeat (destruct Sh as [<- | Sh]; [reflexivity|]). destruct Sh. }
  assert (Q : queue st o = []).
  { destruct (S' o) as [_ S2]. destruct o; try discriminate; exact S2. }
  split; [|exact Q]. specialize (K o Sh'). rewrite Q, app_nil_r in K. exact K.
Qed.

(** the driver *)
Lemma solved_driver : forall ys cur, solved cur (driver_cycles ys) = ys.
Proof.
  induction ys as [|y ys IH]; intros cur; auto. destruct ys as [|y' ys].
  - reflexivity.
  - change (driver_cycles (y :: y' :: ys)) with ([Api_reinit y; Api_solve; Api_refine] ++ driver_cycles (y' :: ys)).
    cbn [app solved]. f_equal. apply IH.
Qed.
Theorem C74_driver_run_cannot_deadlock : forall np ys,
  Forall (every_process_owns np) ys ->
  deadlock_free np (operations np (driver_cycles ys)).
Proof. intros np ys F. apply C74_no_deadlock. now rewrite solved_driver. Qed.

(** ** Non-vacuity *)
(** two processes, three nodes, one double pair, a hanging constraint; [d]: mode; [ids]: Dirichlet ids *)
Definition ex_y (d : bool) (ids : list nat) : cyc := {|
  y_direct := d; y_n := 3; y_own := fun i => match i with 0 => 0 | _ => 1 end;
  y_vown := fun i => match i with 0 | 1 | 2 => 0 | _ => 1 end;
  y_cells := [({| c_dofs := [0; 1]; c_mat := 1; c_sub := 0 |}, [0; 1; 2; 3; 4; 5]);
              ({| c_dofs := [1; 2]; c_mat := 2; c_sub := 1 |}, [3; 4; 5; 6; 7; 8])];
  y_ids := ids; y_doubles := fun i => match i with 0 | 1 => [0; 1] | _ => [2] end;
  y_con := fun i => match i with 1 => Some [0] | _ => None end; y_vlines := [3; 4; 5];
  y_vec := fun a i => 3 * i + match a with AX => 0 | AY => 1 | AZ => 2 end;
  y_isdir := fun i => match i with 0 => true | _ => false end; y_pat := fun i => [0; 1; 2];
  y_near := fun _ => [[0; 1]; [2]]; y_down := fun _ => [[0; 1]; [2]]; y_leaf := fun _ => [[2]; [0; 1]];
  y_itn := 2; y_its := 1; y_itg := 1; y_it := 3 |}.
Lemma ex_owns : forall d ids, every_process_owns 2 (ex_y d ids).
Proof.
  intros d ids me Hme. destruct me as [|[|me]]; [exists 0 | exists 1 | lia]; cbn; auto.
Qed.
Example C74_nonvacuous :
  Forall (every_process_owns 2) (solved None (driver_cycles [ex_y true [1]; ex_y false []])) /\
  (* the two processes perform many and the same operations but do not write the same entries *)
  length (operations 2 (driver_cycles [ex_y true [1]; ex_y false []]) 0) = 374 /\
  operations 2 (driver_cycles [ex_y true [1]; ex_y false []]) 0 =
  operations 2 (driver_cycles [ex_y true [1]; ex_y false []]) 1.
Proof.
  split; [repeat constructor; apply ex_owns|]. split; vm_compute; reflexivity.
Qed.
(** the notion of deadlock is not empty: two processes with different first operations *)
Example C74_deadlock_possible : ~ deadlock_free 2 (fun p => match p with 0 => [Enter Barrier] | _ => [Enter Bcast] end).
Proof.
  intros [P _].
  set (prog := fun p => match p with 0 => [Enter Barrier] | _ => [Enter Bcast] end).
  pose proof (j_arrive 2 (jstart prog) 0 (Enter Barrier) [] ltac:(lia) eq_refl eq_refl) as S1.
  match type of S1 with jstep _ _ ?k1 =>
    pose proof (j_arrive 2 k1 1 (Enter Bcast) [] ltac:(lia) eq_refl eq_refl) as S2 end.
  match type of S2 with jstep _ _ ?k2 => set (j := k2) in S2; destruct (P j) as [Fi | (k & St)] end.
  - eapply jr_step; [eapply jr_step; [apply jr_refl | exact S1] | exact S2].
  - specialize (Fi 0 (Nat.lt_0_succ _)). discriminate.
  - inversion St as [? p e l Hp A E | ? e N0 K]; subst.
    + destruct p as [|[|p]]; cbn in A; try discriminate. lia.
    + destruct (K 0 (Nat.lt_0_succ _)) as [_ (l & E0)]. destruct (K 1 (Nat.lt_succ_diag_r _)) as [_ (l' & E1)].
      cbn in E0, E1. congruence.
Qed.
(** process 0 does contribute to entries of process 1, and both to their own *)
Example C74_contributions_nonvacuous :
  match run_evs pst0 (history_events 2 sess0 [Api_reinit (ex_y true [1]); Api_solve] 0) with
  | Some (st, ws, d) => delivered Normals_rhs d = [(3, Wsome); (4, Wsome); (5, Wsome)] /\
                        delivered (B_i AX) d = [(1, Wsome)] /\ assembled_together (B_i AX)
  | None => False
  end.
Proof.
  match goal with |- match ?r with _ => _ end => let v := eval vm_compute in (option_map (fun x => snd x) r) in
    destruct r as [[[st ws] d]|] eqn:E; [assert (D : Some d = v)|] end.
  - match type of E with ?r = _ => assert (X : option_map (fun x => snd x) r = Some d) by (rewrite E; reflexivity) end.
    rewrite <- X. vm_compute. reflexivity.
  - injection D as ->. split; [reflexivity|]. split; [reflexivity|]. left. eexists. reflexivity.
  - match type of E with ?r = _ => assert (X : match r with None => true | _ => false end = true) by (rewrite E; reflexivity) end.
    vm_compute in X. discriminate.
Qed.
