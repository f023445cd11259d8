(** * Properties of the parallel loops of BEMFMA under every interleaving (C68-C70). *)
From Coq Require Import QArith Reals List Arith Bool Permutation Lia Lra.
From Verif Require Import ModelOctree SpecOctree ModelFmm SpecFmm LibSum PropOctree PropFmm ModelFmmExp SpecFmmAcc PropFmmAcc ProofsFmmCover ProofsFmm ProofsOctLists ProofsOctFacts ProofsOctMore ModelConc ProofsConc ModelWork SpecConc ProofsConc2 ProofsWork ProofsWork2 ProofsWork3 ProofsWork4.
From Verif Require ModelBem ModelExp.
Import ListNotations.
Local Open Scope nat_scope.

(** ** C68: the product *)
(** Whatever the interleaving of the threads, the number of CopyData objects, their stale contents and
    the values seen by reads that overlap a write: the result is that of the sequential program with
    its work items in some order, bit for bit: for any arithmetic of doubles and of the expansions. *)
Theorem C68_every_execution_is_a_sequential_one : forall {AR : arith} E I K phi owned m m', wf_in I ->
  fmm_start E m -> fmm_run E I (octree I) K phi owned m m' ->
  exists s, good_sched I (octree I) s /\ forall i, asR E (m' (Out i)) = fmm_product E I (octree I) K phi owned s i.
Proof.
  intros AR E I K phi owned m m' W H0 H1. destruct (fmm_run_result E I W K phi owned m m' H0 H1) as (s & Hs & Hr). exists s. split; auto. intros i. rewrite Hr. reflexivity.
Qed.
(** with exact arithmetic of the expansions there is only one result ... *)
Theorem C68_result_is_unique : forall G I K phi owned m1 m1' m2 m2' i, wf_in I -> 0 < o_nqc I -> geo_lin G -> i < o_nd I -> owned i = true ->
  fmm_start (lin_eops G) m1 -> fmm_run (lin_eops G) I (octree I) K phi owned m1 m1' ->
  fmm_start (lin_eops G) m2 -> fmm_run (lin_eops G) I (octree I) K phi owned m2 m2' ->
  asR _ (m1' (Out i)) = asR _ (m2' (Out i)).
Proof.
  intros G I K phi owned m1 m1' m2 m2' i W Wq HG Hi Ho S1 R1 S2 R2.
  destruct (C68_every_execution_is_a_sequential_one _ I K phi owned m1 m1' W S1 R1) as (s1 & G1 & E1).
  destruct (C68_every_execution_is_a_sequential_one _ I K phi owned m2 m2' W S2 R2) as (s2 & G2 & E2).
  rewrite E1, E2. apply C42_product_independent_of_schedule; auto.
Qed.
(** ... and with the program's own expansions it is the direct quadrature up to the truncation error of
    C59, and the same for every execution and every partition among processes *)
Theorem C68_every_execution_is_accurate : forall I p ly junk shape JxW singular phi owned m m' i, let K := code_kern I ly shape JxW singular in
  let E := code_eops I (octree I) p ly junk in
  wf_in I -> 0 < o_nqc I -> p <= 10 -> general_position I ly -> i < o_nd I -> owned i = true ->
  fmm_start E m -> fmm_run E I (octree I) K phi owned m m' ->
  (Rabs (asR E (m' (Out i)) - direct_product I K phi (code_kernel I ly i) i)
   <= far_error ly p (smallest_side I) * suml (seq 0 (o_nq I)) (fun q => Rabs (density I K phi q)))%R.
Proof.
  intros I p ly junk shape JxW singular phi owned m m' i K E W Wq Lp GP Hi Ho S R.
  destruct (C68_every_execution_is_a_sequential_one E I K phi owned m m' W S R) as (s & Gs & Es). rewrite Es. apply C59_fmm_product_is_close_to_the_direct_product; auto.
Qed.
Theorem C68_executions_agree : forall I p ly junk junk' shape JxW singular phi owned owned' m1 m1' m2 m2' i, let K := code_kern I ly shape JxW singular in
  let E := code_eops I (octree I) p ly junk in let E' := code_eops I (octree I) p ly junk' in
  wf_in I -> 0 < o_nqc I -> p <= 10 -> general_position I ly -> i < o_nd I -> owned i = true -> owned' i = true ->
  fmm_start E m1 -> fmm_run E I (octree I) K phi owned m1 m1' ->
  fmm_start E' m2 -> fmm_run E' I (octree I) K phi owned' m2 m2' ->
  asR E (m1' (Out i)) = asR E' (m2' (Out i)).
Proof.
  intros I p ly junk junk' shape JxW singular phi owned owned' m1 m1' m2 m2' i K E E' W Wq Lp GP Hi Ho Ho' S1 R1 S2 R2.
  destruct (C68_every_execution_is_a_sequential_one E I K phi owned m1 m1' W S1 R1) as (s1 & G1 & E1).
  destruct (C68_every_execution_is_a_sequential_one E' I K phi owned' m2 m2' W S2 R2) as (s2 & G2 & E2).
  rewrite E1, E2. apply C59_result_is_defined_and_schedule_independent; auto.
Qed.
(** the near-field matrices: every entry is the sum of the contributions, whatever the execution *)
Theorem C68_near_matrix : forall E I K owned m m' i d, (forall i d, m (Ent i d) = VR E 0) -> direct_run E I (octree I) K owned m m' ->
  m' (Ent i d) = VR E (suml (filter (fun x => Nat.eqb (fst (fst x)) i && Nat.eqb (snd (fst x)) d)
    (direct_adds I (octree I) K owned (st_childless (octree I)) (fun l => nth l (st_dfill (octree I)) []))) snd).
Proof.
  intros E I K owned m m' i d H0 H1. destruct (direct_run_result E I K owned m m' H0 H1) as (cl & lv & P1 & P2 & P3 & _). rewrite P3. f_equal.
  transitivity (entry (direct_adds I (octree I) K owned (st_childless (octree I)) (fun l => nth l (st_dfill (octree I)) [])) i d).
  - apply (C42_near_matrix_independent_of_schedule I K owned {| s_direct := cl; s_big := lv; s_leaves := st_childless (octree I); s_up := level_ids (octree I); s_down := fun l => nth l (st_dfill (octree I)) []; s_eval := st_childless (octree I) |} (seq_sched I)); [|apply seq_sched_good].
    unfold good_sched. cbn [s_direct s_big s_leaves s_up s_down s_eval]. repeat split; auto.
  - unfold entry. rewrite <- (Rplus_0_l (suml _ _)). generalize 0%R. induction (direct_adds I (octree I) K owned (st_childless (octree I)) (fun l => nth l (st_dfill (octree I)) [])) as [|x l IH]; intros a; cbn [fold_left filter]; [cbn; ring|].
    rewrite IH. cbn [aadd exact_arith]. destruct (Nat.eqb (fst (fst x)) i && Nat.eqb (snd (fst x)) d); auto. cbn [suml fold_right]. unfold suml. cbn [fold_right map]. ring.
Qed.
(** every product has an execution: the hypotheses are met from every starting memory *)
Theorem C68_execution_exists : forall {AR : arith} E I K phi owned m, exists m', fmm_run E I (octree I) K phi owned m m'.
Proof. intros AR. apply fmm_total. Qed.
Definition ex_mem (E : eops) : mem loc (val E) := fun l => match l with Ent _ _ => VR E 0 | Elem => VE E (elem_sample E) | Pat | FPat => VP E [] | Prec _ _ => VR E 0 | _ => VT E true end.
Example C68_nonvacuous : forall p junk shape JxW singular phi, let K := code_kern ex_oin Single shape JxW singular in
  let E := code_eops ex_oin (octree ex_oin) p Single junk in
  fmm_start E (ex_mem E) /\ exists m', fmm_run E ex_oin (octree ex_oin) K phi (fun _ => true) (ex_mem E) m' /\
  (p <= 10 -> asR E (m' (Out 0)) = fmm_product E ex_oin (octree ex_oin) K phi (fun _ => true) (seq_sched ex_oin) 0).
Proof.
  intros p junk shape JxW singular phi K E. assert (S0 : fmm_start E (ex_mem E)) by (repeat split). split; auto.
  destruct (C68_execution_exists E ex_oin K phi (fun _ => true) (ex_mem E)) as (m' & Hm). exists m'. split; auto. intros Lp.
  destruct (C68_every_execution_is_a_sequential_one E ex_oin K phi (fun _ => true) _ m' ex_oin_wf S0 Hm) as (s & Gs & Es). rewrite Es.
  apply C59_result_is_defined_and_schedule_independent; auto; try apply ex_oin_wf; try (cbn; lia); [apply C59_general_position_met; discriminate|apply seq_sched_good].
Qed.

(** ** C69: no deadlock, no livelock, no harmful race *)
Section C69.
  Variable E : eops.
  Notation steps := (wsteps loc (val E) loc_eqb loc_word).
  (** from every reachable state of a WorkStream with at least one CopyData object the loop can finish ... *)
  Theorem C69_workstream_never_stuck : forall X D (worker : X -> D -> prog loc (val E) D) copier items sample n m s, 0 < n ->
    steps X D worker copier n (w_init loc (val E) X D items sample m) s -> exists s', steps X D worker copier n s s' /\ complete loc (val E) X D n s'.
  Proof. intros. eapply work_stream_never_stuck; eauto. apply loc_eqb_spec. Qed.
  (** ... and it cannot go on for ever, so every maximal execution finishes *)
  Theorem C69_workstream_terminates : forall X D (worker : X -> D -> prog loc (val E) D) copier n s,
    Acc (fun s' s => wstep loc (val E) loc_eqb loc_word X D worker copier n s s') s.
  Proof. intros. apply work_stream_terminates. Qed.
  Theorem C69_parallel_for_never_stuck : forall ts m, exists m' ts', psteps loc (val E) loc_eqb loc_word (m, ts) (m', ts') /\ Forall (finished loc (val E)) ts'.
  Proof. apply parallel_progress. apply loc_eqb_spec. Qed.
  Theorem C69_parallel_for_terminates : forall s, Acc (fun s' s => pstep loc (val E) loc_eqb loc_word s s') s.
  Proof. apply parallel_terminates. Qed.
End C69.
(** two threads never access the same datum at the same time with one of them writing, except the static
    table of the local expansions *)
Theorem C69_only_the_static_table_races : forall {AR : arith} E I K phi owned m l, wf_in I -> fmm_start E m -> fmm_race E I (octree I) K phi owned m l -> l = Tab.
Proof. intros AR E I K phi owned m l W. apply fmm_race_table. exact W. Qed.
Theorem C69_pattern_does_not_race : forall E I owned m l, pattern_race E I (octree I) owned m l -> l = Tab.
Proof. apply pattern_race_none. Qed.
Theorem C69_preconditioner_does_not_race : forall {AR : arith} E owned nd cons init dirichlet alpha m l, prec_race E owned nd cons init dirichlet alpha m l -> l = Tab.
Proof. intros AR. apply prec_race_none. Qed.
(** the table does race, in every product of every mesh: formally undefined behaviour (refutes "the loops
    are free of data races") *)
Lemma blocks_ge2 : forall I, wf_in I -> 2 <= num_blocks (octree I).
Proof.
  intros I W. assert (R := root_split I W). destruct (b_kids (getb (st_blocks (octree I)) 0)) as [|k l] eqn:Ek; [congruence|].
  assert (Hk : In k (b_kids (getb (st_blocks (octree I)) 0))) by (rewrite Ek; left; auto).
  apply (ProofsOctTree.kid_info I _ (F_tree I W)) in Hk; [|apply F_pos; auto]. unfold num_blocks. destruct Hk as (A & _). lia.
Qed.
Theorem C69_race_free_refuted : forall {AR : arith} E I K phi owned m, wf_in I -> fmm_race E I (octree I) K phi owned m Tab.
Proof.
  intros AR E I K phi owned m W. unfold fmm_race. right.
  assert (D : exists m', direct_run E I (octree I) K owned m m').
  { destruct (fmm_total E I K phi owned m) as (m' & m1 & m2 & m3 & H1 & _). eauto. }
  destruct D as (m1 & D). exists m1. split; auto. right.
  destruct (ws_total E _ _ (elem_worker E I (octree I) K) (elem_copier E) (elem_sample E) (st_childless (octree I)) m1) as (m2 & D2). exists m2. split; [exact D2|]. right.
  assert (U : exists m', up_run E I (octree I) phi m2 m').
  { destruct (pf_total E _ (seq 0 (num_blocks (octree I))) (create_m E) m2) as (mb & H1). destruct (pf_total E _ (st_childless (octree I)) (leaf_body E I (octree I) phi) mb) as (mc & H2).
    destruct (over_total E (rev (levels I)) (fun l => ws E (up_worker E (octree I)) (up_copier E) (up_sample E) (level_ids (octree I) l))) with (m := mc) as (md & H3); [intros; apply ws_total|]. exists md, mb, mc. auto. }
  destruct U as (m3 & U). exists m3. split; auto.
  exists (fun l : loc => match l with Out i => VR E (fold_left (fun a d => aadd a (amul (asR E (m3 (Ent i d))) (phi d))) (seq 0 (o_nd I)) 0%R) | _ => m3 l end : val E).
  split; [intros l; reflexivity|]. left. set (mm := fun l : loc => _). assert (B2 := blocks_ge2 I W).
  destruct (num_blocks (octree I)) as [|[|k]]; try lia. cbn [seq].
  exists mm. cbn [map]. unfold create_l at 1, touch_table at 1.
  eexists. split.
  - eapply ps_step; [|apply ps_refl]. eapply (p_step _ _ _ _ mm mm []). eapply t_read.
  - exists 0, 1. do 2 eexists. split; [discriminate|]. split; [reflexivity|]. split; [reflexivity|]. split; reflexivity.
Qed.
(** it is harmless only because the table is written back as words: were those writes torn, one execution
    of the creation of two local expansions could leave another table *)
Theorem C69_torn_table_refuted : forall E (m : mem loc (val E)), m Tab = VT E true ->
  exists m', parallel_for loc (val E) loc_eqb (fun _ => false) [0; 1] (create_l E) m m' /\ m' Tab = VT E false.
Proof.
  intros E m Hm. unfold parallel_for. cbn [map].
  assert (Run1 : forall b l1 l2 (mm : mem loc (val E)) v, exists mz, psteps loc (val E) loc_eqb (fun _ => false) (mm, l1 ++ Run (Wr Tab v (Wr (LCen b) (VC E b) (Wr (LExp b) (VL E (lz E b)) (done1 E)))) :: l2) (mz, l1 ++ Run (Ret tt) :: l2) /\ mz Tab = v).
  { intros b l1 l2 mm v. eexists. split.
    - eapply ps_step; [constructor; apply (t_tear _ _ _ _ _ _ _ _ v); reflexivity|]. eapply ps_step; [constructor; eapply t_mend|].
      eapply ps_step; [constructor; apply (t_tear _ _ _ _ _ _ _ _ v); reflexivity|]. eapply ps_step; [constructor; eapply t_mend|].
      eapply ps_step; [constructor; apply (t_tear _ _ _ _ _ _ _ _ v); reflexivity|]. eapply ps_step; [constructor; eapply t_mend|]. apply ps_refl.
    - rewrite !put_other' by congruence. apply put_same'. }
  (* thread 0 reads the table and is writing it back when thread 1 reads it: thread 1 gets garbage,
     thread 0 finishes, thread 1 writes the garbage back *)
  set (m1 := put loc (val E) loc_eqb m Tab (VT E false)).
  set (m2 := put loc (val E) loc_eqb m1 Tab (m Tab)).
  assert (S1 : psteps loc (val E) loc_eqb (fun _ => false) (m, [Run (create_l E 0); Run (create_l E 1)])
     (m2, [Run (Wr (LCen 0) (VC E 0) (Wr (LExp 0) (VL E (lz E 0)) (done1 E))); Run (Wr Tab (VT E false) (Wr (LCen 1) (VC E 1) (Wr (LExp 1) (VL E (lz E 1)) (done1 E))))])).
  { eapply ps_step; [eapply (p_step _ _ _ _ m m []); eapply t_read|]. cbn [app].
    eapply ps_step; [eapply (p_step _ _ _ _ m m1 []); eapply t_tear; reflexivity|]. cbn [app].
    eapply ps_step; [eapply (p_step _ _ _ _ m1 m1 [Mid Tab (m Tab) (Wr (LCen 0) (VC E 0) (Wr (LExp 0) (VL E (lz E 0)) (done1 E)))] (Run (create_l E 1)) _ []); eapply t_read|].
    replace (m1 Tab) with (VT E false) by (unfold m1; rewrite put_same'; auto). cbn [app].
    eapply ps_step; [eapply (p_step _ _ _ _ m1 m2 []); eapply t_mend|]. cbn [app]. apply ps_refl. }
  assert (S2 : exists m3, psteps loc (val E) loc_eqb (fun _ => false) (m2, [Run (Wr (LCen 0) (VC E 0) (Wr (LExp 0) (VL E (lz E 0)) (done1 E))); Run (Wr Tab (VT E false) (Wr (LCen 1) (VC E 1) (Wr (LExp 1) (VL E (lz E 1)) (done1 E))))])
     (m3, [Run (Ret tt); Run (Wr Tab (VT E false) (Wr (LCen 1) (VC E 1) (Wr (LExp 1) (VL E (lz E 1)) (done1 E))))])).
  { eexists. eapply ps_step; [eapply (p_step _ _ _ _ _ _ []); eapply (t_tear _ _ _ _ _ _ _ _ (VC E 0)); reflexivity|]. eapply ps_step; [eapply (p_step _ _ _ _ _ _ []); eapply t_mend|].
    eapply ps_step; [eapply (p_step _ _ _ _ _ _ []); eapply (t_tear _ _ _ _ _ _ _ _ (VC E 0)); reflexivity|]. eapply ps_step; [eapply (p_step _ _ _ _ _ _ []); eapply t_mend|]. apply ps_refl. }
  destruct S2 as (m3 & S2). destruct (Run1 1 [Run (Ret tt)] [] m3 (VT E false)) as (m4 & S3 & T4). cbn [app] in S3.
  exists m4. split; auto. eexists. split; [eapply psteps_trans; [exact S1|]; eapply psteps_trans; [exact S2|exact S3]|]. repeat constructor.
Qed.
(** the machine does punish races: two unsynchronised "+= 1" may lose one, or leave anything *)
Example C69_machine_loses_updates : forall E (m : mem loc (val E)), m (Out 0) = VR E 0 ->
  exists m', parallel_for loc (val E) loc_eqb loc_word [0; 1] (fun _ => add_to E (Out 0) 1%R) m m' /\ m' (Out 0) = VR E 1.
Proof.
  intros E m Hm. unfold parallel_for. cbn [map].
  assert (S1 : psteps loc (val E) loc_eqb loc_word (m, [Run (add_to E (Out 0) 1%R); Run (add_to E (Out 0) 1%R)]) (m, [Run (Wr (Out 0) (VR E 1) (done1 E)); Run (Wr (Out 0) (VR E 1) (done1 E))])).
  { eapply ps_step; [eapply (p_step _ _ _ _ m m []); eapply t_read|]. cbn [app].
    eapply ps_step; [eapply (p_step _ _ _ _ m m [Run (Wr (Out 0) (VR E (asR E (m (Out 0)) + 1)) (done1 E))] (Run (add_to E (Out 0) 1%R)) _ []); eapply t_read|].
    cbn [app]. rewrite Hm. cbn [asR aadd exact_arith]. rewrite Rplus_0_l. apply ps_refl. }
  eexists. split.
  - eexists. split.
    + eapply psteps_trans; [exact S1|]. eapply ps_step; [eapply (p_step _ _ _ _ _ _ []); eapply (t_tear _ _ _ _ _ _ _ _ (VC E 0)); reflexivity|]. eapply ps_step; [eapply (p_step _ _ _ _ _ _ []); eapply t_mend|].
      eapply ps_step; [eapply (p_step _ _ _ _ _ _ [_] _ _ []); eapply (t_tear _ _ _ _ _ _ _ _ (VC E 0)); reflexivity|]. eapply ps_step; [eapply (p_step _ _ _ _ _ _ [_] _ _ []); eapply t_mend|]. apply ps_refl.
    + repeat constructor.
  - apply put_same'.
Qed.

(** ** C70: sparsity pattern and preconditioner *)
(** every execution inserts the pairs of the sequential program, each as often *)
Theorem C70_pattern : forall E I owned m m', m Pat = VP E [] -> pattern_run E I (octree I) owned m m' ->
  Permutation (asP E (m' Pat)) (sparsity I (octree I) owned).
Proof. intros E I owned m m' H0 H1. apply (pattern_run_result E I owned m m' H0 H1). Qed.
(** the diagonal is always in the pattern, so that alpha can be added to it *)
Theorem C70_pattern_has_the_diagonal : forall E I owned m m' i c, wf_in I -> 0 < o_nqc I -> m Pat = VP E [] -> pattern_run E I (octree I) owned m m' ->
  i < o_nd I -> owned i = true -> c < o_nc I -> In i (o_cdofs I c) -> In (i, i) (asP E (m' Pat)).
Proof.
  intros E I owned m m' i c W Wq H0 H1 Hi Ho Hc Hic. apply (Permutation_in _ (Permutation_sym (C70_pattern E I owned m m' H0 H1))).
  destruct (leaf_of_node I W i Hi) as (b & Hb & Hib). destruct W as (W1 & W2 & W3 & W4).
  set (q := c * o_nqc I). assert (Cq : cell_of I q = c) by (unfold cell_of, q; apply Nat.div_mul; lia).
  assert (Hq : q < o_nq I) by (unfold q, o_nq; apply Nat.mul_lt_mono_pos_r; auto).
  destruct (C38_singular_cells_are_direct I i q b) as (Nq & _); auto; [repeat split; auto; apply W3; auto|rewrite Cq; exists i; split; auto; apply W3; auto|].
  unfold sparsity. apply in_or_app. left. apply in_flat_map. exists b. split; auto. unfold near_pattern. apply in_flat_map. exists i. split; [apply filter_In; auto|].
  apply in_map. unfold dofs_of_blocks. rewrite nub_in. unfold near_quads, quads_of_blocks in Nq. rewrite nub_in in Nq. apply in_flat_map in Nq. destruct Nq as (b2 & N1 & N2).
  apply in_flat_map. exists b2. split; auto. apply in_flat_map. exists c. split; auto. unfold cells_in. rewrite nub_in. rewrite <- Cq. apply in_map. auto.
Qed.
(** the preconditioner: every execution leaves, in every owned row, the values of the sequential program
    (ModelBem.prec_row, see C17), and writes nothing in other rows *)
Theorem C70_preconditioner : forall E owned nd (c : ModelBem.constraints) es dirichlet alpha m m',
  (forall i j, m (Prec i j) = VR E 0) ->
  prec_run E owned nd (fun i => option_map ModelBem.l_entries (c i)) (ModelBem.init_prec dirichlet es) dirichlet alpha m m' ->
  let pat i j := existsb (fun e => Nat.eqb (fst e) i && Nat.eqb (snd e) j) (asP E (m Pat)) in
  forall i j, m' (Prec i j) = VR E (if Nat.ltb i nd && owned i then ModelBem.prec_row nd pat c dirichlet alpha es i j else 0%R).
Proof.
  intros E owned nd c es dirichlet alpha m m' H0 H1 pat i j.
  destruct (prec_run_result E owned nd _ _ dirichlet alpha m m' H0 H1) as (_ & A & C).
  destruct (Nat.ltb_spec i nd) as [Hi|Hi]; [destruct (owned i) eqn:Ho|]; cbn [andb]; [|apply C; intros (_ & Q); congruence|apply C; intros (Q & _); lia].
  rewrite (A i j Hi Ho). f_equal. unfold ModelBem.prec_row, fill_val, alpha_val. destruct (c i) as [l|] eqn:Ec; cbn [option_map].
  - reflexivity.
  - destruct (Req_EM_T (dirichlet i) 0); reflexivity.
Qed.
(** every entry written lies in the pattern final_prec_sparsity_pattern built before *)
Theorem C70_preconditioner_fits_its_pattern : forall E owned nd cons init dirichlet alpha m m' i j,
  (forall i j, m (Prec i j) = VR E 0) -> m FPat = VP E [] -> i < nd -> owned i = true ->
  (cons i = None -> In (i, i) (asP E (m Pat))) ->
  prec_run E owned nd cons init dirichlet alpha m m' ->
  (In (i, j) (asP E (m' FPat)) <-> match cons i with Some es => j = i \/ In j (map fst es) | None => j < nd /\ In (i, j) (asP E (m Pat)) end) /\
  (m' (Prec i j) <> VR E 0 -> In (i, j) (asP E (m' FPat))).
Proof.
  intros E owned nd cons init dirichlet alpha m m' i j H0 HF Hi Ho Hd H1.
  destruct (prec_run_result E owned nd cons init dirichlet alpha m m' H0 H1) as ((dn & P1 & P2) & A & _).
  assert (Hs : forall k, has (asP E (m Pat)) i k = true <-> In (i, k) (asP E (m Pat))).
  { intros k. unfold has. rewrite existsb_exists. split.
    - intros ((x, y) & X1 & X2). apply andb_true_iff in X2. destruct X2 as (X2 & X3). apply Nat.eqb_eq in X2, X3. cbn in X2, X3. subst. auto.
    - intros X. exists (i, k). rewrite !Nat.eqb_refl. auto. }
  assert (Q : In (i, j) (asP E (m' FPat)) <-> match cons i with Some es => j = i \/ In j (map fst es) | None => j < nd /\ In (i, j) (asP E (m Pat)) end).
  { rewrite P2, HF. cbn [asP app]. rewrite in_flat_map. transitivity (In j (frow nd cons (asP E (m Pat)) i)).
    - split.
      + intros (k & K1 & K2). apply in_map_iff in K2. destruct K2 as (c & K2 & K3). injection K2 as -> ->. auto.
      + intros Hj. exists i. split; [apply filter_In; split; auto; apply (Permutation_in _ (Permutation_sym P1)); apply in_seq; lia|]. apply in_map. auto.
    - unfold frow. destruct (cons i) as [es|]; [cbn [In]; intuition auto|]. rewrite filter_In, in_seq, Hs. intuition lia. }
  split; auto. rewrite Q. intros Hn. rewrite (A i j Hi Ho) in Hn. revert Hn. unfold fill_val, alpha_val. destruct (cons i) as [es|] eqn:Ec; intros Hn.
  - destruct (Nat.eq_dec j i) as [->|N]; auto. right. destruct (in_dec Nat.eq_dec j (map fst es)) as [Hj|Hj]; auto. exfalso. apply Hn. f_equal. unfold upd at 1. destruct (Nat.eqb_spec j i); [contradiction|].
    assert (G : forall (es : list (nat * R)) (f : nat -> R), ~ In j (map fst es) -> fold_left (fun f e => upd f (fst e) (snd e)) es f j = f j).
    { clear. induction es as [|e es IH]; intros f Hj; cbn [fold_left]; auto. rewrite IH by (intros Q; apply Hj; right; auto). unfold upd. destruct (Nat.eqb_spec j (fst e)) as [->|]; auto. exfalso. apply Hj. left; auto. }
    rewrite G by auto. unfold upd. destruct (Nat.eqb_spec j i); [contradiction|auto].
  - destruct (Nat.eq_dec j i) as [->|N]; [split; auto|]. unfold upd in Hn. destruct (Nat.eqb_spec j i); [contradiction|].
    destruct (Nat.ltb_spec j nd) as [Hj|Hj]; cbn [andb] in Hn; [|exfalso; apply Hn; auto]. destruct (has (asP E (m Pat)) i j) eqn:Eh; [|exfalso; apply Hn; auto]. split; auto. apply Hs. auto.
Qed.
Theorem C70_executions_exist : forall E I owned nd cons init dirichlet alpha m,
  (exists m', pattern_run E I (octree I) owned m m') /\ exists m', prec_run E owned nd cons init dirichlet alpha m m'.
Proof. intros. split; [apply pattern_total|apply prec_total]. Qed.
Example C70_nonvacuous : forall E, exists m' m'', pattern_run E ex_oin (octree ex_oin) (fun _ => true) (ex_mem E) m' /\
  prec_run E (fun _ => true) 2 (fun _ => None) (fun _ _ => 3%R) (fun _ => 0%R) (fun _ => 5%R) m' m'' /\ m'' (Prec 0 0) = VR E (3 + 5)%R.
Proof.
  intros E. destruct (pattern_total E ex_oin (fun _ => true) (ex_mem E)) as (m' & H1).
  destruct (prec_total E (fun _ => true) 2 (fun _ => None) (fun _ _ => 3%R) (fun _ => 0%R) (fun _ => 5%R) m') as (m'' & H2). exists m', m''. split; auto. split; auto.
  destruct (pattern_run_result E ex_oin (fun _ => true) (ex_mem E) m' eq_refl H1) as (P1 & P2).
  destruct (prec_run_result E (fun _ => true) 2 (fun _ => None) (fun _ _ => 3%R) (fun _ => 0%R) (fun _ => 5%R) m' m'') as (_ & A & _); auto; [intros; rewrite P2; reflexivity|].
  rewrite (A 0 0) by (auto; lia). f_equal. unfold upd, fill_val, alpha_val. cbn [Nat.eqb].
  assert (D : In (0, 0) (asP E (m' Pat))).
  { apply (C70_pattern_has_the_diagonal E ex_oin (fun _ => true) (ex_mem E) m' 0 0); auto; try apply ex_oin_wf; cbn; try lia; auto. }
  assert (Hh : has (asP E (m' Pat)) 0 0 = true) by (apply existsb_exists; exists (0, 0); split; auto). rewrite Hh. cbn [Nat.ltb Nat.leb andb].
  destruct (Req_EM_T 0 0) as [_|N]; [reflexivity|exfalso; apply N; auto].
Qed.
