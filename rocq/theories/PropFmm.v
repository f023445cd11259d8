(** * Properties of the fast multipole product (C37, C38, C40-C42). *)
From Coq Require Import QArith Reals List Lia Lra Arith Bool Permutation.
From Verif Require Import ModelOctree SpecOctree ModelFmm SpecFmm LibSum ProofsOctTree ProofsOctLevels ProofsOctFacts ProofsOctLists ProofsFmmCover ProofsFmmDirect ProofsFmmFar ProofsFmm ProofsOctMore PropOctree.
Import ListNotations.
Local Open Scope nat_scope.

(** ** C37 *)
Theorem C37_each_pair_accounted_for_exactly_once : forall I i q, wf_in I -> 0 < o_nqc I -> i < o_nd I -> q < o_nq I ->
  length (ways I (octree I) i q) = 1.
Proof. intros I i q W Wq Hi Hq. apply (ways_one I W); auto. Qed.
(** what each of the four ways means *)
Theorem C37_meaning_of_the_ways : forall I i q w, wf_in I -> In w (ways I (octree I) i q) ->
  let B := blk (octree I) in
  match w with
  | Near b => In b (st_childless (octree I)) /\ In i (b_nodes (B b)) /\ exists c, In c (last_int I (octree I) b) /\ In q (b_quads (B c))
  | Big b => In i (b_nodes (B b)) /\ exists s c, In c (nonint_list I (octree I) b s) /\ In q (b_quads (B c)) /\
              b_level (B c) < b_level (B b) /\ b_kids (B c) = []
  | M2L b c => In i (b_nodes (B b)) /\ In q (b_quads (B c)) /\ b_level (B c) = b_level (B b)
  | MEval b c => In i (b_nodes (B b)) /\ In q (b_quads (B c)) /\ b_level (B b) < b_level (B c) /\ b_kids (B b) = []
  end.
Proof.
  intros I i q w W H. cbv zeta. unfold blk. destruct w as [b|b|b c|b c].
  - apply (ways_far I) in H. destruct H as (H1 & H2 & H3). split; auto. split; auto. unfold near_quads, quads_of_blocks in H3. rewrite nub_in, in_flat_map in H3. exact H3.
  - apply (ways_far I) in H. destruct H as (l & Hl & H1 & H2 & H3). split; auto. unfold big_quads, quads_of_blocks in H3. rewrite nub_in, in_flat_map in H3.
    destruct H3 as (c & A & C). apply in_flat_map in A. destruct A as (s & A1 & A2). apply in_seq in A1. unfold bigger in A2. apply filter_In in A2. destruct A2 as (A2 & A3). apply Nat.ltb_lt in A3.
    apply (dfill_in I W) in H1; [|lia]. destruct H1 as (Hb & Lb & _).
    assert (B0 : 0 < b) by (destruct (Nat.eq_dec b 0) as [->|]; [assert (Z := proj2 (level_pos I _ (F_tree I W) 0 Hb) eq_refl); lia|lia]).
    assert (L1 : b_level (getb (st_blocks (octree I)) b) <> 1) by (intros L1; rewrite (nonint_1 I) in A2 by auto; destruct A2).
    assert (F := nonint_front I W b s c ltac:(lia) L1 ltac:(lia) A2). destruct F as (Hc & F).
    assert (Lc : b_level (getb (st_blocks (octree I)) c) < l).
    { destruct (Nat.le_gt_cases l (b_level (getb (st_blocks (octree I)) c))) as [Le|]; auto. exfalso.
      assert (Y := F_level_range I W c Hc). assert (Lc' := F_level_le I W c Hc). destruct (Nat.eq_dec l (b_level (getb (st_blocks (octree I)) c))) as [E|NE]; [rewrite <- E in Y; lia|].
      assert (Z := F_end_mono I W (l - 1) (b_level (getb (st_blocks (octree I)) c) - 1) ltac:(lia)).
      destruct (F_next I W (l - 1) ltac:(lia)) as (Z1 & _). destruct (F_next I W (b_level (getb (st_blocks (octree I)) c) - 1) ltac:(lia)) as (Z2 & _).
      replace (S (l - 1)) with l in Z1 by lia. replace (S (b_level (getb (st_blocks (octree I)) c) - 1)) with (b_level (getb (st_blocks (octree I)) c)) in Z2 by lia. lia. }
    exists s, c. split; auto. split; auto. split; [lia|]. destruct F as [F|(_ & F)]; [lia|auto].
  - apply (m2l_comb I W) in H. tauto.
  - apply (meval_comb I W) in H. tauto.
Qed.
Example C37_nonvacuous : ways ex_unb (octree ex_unb) 0 1 = [MEval 3 4] /\ ways ex_unb (octree ex_unb) 1 0 = [Big 4] /\
  ways ex_oin (octree ex_oin) 0 1 = [M2L 3 4] /\ ways ex_oin (octree ex_oin) 0 0 = [Near 5].
Proof. vm_compute. repeat split. Qed.

(** ** C38 *)
Theorem C38_singular_cells_are_direct : forall I i q b, wf_in I -> 0 < o_nqc I -> i < o_nd I -> q < o_nq I ->
  (exists d, In d (o_cdofs I (cell_of I q)) /\ In d (o_dbl I i)) ->
  In b (st_childless (octree I)) -> In i (b_nodes (blk (octree I) b)) ->
  In q (near_quads I (octree I) b) /\ ways I (octree I) i q = [Near b].
Proof.
  intros I i q b W Wq Hi Hq (d & D1 & D2) Hb Hib.
  assert (S : is_singular I i (cell_of I q) = true) by (apply existsb_exists; exists d; split; auto; apply mem_in; auto).
  split; [eapply singular_near|eapply singular_ways]; eauto.
Qed.
Example C38_nonvacuous : In 0 (o_cdofs ex_oin (cell_of ex_oin 0)) /\ In 0 (o_dbl ex_oin 0) /\ In 5 (st_childless (octree ex_oin)) /\ In 0 (b_nodes (blk (octree ex_oin) 5)).
Proof. vm_compute. repeat split; auto. Qed.

(** ** C40 *)
(** The FMM product at an owned node is the sum over all quadrature points of density times the
    kernel used by the one way that accounts for the pair; singular cells by the special rule. *)
Theorem C40_fmm_product_is_a_complete_sum :
  forall I G K phi owned s i b (e : nat -> nat) (w : nat -> way),
  wf_in I -> 0 < o_nqc I -> geo_lin G -> good_sched I (octree I) s -> i < o_nd I -> owned i = true ->
  In b (st_childless (octree I)) -> In i (b_nodes (blk (octree I) b)) ->
  (forall q, q < o_nq I -> In (e q) (st_childless (octree I)) /\ In q (b_quads (blk (octree I) (e q)))) ->
  (forall q, q < o_nq I -> In (w q) (ways I (octree I) i q)) ->
  fmm_product (lin_eops G) I (octree I) K phi owned s i =
  direct_product I K phi (fun q => way_kernel G (st_blocks (octree I)) K b (e q) i q (w q)) i.
Proof.
  intros I G K phi owned s i b e w W Wq HG Hs Hi Ho Hb Hib He Hw.
  rewrite (product_total I W Wq G HG K phi owned b i Hb Hib Ho s Hs).
  unfold direct_product. apply suml_ext. intros c Hc. apply in_seq in Hc. destruct (is_singular I i c); auto.
  apply suml_ext. intros q Hq. apply (quads_cell_of I) in Hq; [|lia]. destruct Hq as (_ & Hq). f_equal. unfold pk.
  assert (L := ways_one I W i q Hi Hq). assert (Hq' := Hw q Hq). destruct (ways I (octree I) i q) as [|w0 [|]]; try discriminate.
  destruct Hq' as [<-|[]]. unfold suml. cbn [fold_left fold_right map]. destruct (He q Hq) as (E1 & E2). rewrite (leafq_unique I W q (e q) E1 E2). ring.
Qed.
(** with exact expansions nothing is omitted and nothing counted twice *)
Theorem C40_exact_expansions_give_the_direct_product :
  forall I G K phi owned s i b (e : nat -> nat),
  wf_in I -> 0 < o_nqc I -> geo_lin G -> good_sched I (octree I) s -> i < o_nd I -> owned i = true ->
  In b (st_childless (octree I)) -> In i (b_nodes (blk (octree I) b)) ->
  (forall q, q < o_nq I -> In (e q) (st_childless (octree I)) /\ In q (b_quads (blk (octree I) (e q)))) ->
  (forall q w, q < o_nq I -> In w (ways I (octree I) i q) -> way_kernel G (st_blocks (octree I)) K b (e q) i q w = kd K i q) ->
  fmm_product (lin_eops G) I (octree I) K phi owned s i = direct_product I K phi (kd K i) i.
Proof.
  intros I G K phi owned s i b e W Wq HG Hs Hi Ho Hb Hib He Hx.
  assert (Wd : forall q, q < o_nq I -> ways I (octree I) i q = [hd (Near 0) (ways I (octree I) i q)]).
  { intros q Hq. assert (L := ways_one I W i q Hi Hq). destruct (ways I (octree I) i q) as [|w0 [|]]; try discriminate. auto. }
  rewrite (C40_fmm_product_is_a_complete_sum I G K phi owned s i b e (fun q => hd (Near 0) (ways I (octree I) i q))); auto.
  - unfold direct_product. apply suml_ext. intros c Hc. apply in_seq in Hc. destruct (is_singular I i c); auto.
    apply suml_ext. intros q Hq. apply (quads_cell_of I) in Hq; [|lia]. destruct Hq as (_ & Hq). f_equal. apply Hx; auto. rewrite (Wd q Hq) at 2. left; auto.
  - intros q Hq. rewrite (Wd q Hq) at 2. left; auto.
Qed.
(** with expansions of error at most eps, the product is off by at most eps times the total
    absolute density *)
Theorem C40_expansion_error_bounds_the_product_error :
  forall I G K phi owned s i b (e : nat -> nat) (eps : R),
  wf_in I -> 0 < o_nqc I -> geo_lin G -> good_sched I (octree I) s -> i < o_nd I -> owned i = true ->
  In b (st_childless (octree I)) -> In i (b_nodes (blk (octree I) b)) ->
  (forall q, q < o_nq I -> In (e q) (st_childless (octree I)) /\ In q (b_quads (blk (octree I) (e q)))) ->
  (forall q w, q < o_nq I -> In w (ways I (octree I) i q) -> (Rabs (way_kernel G (st_blocks (octree I)) K b (e q) i q w - kd K i q) <= eps)%R) ->
  (Rabs (fmm_product (lin_eops G) I (octree I) K phi owned s i - direct_product I K phi (kd K i) i)
   <= eps * suml (seq 0 (o_nq I)) (fun q => Rabs (density I K phi q)))%R.
Proof.
  intros I G K phi owned s i b e eps W Wq HG Hs Hi Ho Hb Hib He Hx.
  assert (Wd : forall q, q < o_nq I -> ways I (octree I) i q = [hd (Near 0) (ways I (octree I) i q)]).
  { intros q Hq. assert (L := ways_one I W i q Hi Hq). destruct (ways I (octree I) i q) as [|w0 [|]]; try discriminate. auto. }
  rewrite (C40_fmm_product_is_a_complete_sum I G K phi owned s i b e (fun q => hd (Near 0) (ways I (octree I) i q))); auto;
    [|intros q Hq; rewrite (Wd q Hq) at 2; left; auto].
  assert (Diff : forall (T : Type) (l : list T) (f g h : T -> R), (forall x, In x l -> (Rabs (f x - g x) <= h x)%R) -> (Rabs (suml l f - suml l g) <= suml l h)%R).
  { intros T l f g h H. replace (suml l f - suml l g)%R with (suml l (fun x => f x - g x)%R).
    - clear -H. induction l as [|x l IHl]; [unfold suml; simpl; rewrite Rabs_R0; lra|].
      change (x :: l) with ([x] ++ l). rewrite !suml_app. eapply Rle_trans; [apply Rabs_triang|]. apply Rplus_le_compat; [|apply IHl; intros; apply H; right; auto].
      assert (X := H x (or_introl eq_refl)). unfold suml; simpl. rewrite ?Rplus_0_r, ?Rplus_0_l. exact X.
    - rewrite (suml_ext l (fun x => f x - g x)%R (fun x => f x + (-1) * g x)%R) by (intros; ring). rewrite suml_plus, suml_scal. ring. }
  assert (Pos : forall (T : Type) (l : list T) (f : T -> R), (forall x, In x l -> (0 <= f x)%R) -> (0 <= suml l f)%R).
  { intros T l f H. induction l as [|x l IHl]; [unfold suml; simpl; lra|]. change (x :: l) with ([x] ++ l). rewrite suml_app.
    assert (X := H x (or_introl eq_refl)). assert (Y := IHl ltac:(intros; apply H; right; auto)). unfold suml at 1; simpl. rewrite ?Rplus_0_r, ?Rplus_0_l. lra. }
  rewrite (seq_cells I Wq), suml_flat_map, <- suml_scal. unfold direct_product. apply Diff. intros c Hc. apply in_seq in Hc.
  destruct (is_singular I i c).
  - rewrite Rminus_diag_eq by auto. rewrite Rabs_R0. destruct (Nat.eq_dec (o_nq I) 0) as [Z|Z].
    + assert (quads_of_cell I c = []) as ->. { unfold quads_of_cell. assert (o_nqc I = 0) by (unfold o_nq in Z; destruct (o_nc I); [lia|]; simpl in Z; lia). lia. } unfold suml; simpl; lra.
    + apply Rmult_le_pos; [|apply Pos; intros; apply Rabs_pos]. eapply Rle_trans; [apply Rabs_pos|]. apply (Hx 0); [lia|rewrite (Wd 0) by lia; left; auto].
  - rewrite <- suml_scal. apply Diff. intros q Hq. apply (quads_cell_of I) in Hq; [|lia]. destruct Hq as (_ & Hq).
    rewrite <- Rmult_minus_distr_r, Rabs_mult. apply Rmult_le_compat_r; [apply Rabs_pos|]. apply Hx; auto. rewrite (Wd q Hq) at 2. left; auto.
Qed.
(** the hypotheses can be met: a kernel that is constant is represented exactly by one coefficient *)
Definition cst_geo : geo := {|
  gS := fun _ _ k => if Nat.eqb k 0 then 1%R else 0%R;
  gMM := fun _ _ u => u; gML := fun _ _ u => u; gLL := fun _ _ u => u;
  gEM := fun _ _ u => u 0; gEL := fun _ _ u => u 0 |}.
Definition cst_kern : kern := {| kd := fun _ _ => (1 / 4 / PI)%R; shp := fun _ _ => 1%R; jxw := fun _ => 1%R; sing := fun _ _ _ => 1%R |}.
Example cst_geo_lin : geo_lin cst_geo.
Proof. repeat split; intros; simpl; auto. Qed.
Example C40_exactness_met : forall bs b e i q w, way_kernel cst_geo bs cst_kern b e i q w = kd cst_kern i q.
Proof.
  assert (U : forall bs q b n, carry_up cst_geo bs q b n 0 = 1%R) by (intros bs q b; induction n; simpl; auto).
  assert (D : forall bs b n u, carry_down cst_geo bs b n u 0 = u 0) by (intros bs b; induction n; intros u; simpl; auto).
  intros. destruct w; unfold way_kernel; simpl; auto; [rewrite D|]; rewrite U; auto.
Qed.
Definition seq_sched (I : oin) : sched := {|
  s_direct := st_childless (octree I); s_big := fun l => nth l (st_dfill (octree I)) []; s_leaves := st_childless (octree I);
  s_up := level_ids (octree I); s_down := fun l => nth l (st_dfill (octree I)) []; s_eval := st_childless (octree I) |}.
Example seq_sched_good : forall I, good_sched I (octree I) (seq_sched I).
Proof. intros I. unfold good_sched. cbn [seq_sched s_direct s_big s_leaves s_up s_down s_eval]. repeat split; intros; apply Permutation_refl. Qed.
Example C40_nonvacuous : fmm_product (lin_eops cst_geo) ex_oin (octree ex_oin) cst_kern (fun _ => 1%R) (fun _ => true) (seq_sched ex_oin) 0 =
  direct_product ex_oin cst_kern (fun _ => 1%R) (kd cst_kern 0) 0.
Proof.
  apply (C40_exact_expansions_give_the_direct_product ex_oin cst_geo cst_kern _ _ _ 0 5 (fun q => match q with 0 => 5 | _ => 6 end)).
  - apply ex_oin_wf.
  - cbn [o_nqc ex_oin]. lia.
  - apply cst_geo_lin.
  - apply seq_sched_good.
  - cbn [o_nd ex_oin]. lia.
  - reflexivity.
  - vm_compute; auto.
  - vm_compute; auto.
  - intros [|[|q]] Hq; [vm_compute; auto|vm_compute; auto|exfalso; vm_compute in Hq; lia].
  - intros. apply C40_exactness_met.
Qed.

(** ** C41 *)
Theorem C41_every_matrix_write_is_in_the_pattern : forall I K owned cl lv row col v,
  Permutation cl (st_childless (octree I)) ->
  (forall l, 1 <= l <= o_N I -> Permutation (lv l) (nth l (st_dfill (octree I)) [])) ->
  In (row, col, v) (direct_adds I (octree I) K owned cl lv) -> In (row, col) (sparsity I (octree I) owned).
Proof.
  intros I K owned cl lv row col v H1 H2 H. apply (adds_in_sparsity I K owned (octree I) cl lv (row, col, v)); auto.
  - intros b Hb. apply (Permutation_in _ H1); auto.
  - intros l b Hl Hb. apply (Permutation_in _ (H2 l Hl)); auto.
Qed.
(** and the pattern has no entry that is never written *)
Theorem C41_every_pattern_entry_is_written : forall I K owned cl lv row col,
  Permutation cl (st_childless (octree I)) ->
  (forall l, 1 <= l <= o_N I -> Permutation (lv l) (nth l (st_dfill (octree I)) [])) ->
  In (row, col) (sparsity I (octree I) owned) -> exists v, In (row, col, v) (direct_adds I (octree I) K owned cl lv).
Proof.
  intros I K owned cl lv row col H1 H2 H. apply (sparsity_written I K owned (octree I) cl lv (row, col)); auto.
  - intros b Hb. apply (Permutation_in _ (Permutation_sym H1)); auto.
  - intros l b Hl Hb. apply (Permutation_in _ (Permutation_sym (H2 l Hl))); auto.
Qed.
(** only owned rows are written *)
Theorem C41_only_owned_rows_are_written : forall I K owned cl lv row col v,
  Permutation cl (st_childless (octree I)) ->
  (forall l, 1 <= l <= o_N I -> Permutation (lv l) (nth l (st_dfill (octree I)) [])) ->
  In (row, col, v) (direct_adds I (octree I) K owned cl lv) -> owned row = true.
Proof.
  intros I K owned cl lv row col v H1 H2 H. apply C41_every_matrix_write_is_in_the_pattern in H; auto.
  unfold sparsity in H. apply in_app_iff in H. rewrite !in_flat_map in H. destruct H as [(b & Hb & H)|(l & Hl & H)].
  - unfold near_pattern in H. apply in_flat_map in H. destruct H as (i & Hi & H). apply in_map_iff in H. destruct H as (d & E & _). injection E as -> _. apply filter_In in Hi. tauto.
  - apply in_flat_map in H. destruct H as (b & Hb & H). unfold level_pattern in H. apply in_flat_map in H. destruct H as (s & _ & H).
    apply in_flat_map in H. destruct H as (i & Hi & H). apply in_map_iff in H. destruct H as (d & E & _). injection E as -> _. apply filter_In in Hi. tauto.
Qed.
Example C41_nonvacuous : In (0, 1) (sparsity ex_oin (octree ex_oin) (fun _ => true)).
Proof. vm_compute. auto. Qed.

(** ** C42 *)
Theorem C42_near_matrix_independent_of_schedule : forall I K owned s s' row col,
  good_sched I (octree I) s -> good_sched I (octree I) s' ->
  entry (direct_adds I (octree I) K owned (s_direct s) (s_big s)) row col =
  entry (direct_adds I (octree I) K owned (s_direct s') (s_big s')) row col.
Proof.
  intros I K owned s s' row col (A1 & A2 & _) (B1 & B2 & _). rewrite !entry_sum. unfold direct_adds. rewrite !suml_app. f_equal.
  - apply suml_perm. apply Permutation_flat_map. rewrite A1, B1. reflexivity.
  - rewrite !suml_flat_map. apply suml_ext. intros l Hl. apply in_seq in Hl. apply suml_perm. apply Permutation_flat_map. rewrite A2, B2 by lia. reflexivity.
Qed.
Theorem C42_multipole_expansions_independent_of_schedule : forall I G K phi s s' x k,
  wf_in I -> 0 < o_nqc I -> geo_lin G -> good_sched I (octree I) s -> good_sched I (octree I) s' -> x < num_blocks (octree I) ->
  let M s := ascend (lin_eops G) I (octree I) (s_up s) (leaves (lin_eops G) I (octree I) K phi (s_leaves s)) in
  fst (M s x) = x /\ fst (M s' x) = x /\ snd (M s x) k = snd (M s' x) k.
Proof.
  intros I G K phi s s' x k W Wq HG Hs Hs' Hx. cbv zeta.
  destruct (M_final I W G HG K phi s x Hs Hx) as (A1 & A2). destruct (M_final I W G HG K phi s' x Hs' Hx) as (B1 & B2).
  split; auto. split; auto. rewrite A2, B2. reflexivity.
Qed.
Theorem C42_product_independent_of_schedule : forall I G K phi owned s s' i,
  wf_in I -> 0 < o_nqc I -> geo_lin G -> good_sched I (octree I) s -> good_sched I (octree I) s' -> i < o_nd I -> owned i = true ->
  fmm_product (lin_eops G) I (octree I) K phi owned s i = fmm_product (lin_eops G) I (octree I) K phi owned s' i.
Proof.
  intros I G K phi owned s s' i W Wq HG Hs Hs' Hi Ho. destruct (leaf_of_node I W i Hi) as (b & Hb & Hib).
  rewrite (product_total I W Wq G HG K phi owned b i Hb Hib Ho s Hs), (product_total I W Wq G HG K phi owned b i Hb Hib Ho s' Hs'). reflexivity.
Qed.
Example C42_nonvacuous : good_sched ex_oin (octree ex_oin) (seq_sched ex_oin) /\
  good_sched ex_oin (octree ex_oin) {| s_direct := rev (st_childless (octree ex_oin)); s_big := fun l => rev (nth l (st_dfill (octree ex_oin)) []);
    s_leaves := rev (st_childless (octree ex_oin)); s_up := fun l => rev (level_ids (octree ex_oin) l);
    s_down := fun l => rev (nth l (st_dfill (octree ex_oin)) []); s_eval := rev (st_childless (octree ex_oin)) |}.
Proof. split; [apply seq_sched_good|]. unfold good_sched. repeat split; intros; cbn [s_direct s_big s_leaves s_up s_down s_eval]; apply Permutation_sym, Permutation_rev. Qed.
