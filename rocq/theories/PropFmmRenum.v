(** Property theorems C85: octree, lists and fast products do not depend on how the unknowns are numbered, nor, therefore,
    on the number of processes. *)
From Coq Require Import QArith Qreals Reals List Lia Lra Arith Bool Permutation.
From Verif Require Import ModelOctree SpecOctree ModelFmm SpecFmm LibSum PropOctree PropFmm ModelFmmExp SpecFmmAcc ProofsFmmCover ProofsFmmFar ProofsOctFacts ProofsFmmGeo ProofsFmmAcc PropFmmAcc.
From Verif Require Import SpecRenumber SpecFmmRenum ProofsRenumOct ProofsOctGeom ProofsOctTree.
From Verif Require Import ProofsAcc1 ProofsAcc2.
From Verif Require ModelExp ModelKernel ProofsFmm ModelAssemble PropCoincide.
Import ListNotations.
Local Open Scope R_scope.

(** The boxes and all lists are the same. *)
Theorem C85_octree_does_not_depend_on_the_numbering : forall pi rho I I', same_mesh pi rho I I' -> rounds_numbers I -> wf_in I -> wf_in I' ->
  let st := octree I in let st' := octree I' in
  num_blocks st' = num_blocks st /\ (forall k, same_box pi (blk st k) (blk st' k)) /\ st_childless st' = st_childless st /\
  (forall k s b, In b (near I' st' k s) <-> In b (near I st k s)) /\
  (forall k s b, In b (int_list I' st' k s) <-> In b (int_list I st k s)) /\
  (forall k s b, In b (nonint_list I' st' k s) <-> In b (nonint_list I st k s)) /\
  (forall i q w, (i < o_nd I)%nat -> (In w (ways I' st' i q) <-> In w (ways I st (pi i) q))).
Proof.
  intros pi rho I I' SM RN W W' st st'. split; [apply (len_same pi rho); auto|]. split; [|split; [|split; [|split; [|split]]]].
  - intros k. destruct (Bs pi rho I I' SM RN k) as (A1 & A2 & A3 & A4 & (A5 & A6 & A7) & A8 & A9 & _). unfold same_box, blk, st, st'. auto 12.
  - apply (octree_same pi rho I I' SM RN).
  - intros k s b. unfold st, st'. rewrite (near_same pi rho I I' SM RN). reflexivity.
  - intros k s b. apply (int_same pi rho); auto.
  - intros k s b. apply (nonint_same pi rho); auto.
  - intros i q w Li. apply (ways_same pi rho); auto.
Qed.

Section K.
  Variables (pi rho : nat -> nat) (I I' : oin).
  Hypothesis SM : same_mesh pi rho I I'.
  Hypothesis W : wf_in I.
  Hypothesis W' : wf_in I'.
  Variables (p : nat) (ly : layer).
  Hypothesis GP : general_position I ly.
  Lemma exact_rn : rounds_numbers I.
  Proof. destruct GP as (_ & _ & _ & _ & _ & E). intros x y Exy. transitivity x; [apply E|]. transitivity y; [exact Exy|]. symmetry. apply E. Qed.
  Notation RN := exact_rn.
  Lemma Q2R_px b b' : pt_eq b b' -> Q2R (px b') = Q2R (px b) /\ Q2R (py b') = Q2R (py b) /\ Q2R (pz b') = Q2R (pz b).
  Proof. intros (A & B & C). repeat split; apply Qeq_eqR; auto. Qed.
  Lemma centre_same k : rpt (centre (blk (octree I') k)) = rpt (centre (blk (octree I) k)).
  Proof.
    destruct (Bs pi rho I I' SM RN k) as (_ & _ & _ & _ & (X & Y & Z) & D & _). unfold blk, rpt, centre. cbn [px py pz].
    f_equal; apply Qeq_eqR; rewrite ?X, ?Y, ?Z, D; reflexivity.
  Qed.
  Lemma side_same : smallest_side I' = smallest_side I.
  Proof. unfold smallest_side, blk. destruct (Bs pi rho I I' SM RN 0%nat) as (_ & _ & _ & _ & _ & D & _). rewrite (Qeq_eqR _ _ D), (sm_N _ _ _ _ SM). reflexivity. Qed.
  Lemma gp_same : general_position I' ly.
  Proof.
    pose proof GP as (G1 & G2 & G3 & G4 & G5 & G6). assert (Ec : st_childless (octree I') = st_childless (octree I)) by apply (octree_same pi rho I I' SM RN).
    unfold general_position. rewrite (nq_same pi rho I I' SM), Ec, side_same. split; [|split; [|split; [|split; [|split]]]]; auto.
    - intros q Lq a La. rewrite (sm_qpos _ _ _ _ SM q Lq). specialize (G1 q Lq a La). destruct (Bs pi rho I I' SM RN 0%nat) as (_ & _ & _ & _ & (X & Y & Z) & D & _). unfold blk in *.
      destruct a as [|[|a]]; cbn [axis] in *; rewrite ?X, ?Y, ?Z, D; exact G1.
    - intros b q Hb Hq. rewrite centre_same. assert (Eq : b_quads (blk (octree I') b) = b_quads (blk (octree I) b)) by apply (Bs pi rho I I' SM RN b). rewrite Eq in Hq.
      assert (Lq : (q < o_nq I)%nat) by (apply (quad_bound I W b); auto; apply (F_cl I W); auto). cbv zeta. rewrite (sm_qpos _ _ _ _ SM q Lq). apply G2; auto.
    - intros b i Hb Hi. rewrite centre_same. assert (Li : (i < o_nd I)%nat) by (apply (Bs pi rho I I' SM RN b); exact Hi). rewrite (sm_pos _ _ _ _ SM i Li). apply G3; auto. apply (in_nodes pi rho I I' SM RN b i Li). exact Hi.
    - intros x. rewrite (sm_rnd _ _ _ _ SM). apply G6.
  Qed.

End K.

(** the kernel value the product uses for the pair (node, point) accounted for in the way [w] *)
Definition used_kernel (I : oin) (p : nat) (ly : layer) (i q : nat) (w : way) : R :=
  match w with
  | Near _ | Big _ => code_kernel I ly i q
  | M2L b c => lsum I p ly (node I i) (gconv b c (dlt q)) / 4 / PI
  | MEval _ c => rsum (seq 0 (o_nq I)) (fun k => dlt q k * unit_m I p ly (cen I c) (node I i) k) / 4 / PI
  end.
Lemma product_used I p ly i : wf_in I -> (0 < o_nqc I)%nat -> (p <= 10)%nat -> general_position I ly -> (i < o_nd I)%nat ->
  forall shape JxW singular phi owned s junk, let K := code_kern I ly shape JxW singular in good_sched I (octree I) s -> owned i = true ->
    fmm_product (code_eops I (octree I) p ly junk) I (octree I) K phi owned s i =
    direct_product I K phi (fun q => used_kernel I p ly i q (hd (Near 0) (ways I (octree I) i q))) i.
Proof.
  intros W Wq Lp GP Hi. destruct (leaf_of_node I W i Hi) as (b & Hb & Hib). destruct (parts I ly GP) as (P0 & P1). assert (RX : exact_arithmetic I) by (destruct GP as (_ & _ & _ & _ & _ & RX); exact RX).
  assert (Wd : forall q, (q < o_nq I)%nat -> In (hd (Near 0) (ways I (octree I) i q)) (ways I (octree I) i q)).
  { intros q Hq. assert (L := ways_one I W i q Hi Hq). destruct (ways I (octree I) i q) as [|w0 [|]]; try discriminate. left; reflexivity. }
  intros shape JxW singular phi owned s junk K Hs Ho. rewrite (code_product I W p Lp ly junk); auto.
  - rewrite (C40_fmm_product_is_a_complete_sum I (gf I p ly) K phi owned s i b (leafq I) (fun q => hd (Near 0) (ways I (octree I) i q))); auto.
    + unfold direct_product. apply suml_ext. intros c Hc. destruct (is_singular I i c); auto. apply suml_ext. intros q Hq. f_equal.
      unfold way_kernel, used_kernel. destruct (hd _ _); auto; cbv zeta; rewrite ?down_id, ?up_id; reflexivity.
    + apply gf_lin.
    + intros q Lq. apply (leafq_facts I W); auto.
  - apply (normal_ok I ly GP).
  - intros b' q Hb' Hq'. destruct GP as (_ & G2 & _). specialize (G2 b' q Hb' Hq'). unfold cen. rewrite center_centre. exact G2.
  - intros b' j Hb' Hj'. destruct GP as (_ & _ & G3 & _). specialize (G3 b' j Hb' Hj'). unfold cen. rewrite center_centre. exact G3.
Qed.

Section P.
  Variables (pi rho : nat -> nat) (I I' : oin).
  Hypothesis SM : same_mesh pi rho I I'.
  Hypothesis W : wf_in I.
  Hypothesis W' : wf_in I'.
  Variables (p : nat) (ly : layer).
  Hypothesis GP : general_position I ly.
  Let RN : rounds_numbers I := exact_rn I ly GP.
  Lemma cen_same k : cen I' k = cen I k.
  Proof. unfold cen. rewrite !center_centre. apply (centre_same pi rho I I' SM ly GP). Qed.
  Lemma node_same i : (i < o_nd I)%nat -> node I' i = node I (pi i).
  Proof. intros Li. unfold node. rewrite (sm_pos _ _ _ _ SM i Li). reflexivity. Qed.
  Lemma usrc_same q : (q < o_nq I)%nat -> usrc I' ly q = usrc I ly q.
  Proof. intros Lq. unfold usrc, src_of. rewrite (sm_qpos _ _ _ _ SM q Lq). reflexivity. Qed.
  Lemma code_kernel_same i q : (i < o_nd I)%nat -> (q < o_nq I)%nat -> code_kernel I' ly i q = code_kernel I ly (pi i) q.
  Proof. intros Li Lq. unfold code_kernel, sep. rewrite (sm_pos _ _ _ _ SM i Li), (sm_qpos _ _ _ _ SM q Lq). reflexivity. Qed.
  Lemma used_same i q w : (i < o_nd I)%nat -> (q < o_nq I)%nat -> used_kernel I' p ly i q w = used_kernel I p ly (pi i) q w.
  Proof.
    intros Li Lq. destruct w as [b|b|b c|b c]; cbn [used_kernel]; try (apply code_kernel_same; auto).
    - f_equal. f_equal. unfold lsum. rewrite (len_same pi rho I I' SM RN), (nq_same pi rho I I' SM), (node_same i Li).
      apply rsum_ext. intros a _. apply rsum_ext. intros a' _. apply rsum_ext. intros k Hk. apply in_seq in Hk. f_equal. unfold unit_l. rewrite !cen_same, usrc_same by lia. reflexivity.
    - f_equal. f_equal. rewrite (nq_same pi rho I I' SM). apply rsum_ext. intros k Hk. apply in_seq in Hk. f_equal. unfold unit_m. rewrite cen_same, (node_same i Li), usrc_same by lia. reflexivity.
  Qed.
  Lemma way_same i q : (i < o_nd I)%nat -> (q < o_nq I)%nat -> hd (Near 0) (ways I' (octree I') i q) = hd (Near 0) (ways I (octree I) (pi i) q).
  Proof.
    intros Li Lq. assert (L1 := ways_one I W (pi i) q (pi_lt pi rho I I' SM i Li) Lq).
    assert (L2 := ways_one I' W' i q ltac:(rewrite (sm_nd _ _ _ _ SM); exact Li) ltac:(rewrite (nq_same pi rho I I' SM); exact Lq)).
    assert (X := fun w => ways_same pi rho I I' SM RN W W' i q w Li).
    destruct (ways I (octree I) (pi i) q) as [|w [|]]; try discriminate. destruct (ways I' (octree I') i q) as [|w' [|]]; try discriminate. cbn [hd].
    destruct (proj1 (X w') (or_introl eq_refl)) as [E|[]]. auto.
  Qed.
  Lemma singular_same i c : (i < o_nd I)%nat -> (c < o_nc I)%nat -> is_singular I' i c = is_singular I (pi i) c.
  Proof.
    intros Li Lc. unfold is_singular. rewrite <- (sm_cdofs _ _ _ _ SM c Lc).
    assert (D : forall d, In d (o_cdofs I' c) -> (d < o_nd I)%nat) by (intros d Hd; rewrite <- (sm_nd _ _ _ _ SM); destruct W' as (_ & _ & _ & A); apply (A c); auto; rewrite (sm_nc _ _ _ _ SM); auto).
    revert D. generalize (o_cdofs I' c) as l. induction l as [|d l IH]; intros D; [reflexivity|]. cbn [map existsb]. rewrite IH by (intros; apply D; right; auto).
    f_equal. apply mem_eq. apply (in_dbl pi rho I I' SM W'); auto. apply D. left; auto.
  Qed.
  Lemma dof_list_same c : (c < o_nc I)%nat -> dof_list I c = map (fun jd => (fst jd, pi (snd jd))) (dof_list I' c).
  Proof.
    intros Lc. unfold dof_list. rewrite <- (sm_cdofs _ _ _ _ SM c Lc), map_length. generalize (o_cdofs I' c) as l. generalize 0%nat.
    intros k l. revert k. induction l as [|d l IH]; intros k; [reflexivity|]. cbn [length seq map combine fst snd]. f_equal. apply IH.
  Qed.
  Lemma product_same phi phi' K K' k k' i : (i < o_nd I)%nat -> (forall j, (j < o_nd I)%nat -> phi' j = phi (pi j)) ->
    (forall q, (q < o_nq I)%nat -> k' q = k q) -> (forall q j, shp K' q j = shp K q j) -> (forall q, jxw K' q = jxw K q) ->
    (forall c j, (c < o_nc I)%nat -> sing K' i c j = sing K (pi i) c j) ->
    direct_product I' K' phi' k' i = direct_product I K phi k (pi i).
  Proof.
    intros Li Ep Ek Es Ej Eg. unfold direct_product. rewrite (sm_nc _ _ _ _ SM). apply suml_ext. intros c Hc. apply in_seq in Hc. assert (Lc : (c < o_nc I)%nat) by lia.
    assert (Dl : forall c jd, (c < o_nc I)%nat -> In jd (dof_list I' c) -> (snd jd < o_nd I)%nat).
    { intros c0 [j d] Lc0 Hj. unfold dof_list in Hj. apply in_combine_r in Hj. cbn [snd]. rewrite <- (sm_nd _ _ _ _ SM). destruct W' as (_ & _ & _ & A). apply (A c0); auto. rewrite (sm_nc _ _ _ _ SM); auto. }
    rewrite (singular_same i c Li Lc). destruct (is_singular I (pi i) c).
    - rewrite (dof_list_same c Lc), suml_map. apply suml_ext. intros jd Hj. cbn [fst snd]. rewrite Eg, Ep; auto. apply (Dl c); auto.
    - rewrite (quads_of_cell_same pi rho I I' SM). apply suml_ext. intros q Hq. apply (ProofsFmm.quads_cell_of I) in Hq; [|lia]. destruct Hq as (Ec & Lq). rewrite (Ek q Lq). f_equal. unfold density.
      assert (Ecl : cell_of I' q = cell_of I q) by (unfold cell_of; rewrite (sm_nqc _ _ _ _ SM); reflexivity). rewrite Ecl, Ec, (dof_list_same c Lc), suml_map.
      apply suml_ext. intros jd Hj. cbn [fst snd]. rewrite Es, Ej, Ep; auto. apply (Dl c); auto.
  Qed.
End P.

(** The fast product is the same number at the same node: it depends neither on the numbering of the unknowns, nor on the
    sets of owned nodes, the schedules or the values read from undefined objects. *)
Theorem C85_fast_product_does_not_depend_on_the_numbering :
  forall pi rho I I' p ly shape JxW sg sg' phi phi' owned owned' s s' junk junk' i,
  same_mesh pi rho I I' -> wf_in I -> wf_in I' -> (0 < o_nqc I)%nat -> (p <= 10)%nat -> general_position I ly ->
  (i < o_nd I)%nat -> owned (pi i) = true -> owned' i = true -> good_sched I (octree I) s -> good_sched I' (octree I') s' ->
  (forall c j, (c < o_nc I)%nat -> sg' i c j = sg (pi i) c j) -> (forall j, (j < o_nd I)%nat -> phi' j = phi (pi j)) ->
  fmm_product (code_eops I' (octree I') p ly junk') I' (octree I') (code_kern I' ly shape JxW sg') phi' owned' s' i =
  fmm_product (code_eops I (octree I) p ly junk) I (octree I) (code_kern I ly shape JxW sg) phi owned s (pi i).
Proof.
  intros pi rho I I' p ly shape JxW sg sg' phi phi' owned owned' s s' junk junk' i SM W W' Wq Lp GP Li Ho Ho' Gs Gs' Eg Ep.
  assert (GP' := gp_same pi rho I I' SM W ly GP).
  rewrite (product_used I p ly (pi i) W Wq Lp GP (pi_lt pi rho I I' SM i Li) shape JxW sg phi owned s junk Gs Ho).
  rewrite (product_used I' p ly i W' ltac:(rewrite (sm_nqc _ _ _ _ SM); exact Wq) Lp GP' ltac:(rewrite (sm_nd _ _ _ _ SM); exact Li) shape JxW sg' phi' owned' s' junk' Gs' Ho').
  apply (product_same pi rho I I' SM W'); auto.
  intros q Lq. rewrite (way_same pi rho I I' SM W W' ly GP i q Li Lq). apply (used_same pi rho I I' SM p ly GP); auto.
Qed.

(** ** Nodes at one point *)
Section Same.
  Variable I : oin.
  Hypothesis W : wf_in I.
  Notation st := (octree I).
  Notation B := (getb (st_blocks (octree I))).
  Variables i j : nat.
  Hypothesis Li : (i < o_nd I)%nat.
  Hypothesis Lj : (j < o_nd I)%nat.
  Hypothesis Epos : pt_eq (o_pos I i) (o_pos I j).
  Lemma octant_at m d : octant (o_rnd I) m d (o_pos I i) = octant (o_rnd I) m d (o_pos I j).
  Proof. destruct Epos as (X & Y & Z). unfold octant.
    assert (Q : forall a b c, b == a -> Qle_bool a c = Qle_bool b c) by (intros a b c E; apply eq_true_iff_eq; rewrite !Qle_bool_iff, E; reflexivity).
    rewrite (Q _ _ (o_rnd I (px m + d)) X), (Q _ _ (o_rnd I (py m + d)) Y), (Q _ _ (o_rnd I (pz m + d)) Z). reflexivity. Qed.
  Lemma node_at : node I i = node I j.
  Proof. destruct (Q2R_px _ _ Epos) as (X & Y & Z). unfold node, rpt. rewrite X, Y, Z. reflexivity. Qed.
  Lemma sep_at q : sep I i q = sep I j q.
  Proof. destruct (Q2R_px _ _ Epos) as (X & Y & Z). unfold sep. rewrite X, Y, Z. reflexivity. Qed.
  Lemma kid_nodes k x : (0 < k < length (st_blocks st))%nat -> (In x (b_nodes (B k)) <->
    In x (b_nodes (B (b_parent (B k)))) /\ octant (o_rnd I) (b_min (B (b_parent (B k)))) (b_delta (B (b_parent (B k))) / 2) (o_pos I x) = code I k).
  Proof.
    intros Hk. destruct (code_ok I W k Hk) as (_ & ks & E). rewrite E at 1. cbn [b_nodes child_block with_kids]. rewrite filter_In, Nat.eqb_eq. reflexivity.
  Qed.
  Lemma together k : In i (b_nodes (B k)) <-> In j (b_nodes (B k)).
  Proof.
    destruct (Nat.lt_ge_cases k (length (st_blocks st))) as [Hk|Hk].
    2:{ unfold getb. rewrite nth_overflow by lia. reflexivity. }
    induction k as [k IH] using lt_wf_ind. destruct (Nat.eq_dec k 0) as [->|N0].
    - destruct (F_tree I W) as (_ & (ks & E) & _). unfold st in *. rewrite E. cbn [root_block b_nodes with_kids]. rewrite !in_seq. lia.
    - assert (Pk : (b_parent (B k) < k)%nat) by (apply (parent_info I (st_blocks st)); [apply (F_tree I W)|lia]).
      rewrite (kid_nodes k i), (kid_nodes k j) by lia. rewrite (IH (b_parent (B k)) Pk ltac:(lia)), octant_at. reflexivity.
  Qed.
  Lemma mem_together b : mem i (b_nodes (B b)) = mem j (b_nodes (B b)).
  Proof. apply mem_eq. apply together. Qed.
  Lemma ways_together q : ways I st i q = ways I st j q.
  Proof.
    unfold ways, near_ways, big_ways, far_ways. f_equal.
    - apply flat_map_ext. intros b. rewrite mem_together. reflexivity.
    - apply flat_map_ext. intros l. f_equal; apply flat_map_ext; intros b; rewrite mem_together; reflexivity.
  Qed.
End Same.

Theorem C85_nodes_at_one_point_get_the_same_product :
  forall I p ly shape JxW T phi owned owned' s s' junk junk' i j,
  wf_in I -> (0 < o_nqc I)%nat -> (p <= 10)%nat -> general_position I ly -> (i < o_nd I)%nat -> (j < o_nd I)%nat ->
  owned i = true -> owned' j = true -> good_sched I (octree I) s -> good_sched I (octree I) s' ->
  same_point (o_pos I i) (o_pos I j) -> (forall m, In m (o_dbl I i) <-> In m (o_dbl I j)) ->
  (forall c idx q, ModelAssemble.sr_kernel T i c idx q = ModelAssemble.sr_kernel T j c idx q) ->
  let K := code_kern I ly shape JxW (ModelAssemble.singular_of I T) in
  fmm_product (code_eops I (octree I) p ly junk) I (octree I) K phi owned s i =
  fmm_product (code_eops I (octree I) p ly junk') I (octree I) K phi owned' s' j.
Proof.
  intros I p ly shape JxW T phi owned owned' s s' junk junk' i j W Wq Lp GP Li Lj Oi Oj Gs Gs' Ep Ed Et K.
  unfold K. rewrite (product_used I p ly i W Wq Lp GP Li shape JxW _ phi owned s junk Gs Oi).
  rewrite (product_used I p ly j W Wq Lp GP Lj shape JxW _ phi owned' s' junk' Gs' Oj).
  assert (Em : forall d, mem d (o_dbl I i) = mem d (o_dbl I j)) by (intros d; apply mem_eq; apply Ed).
  unfold direct_product. apply suml_ext. intros c _.
  assert (is_singular I i c = is_singular I j c) as ->.
  { unfold is_singular. induction (o_cdofs I c) as [|d l IH]; cbn [existsb]; auto. rewrite Em, IH. reflexivity. }
  destruct (is_singular I j c).
  - apply suml_ext. intros jd _. f_equal. cbn [sing code_kern]. unfold ModelAssemble.singular_of.
    assert (ModelAssemble.singular_index I i c = ModelAssemble.singular_index I j c) as -> by (apply (PropCoincide.first_in_ext _ _ _ 0%nat); auto).
    destruct (ModelAssemble.singular_index I j c); auto. unfold ModelAssemble.singular_row. apply PropCoincide.fold_ext. intros b q _. rewrite Et. reflexivity.
  - apply suml_ext. intros q _. f_equal. rewrite (ways_together I W i j Li Lj Ep q). unfold used_kernel, code_kernel. rewrite (node_at I i j Ep), (sep_at I i j Ep). reflexivity.
Qed.
