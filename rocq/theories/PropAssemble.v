(** * Direct assembly (C60). *)
From Coq Require Import QArith Reals List Lia Lra Arith Bool.
From Verif Require Import ModelOctree SpecOctree ModelFmm SpecFmm LibSum ProofsOctTree ProofsOctLists ProofsFmmCover ProofsFmmDirect ProofsFmm PropOctree PropFmm ModelAssemble SpecAssemble ModelFmmExp SpecFmmAcc PropFmmAcc.
Import ListNotations.
Local Open Scope nat_scope.

(** [first_in] finds the first element of the set *)
Lemma first_in_spec dbl l j0 : match first_in dbl l j0 with
  | None => forall d, In d l -> ~ In d dbl
  | Some j => j0 <= j < j0 + length l /\ In (nth (j - j0) l 0) dbl /\ forall k, k < j - j0 -> ~ In (nth k l 0) dbl end.
Proof.
  revert j0. induction l as [|d l IH]; intros j0; cbn [first_in]; [intros d []|].
  destruct (mem d dbl) eqn:E.
  - apply mem_in in E. rewrite Nat.sub_diag. cbn [length nth]. split; [lia|]. split; auto. intros k Hk. lia.
  - assert (Nd : ~ In d dbl) by (intros F; apply mem_in in F; congruence). specialize (IH (S j0)). destruct (first_in dbl l (S j0)) as [j|].
    + destruct IH as (A & B & C). cbn [length]. split; [lia|]. replace (j - j0) with (S (j - S j0)) by lia. cbn [nth]. split; auto.
      intros [|k] Hk; cbn [nth]; auto. apply C. lia.
    + intros e [<-|He]; auto.
Qed.
Lemma index_singular I i c : match singular_index I i c with None => is_singular I i c = false | Some _ => is_singular I i c = true end.
Proof.
  unfold singular_index. assert (X := first_in_spec (o_dbl I i) (o_cdofs I c) 0). destruct (first_in _ _ _) as [j|].
  - destruct X as (A & B & _). apply existsb_exists. eexists. split; [|apply mem_in; exact B]. apply nth_In. lia.
  - unfold is_singular. destruct (existsb _ _) eqn:E; auto. apply existsb_exists in E as (d & D1 & D2). apply mem_in in D2. exfalso. exact (X d D1 D2).
Qed.
Lemma adds_cols I K S owned : (forall c, c < o_nc I -> forall d, In d (o_cdofs I c) -> d < o_nd I) ->
  forall x, In x (assemble_adds I K S owned) -> snd (fst x) < o_nd I /\ fst (fst x) < o_nd I /\ owned (fst (fst x)) = true.
Proof.
  intros Hd x Hx. unfold assemble_adds in Hx. apply in_flat_map in Hx as (c & Hc & Hx). apply in_flat_map in Hx as (i & Hi & Hx). apply in_seq in Hc, Hi.
  destruct (owned i) eqn:Ho; [|destruct Hx]. apply in_map_iff in Hx as (j & <- & Hj). apply in_seq in Hj. cbn. split; [|split; [lia|auto]]. apply (Hd c); [lia|]. apply nth_In. lia.
Qed.

(** ** C60 *)
(** Multiplying by the assembled matrix computes, at every owned row, the quadrature sum over all cells:
    the singular rule on the cells that contain the node or a node at the same place, the regular rule elsewhere. *)
Theorem C60_assembled_matrix_is_the_direct_product : forall I K S owned phi i,
  (forall c, c < o_nc I -> forall d, In d (o_cdofs I c) -> d < o_nd I) -> 0 < o_nqc I -> i < o_nd I -> owned i = true ->
  direct_vmult I K S owned phi i =
  direct_product I {| kd := kd K; shp := shp K; jxw := jxw K; sing := singular_of I S |} phi (kd K i) i.
Proof.
  intros I K S owned phi i Hd Hq Hi Ho. unfold direct_vmult. rewrite (product_hits phi i) by (intros x Hx; apply (adds_cols I K S owned Hd x Hx)).
  unfold assemble_adds, direct_product. rewrite suml_flat_map. apply suml_ext. intros c Hc. apply in_seq in Hc.
  rewrite suml_flat_map, suml_seq, (sumn_single _ i); auto.
  2:{ intros k Hk Nk. destruct (owned k); [|reflexivity]. rewrite suml_map. apply suml_zero. intros j _. unfold hit. cbn. apply Nat.eqb_neq in Nk. rewrite Nk. reflexivity. }
  rewrite Ho, suml_map.
  assert (Dl : forall f, suml (dof_list I c) f = suml (seq 0 (length (o_cdofs I c))) (fun j => f (j, nth j (o_cdofs I c) 0))).
  { intros f. unfold dof_list. generalize (o_cdofs I c) as l. intros l.
    assert (X : forall k, suml (combine (seq k (length l)) l) f = suml (seq k (length l)) (fun j => f (j, nth (j - k) l 0))).
    { induction l as [|d l IH]; intros k; [reflexivity|]. cbn [length seq combine]. unfold suml at 1 2; cbn [fold_right]. fold (suml (combine (seq (Datatypes.S k) (length l)) l) f). rewrite IH. fold (suml (seq (Datatypes.S k) (length l)) (fun j => f (j, nth (j - k) (d :: l) 0))).
      rewrite Nat.sub_diag. cbn [nth]. f_equal. apply suml_ext. intros j Hj. apply in_seq in Hj. f_equal. f_equal. replace (j - k) with (Datatypes.S (j - Datatypes.S k)) by lia. reflexivity. }
    rewrite X. apply suml_ext. intros j _. rewrite Nat.sub_0_r. reflexivity. }
  assert (Z := index_singular I i c). unfold local_row, singular_of in *. cbn [aadd amul exact_arith] in *. destruct (singular_index I i c) as [idx|] eqn:Ei; rewrite Z.
  - rewrite Dl. apply suml_ext. intros j _. unfold hit. cbn [fst snd sing]. rewrite Nat.eqb_refl, Ei. reflexivity.
  - transitivity (suml (seq 0 (length (o_cdofs I c))) (fun j => suml (quads_of_cell I c) (fun q => kd K i q * (shp K q j * jxw K q * phi (nth j (o_cdofs I c) 0%nat)))%R)).
    + apply suml_ext. intros j _. unfold hit. cbn [fst snd]. rewrite Nat.eqb_refl, fold_left_plus, Rplus_0_l.
      rewrite Rmult_comm, <- suml_scal. apply suml_ext. intros q _. ring.
    + assert (Sw : forall (A B : Type) (l : list A) (m : list B) f, suml l (fun a => suml m (fun b => f a b)) = suml m (fun b => suml l (fun a => f a b))).
      { intros A B l m f. induction l as [|a l IH]; [symmetry; apply suml_zero; auto|]. unfold suml at 1; cbn [fold_right]. fold (suml l (fun a => suml m (fun b => f a b))). rewrite IH, <- suml_plus. reflexivity. }
      rewrite Sw. apply suml_ext. intros q Hq'. apply (quads_cell_of I) in Hq'; [|lia]. destruct Hq' as (Hc' & _). rewrite suml_scal. f_equal. unfold density. rewrite Hc', Dl. reflexivity.
Qed.
(** every write is inside the pattern; nothing is written to another process's rows *)
Theorem C60_writes_inside_the_pattern : forall I K S owned row col v,
  (forall c, c < o_nc I -> forall d, In d (o_cdofs I c) -> d < o_nd I) ->
  In (row, col, v) (assemble_adds I K S owned) -> In (row, col) (full_pattern I owned).
Proof.
  intros I K S owned row col v Hd Hx. apply (adds_cols I K S owned Hd) in Hx. cbn in Hx. destruct Hx as (A & B & C).
  unfold full_pattern. apply in_flat_map. exists row. split; [apply filter_In; split; [apply in_seq; lia|auto]|]. apply in_map_iff. exists col. split; auto. apply in_seq; lia.
Qed.
(** the rows do not depend on how the dofs are distributed over the processes *)
Theorem C60_partition_independent : forall I K S owned owned' i d, owned i = owned' i ->
  entry (assemble_adds I K S owned) i d = entry (assemble_adds I K S owned') i d.
Proof.
  intros I K S owned owned' i d E. rewrite !entry_sum. unfold assemble_adds. rewrite !suml_flat_map. apply suml_ext. intros c _. rewrite !suml_flat_map. apply suml_ext. intros k _.
  destruct (Nat.eq_dec k i) as [->|N]; [rewrite E; reflexivity|]. apply Nat.eqb_neq in N.
  assert (Z : forall o : bool, suml (if o then map (fun j => (k, nth j (o_cdofs I c) 0, local_row I K S k c j)) (seq 0 (length (o_cdofs I c))) else [])
    (fun x => if Nat.eqb (fst (fst x)) i && Nat.eqb (snd (fst x)) d then snd x else 0%R) = 0%R).
  { intros [|]; [|reflexivity]. rewrite suml_map. apply suml_zero. intros j _. cbn. rewrite N. reflexivity. }
  rewrite !Z. reflexivity.
Qed.
(** What the entries are, spelled out: row i, column d collects the element integrals of the local functions that
    belong to d. *)
Lemma code_kernel_green I ly i q : code_kernel I ly i q = green I ly i q.
Proof.
  assert (N : ModelKernel.norm 3 (sep I i q) = distance I i q).
  { unfold ModelKernel.norm, distance. f_equal. unfold ModelKernel.square. cbn. ring. }
  unfold code_kernel, green. destruct ly as [|n].
  - unfold ModelKernel.kernels3_d. cbv zeta. rewrite N. f_equal. ring.
  - unfold ModelKernel.kernels3_D. cbv zeta. rewrite N. set (D := distance I i q). unfold Rdiv. replace (-4 * PI * (D * D) * D)%R with (- (4 * PI * D ^ 3))%R by ring. rewrite Rinv_opp. cbn [sep]. ring.
Qed.
Theorem C60_entries_are_the_element_integrals : forall I ly shape JxW S owned i d, i < o_nd I -> owned i = true ->
  exists t : nat -> nat -> R, (forall c j, c < o_nc I -> j < length (o_cdofs I c) -> element_integral I ly shape JxW S i c j (t c j)) /\
  entry (assemble_adds I (code_kern I ly shape JxW (singular_of I S)) S owned) i d =
  suml (seq 0 (o_nc I)) (fun c => suml (seq 0 (length (o_cdofs I c))) (fun j => if Nat.eqb (nth j (o_cdofs I c) 0) d then t c j else 0%R)).
Proof.
  intros I ly shape JxW S owned i d Hi Ho. set (K := code_kern I ly shape JxW (singular_of I S)). exists (fun c j => local_row I K S i c j). split.
  - intros c j Hc Hj. assert (X := first_in_spec (o_dbl I i) (o_cdofs I c) 0). unfold element_integral, local_row, singular_index. destruct (first_in (o_dbl I i) (o_cdofs I c) 0) as [k|].
    + rewrite Nat.sub_0_r in X. destruct X as (A & B & C). split.
      * intros idx (P1 & P2 & P3). assert (E : idx = k).
        { destruct (Nat.lt_trichotomy idx k) as [L|[L|L]]; auto; exfalso; [exact (C idx L P2)|exact (P3 k L B)]. }
        subst idx. unfold singular_row. rewrite fold_left_plus, Rplus_0_l. reflexivity.
      * intros R. exfalso. apply (R k); [lia|auto].
    + split.
      * intros idx (P1 & P2 & _). exfalso. apply (X (nth idx (o_cdofs I c) 0)); auto. apply nth_In; auto.
      * intros _. rewrite fold_left_plus, Rplus_0_l. unfold quads_of_cell.
        assert (Sh : forall (f : nat -> R) a n, suml (seq a n) f = suml (seq 0 n) (fun k => f (a + k))).
        { intros f a n. revert a. induction n as [|n IH]; intros a; [reflexivity|]. cbn [seq]. rewrite <- (seq_shift n 0). unfold suml at 1 2. cbn [fold_right]. fold (suml (seq (Datatypes.S a) n) f). fold (suml (map Datatypes.S (seq 0 n)) (fun k => f (a + k))).
          rewrite IH, suml_map, Nat.add_0_r. f_equal. apply suml_ext. intros k _. f_equal. lia. }
        rewrite Sh. apply suml_ext. intros k _. cbn [K code_kern kd shp jxw]. rewrite code_kernel_green. reflexivity.
  - rewrite entry_sum. unfold assemble_adds. rewrite suml_flat_map. apply suml_ext. intros c _. rewrite suml_flat_map, suml_seq, (sumn_single _ i); auto.
    + rewrite Ho, suml_map. apply suml_ext. intros j _. cbn [fst snd]. rewrite Nat.eqb_refl. reflexivity.
    + intros k Hk Nk. destruct (owned k); [|reflexivity]. rewrite suml_map. apply suml_zero. intros j _. cbn [fst snd]. apply Nat.eqb_neq in Nk. rewrite Nk. reflexivity.
Qed.
(** The two solution methods compute nearly the same operator: with the same rules, the FMM product and the
    product with the assembled matrix differ by at most the bound of C59. *)
Theorem C60_direct_and_fmm_agree :
  forall I p ly junk shape JxW S phi owned owned' s i, let K := code_kern I ly shape JxW (singular_of I S) in
  wf_in I -> 0 < o_nqc I -> p <= 10 -> general_position I ly -> good_sched I (octree I) s -> i < o_nd I -> owned i = true -> owned' i = true ->
  (Rabs (fmm_product (code_eops I (octree I) p ly junk) I (octree I) K phi owned s i - direct_vmult I K S owned' phi i)
   <= far_error ly p (smallest_side I) * suml (seq 0 (o_nq I)) (fun q => Rabs (density I K phi q)))%R.
Proof.
  intros I p ly junk shape JxW S phi owned owned' s i K W Hq Lp GP Hs Hi Ho Ho'. rewrite C60_assembled_matrix_is_the_direct_product; auto.
  - apply (C59_fmm_product_is_close_to_the_direct_product I p ly junk shape JxW (singular_of I S)); auto.
  - apply W.
Qed.
Lemma suml_split {A} (l : list A) (t : A -> bool) (f g h : A -> R) : (forall c, t c = true -> f c = (g c + h c)%R) -> (forall c, t c = false -> f c = g c) ->
  suml l f = (suml l g + suml (filter t l) h)%R.
Proof.
  intros E1 E0. induction l as [|c l IH]; [unfold suml; cbn; ring|]. change (suml (c :: l) f) with (f c + suml l f)%R. change (suml (c :: l) g) with (g c + suml l g)%R. cbn [filter].
  rewrite IH. destruct (t c) eqn:Et; [change (suml (c :: filter t l) h) with (h c + suml (filter t l) h)%R; rewrite E1 by auto; ring|rewrite E0 by auto; ring].
Qed.
(** With different singular rules T (FMM) and S (Direct) the operators also differ by what the rules differ
    on the singular cells, and by nothing else. *)
Theorem C60_difference_of_the_singular_rules :
  forall I p ly junk shape JxW S T phi owned owned' s i,
  let K R := code_kern I ly shape JxW (singular_of I R) in
  wf_in I -> 0 < o_nqc I -> p <= 10 -> general_position I ly -> good_sched I (octree I) s -> i < o_nd I -> owned i = true -> owned' i = true ->
  (Rabs (fmm_product (code_eops I (octree I) p ly junk) I (octree I) (K T) phi owned s i - direct_vmult I (K S) S owned' phi i
         - suml (filter (is_singular I i) (seq 0 (o_nc I)))
             (fun c => suml (dof_list I c) (fun jd => (singular_of I T i c (fst jd) - singular_of I S i c (fst jd)) * phi (snd jd))))
   <= far_error ly p (smallest_side I) * suml (seq 0 (o_nq I)) (fun q => Rabs (density I (K T) phi q)))%R.
Proof.
  intros I p ly junk shape JxW S T phi owned owned' s i K W Hq Lp GP Hs Hi Ho Ho'.
  assert (B := C60_direct_and_fmm_agree I p ly junk shape JxW T phi owned owned' s i W Hq Lp GP Hs Hi Ho Ho'). cbv zeta in B. fold (K T) in B.
  rewrite C60_assembled_matrix_is_the_direct_product in B |- *; auto; try apply W.
  match type of B with (Rabs (?f - ?dT) <= _)%R => match goal with |- (Rabs (f - ?dS - ?df) <= _)%R => replace (f - dS - df)%R with (f - dT)%R; auto; enough (X : dT = (dS + df)%R) by (rewrite X; ring) end end.
  unfold direct_product. apply suml_split.
  - intros c E. rewrite E. cbn [sing]. rewrite <- suml_plus. apply suml_ext. intros. ring.
  - intros c E. rewrite E. reflexivity.
Qed.
(** which rules the two methods really use *)
Theorem C60_regular_rules_agree_iff_gauss : forall t n, direct_regular t n = fmm_regular t n <-> t = gauss.
Proof. intros t n. split; [unfold direct_regular, fmm_regular, select; destruct t; intros; congruence|intros ->; reflexivity]. Qed.
Theorem C60_singular_rules : forall n idx, direct_singular 3 n idx <> fmm_singular 3 n idx /\ direct_singular 2 n idx = fmm_singular 2 n idx.
Proof. intros. split; [discriminate|reflexivity]. Qed.
(** the singular rule is the one centred at the first local dof that lies at the node *)
Theorem C60_singular_index_is_the_first : forall I i c, match singular_index I i c with
  | Some j => j < length (o_cdofs I c) /\ In (nth j (o_cdofs I c) 0) (o_dbl I i) /\ forall k, k < j -> ~ In (nth k (o_cdofs I c) 0) (o_dbl I i)
  | None => forall d, In d (o_cdofs I c) -> ~ In d (o_dbl I i) end.
Proof.
  intros I i c. unfold singular_index. assert (X := first_in_spec (o_dbl I i) (o_cdofs I c) 0). destruct (first_in _ _ _) as [j|]; auto. rewrite Nat.sub_0_r in X. cbn in X. destruct X as (A & B & C). repeat split; auto. lia.
Qed.
Definition ex_rule (v : R) : singular_rule := {| sr_n := fun _ => 1; sr_kernel := fun _ _ _ _ => v; sr_shape := fun _ _ _ => 1%R; sr_jxw := fun _ _ _ => 1%R |}.
Example C60_nonvacuous : singular_index ex_oin 0 0 = Some 0 /\ singular_index ex_oin 1 0 = Some 1 /\ singular_index ex_oin 0 1 = None /\
  direct_vmult ex_oin cst_kern (ex_rule 3) (fun _ => true) (fun d => INR (1 + d)) 0 = (3 * 1 + 3 * 2 + (1 / 4 / PI) * (3 + 4))%R.
Proof.
  repeat split. unfold direct_vmult, entry, assemble_adds. cbn [o_nd o_nc ex_oin seq flat_map]. unfold local_row. cbn. unfold singular_row. cbn. field. apply PI_neq0.
Qed.
Example C60_entries_met : singular_at ex_oin 1 0 1 /\ regular_at ex_oin 1 1.
Proof.
  split; [split; [cbn; lia|split; [left; reflexivity|]]|]; [intros k Hk|intros k Hk]; cbn in *.
  - destruct k as [|k]; [|lia]. intros [E|[]]. discriminate.
  - destruct k as [|[|k]]; [| |lia]; intros [E|[]]; discriminate.
Qed.
Example C60_agreement_met : wf_in ex_oin /\ 0 < o_nqc ex_oin /\ general_position ex_oin Single /\ good_sched ex_oin (octree ex_oin) (seq_sched ex_oin).
Proof. split; [apply ex_oin_wf|]. split; [cbn; lia|]. split; [apply C59_general_position_met; intros n E; discriminate|apply seq_sched_good]. Qed.
