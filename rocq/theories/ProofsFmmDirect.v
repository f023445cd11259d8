(** Direct integration: copy data, near matrix, sparsity. *)
From Coq Require Import Reals List Lia Lra Arith Bool Permutation.
From Verif Require Import ModelOctree ModelFmm SpecFmm LibSum ProofsOctTree ProofsOctLevels ProofsOctFacts ProofsOctLists ProofsFmmCover.
Import ListNotations.
Local Open Scope nat_scope.

(** ** sums *)
Lemma suml_nub_part {T} (g : T -> nat) (qs : list T) (f : T -> R) :
  suml (nub (map g qs)) (fun c => suml (filter (fun q => Nat.eqb (g q) c) qs) f) = suml qs f.
Proof.
  enough (X : forall L, NoDup L -> (forall q, In q qs -> In (g q) L) -> suml L (fun c => suml (filter (fun q => Nat.eqb (g q) c) qs) f) = suml qs f).
  { apply X; [apply nub_nodup|]. intros q Hq. apply nub_in. apply in_map; auto. }
  intros L ND. induction qs as [|q qs IH]; intros H.
  - simpl. apply suml_zero; auto.
  - rewrite (suml_ext L _ (fun c => ((if Nat.eqb (g q) c then f q else 0) + suml (filter (fun q => Nat.eqb (g q) c) qs) f)%R)).
    2:{ intros c _. simpl. destruct (Nat.eqb (g q) c); simpl; lra. }
    rewrite suml_plus, IH by (intros x Hx; apply H; right; auto). simpl. f_equal.
    assert (Hq := H q (or_introl eq_refl)). clear - ND Hq.
    induction L as [|a L IH]; [destruct Hq|]. inversion ND; subst. simpl. destruct Hq as [->|Hq].
    + rewrite Nat.eqb_refl. rewrite suml_zero; [lra|]. intros x Hx. destruct (Nat.eqb_spec (g q) x); auto. subst; contradiction.
    + rewrite IH by auto. destruct (Nat.eqb_spec (g q) a); [subst; contradiction|lra].
Qed.
Lemma suml_mem (n : nat) (L : list nat) (f : nat -> R) : NoDup L -> (forall x, In x L -> x < n) ->
  suml (seq 0 n) (fun q => if mem q L then f q else 0%R) = suml L f.
Proof.
  intros ND H. transitivity (suml (filter (fun q => mem q L) (seq 0 n)) f).
  - generalize (seq 0 n). induction l; simpl; auto. rewrite IHl. destruct (mem a L); simpl; lra.
  - apply suml_perm. apply NoDup_Permutation; auto; [apply NoDup_filter, seq_NoDup|].
    intros x. rewrite filter_In, in_seq, mem_in. split; [tauto|]. intros X. split; auto. split; [lia|]. apply H; auto.
Qed.
Lemma suml_one (L : list nat) (x : nat) (f : nat -> R) : NoDup L -> In x L -> (forall y, In y L -> y <> x -> f y = 0%R) -> suml L f = f x.
Proof.
  induction L as [|a L IH]; intros ND Hx H; [destruct Hx|]. inversion ND; subst. simpl. destruct Hx as [->|Hx].
  - rewrite suml_zero; [lra|]. intros y Hy. apply H; [right; auto|]. intros ->; auto.
  - rewrite IH by (auto; intros y Hy; apply H; right; auto). rewrite (H a); [lra|left; auto|]. intros ->; auto.
Qed.
Lemma suml_swap {T U} (a : list T) (b : list U) (f : T -> U -> R) :
  suml a (fun x => suml b (fun y => f x y)) = suml b (fun y => suml a (fun x => f x y)).
Proof.
  induction a; simpl; [symmetry; apply suml_zero; auto|]. rewrite IHa. rewrite <- suml_plus. reflexivity.
Qed.
Lemma suml_filter {T} (t : T -> bool) (l : list T) (f : T -> R) : suml (filter t l) f = suml l (fun x => if t x then f x else 0%R).
Proof. induction l; simpl; auto. destruct (t a); simpl; rewrite IHl; lra. Qed.
Lemma suml_scal_r {T} (l : list T) c f : suml l (fun x => f x * c)%R = (suml l f * c)%R.
Proof. induction l; simpl; [lra|]. rewrite IHl; lra. Qed.

(** ** copy data as a concatenation *)
Section Build.
  Context {A : Type}.
  Definition build_step (cd : list nat * list nat * list A) (x : nat * list A) : list nat * list nat * list A :=
    (fst (fst cd) ++ [fst x], snd (fst cd) ++ [length (snd cd)], snd cd ++ snd x).
  Definition build (l : list (nat * list A)) : list nat * list nat * list A := fold_left build_step l ([], [], []).

  Lemma build_spec l : build l = (map fst l, map (fun k => length (concat (map snd (firstn k l)))) (seq 0 (length l)), concat (map snd l)).
  Proof.
    unfold build. induction l as [|x l IH] using rev_ind; [reflexivity|].
    rewrite fold_left_app. cbn [fold_left]. rewrite IH. unfold build_step. cbn [fst snd].
    rewrite app_length. cbn [length]. rewrite Nat.add_1_r, seq_S, !map_app. cbn [map]. rewrite concat_app. cbn [concat]. rewrite app_nil_r.
    f_equal. f_equal.
    f_equal.
    - apply map_ext_in. intros k Hk. apply in_seq in Hk. rewrite firstn_app. replace (k - length l) with 0 by lia. simpl. rewrite app_nil_r. auto.
    - replace (0 + length l) with (length l) by lia. rewrite firstn_app, Nat.sub_diag, firstn_all. simpl. rewrite app_nil_r. auto.
  Qed.
  Definition bslice (cd : list nat * list nat * list A) (ii : nat) : list A :=
    let s := nth ii (snd (fst cd)) 0 in
    let e := if Nat.ltb ii (length (fst (fst cd)) - 1) then nth (S ii) (snd (fst cd)) 0 else length (snd cd) in
    firstn (e - s) (skipn s (snd cd)).
  Lemma bslice_spec l ii : ii < length l -> bslice (build l) ii = snd (nth ii l (0, [])).
  Proof.
    intros H. rewrite build_spec. unfold bslice. simpl fst. simpl snd.
    assert (E : forall k, k < length l -> nth k (map (fun k => length (concat (map snd (firstn k l)))) (seq 0 (length l))) 0 = length (concat (map snd (firstn k l)))).
    { intros k Hk. rewrite (nth_indep _ 0 ((fun k => length (concat (map snd (firstn k l)))) 0)) by (rewrite map_length, seq_length; auto).
      rewrite (map_nth (fun k => length (concat (map snd (firstn k l))))), seq_nth; auto. }
    rewrite (E ii) by auto. rewrite map_length.
    assert (Sp : l = firstn ii l ++ nth ii l (0, []) :: skipn (S ii) l).
    { rewrite <- (firstn_skipn ii l) at 1. f_equal. clear E. revert l H. induction ii; intros [|a l] H; simpl in *; try lia; auto. apply IHii; lia. }
    set (x := nth ii l (0, [])) in *.
    assert (C : concat (map snd l) = concat (map snd (firstn ii l)) ++ snd x ++ concat (map snd (skipn (S ii) l))).
    { rewrite Sp at 1. rewrite map_app, concat_app. reflexivity. }
    assert (En : (if Nat.ltb ii (length l - 1) then nth (S ii) (map (fun k => length (concat (map snd (firstn k l)))) (seq 0 (length l))) 0 else length (concat (map snd l)))
                 = length (concat (map snd (firstn ii l))) + length (snd x)).
    { destruct (Nat.ltb_spec ii (length l - 1)).
      - rewrite E by lia. rewrite Sp at 1. rewrite firstn_app. rewrite firstn_length, Nat.min_l by lia.
        replace (S ii - ii) with 1 by lia. simpl firstn at 2. rewrite firstn_firstn, Nat.min_r by lia. rewrite map_app, concat_app, app_length. simpl. rewrite app_nil_r. auto.
      - rewrite C, !app_length. replace (skipn (S ii) l) with (@nil (nat * list A)); [simpl; lia|]. symmetry. apply skipn_all2. lia. }
    rewrite En, C. rewrite skipn_app, skipn_all, Nat.sub_diag. simpl app.
    replace (length (concat (map snd (firstn ii l))) + length (snd x) - length (concat (map snd (firstn ii l)))) with (length (snd x)) by lia.
    simpl skipn. rewrite firstn_app, Nat.sub_diag, firstn_all. simpl. apply app_nil_r.
  Qed.
End Build.

Definition dc_of {A} (cd : list nat * list nat * list (nat * A)) := cd.
Definition to_dc (cd : list nat * list nat * list (nat * (nat -> R))) : direct_copy :=
  {| dc_nodes := fst (fst cd); dc_start := snd (fst cd); dc_rows := snd cd |}.

Lemma slice_build l ii : ii < length l -> slice (to_dc (build l)) ii = snd (nth ii l (0, [])).
Proof. intros H. exact (bslice_spec l ii H). Qed.


Lemma flat_map_eq {A B} (f g : A -> list B) l : (forall x, In x l -> f x = g x) -> flat_map f l = flat_map g l.
Proof. induction l; simpl; intros H; auto. rewrite H, IHl; auto. Qed.
Lemma flat_map_nth {A B} (f : A -> list B) (d : A) l : flat_map (fun ii => f (nth ii l d)) (seq 0 (length l)) = flat_map f l.
Proof.
  induction l as [|a l IH]; [reflexivity|]. cbn [length]. rewrite <- cons_seq. cbn [flat_map nth]. f_equal.
  rewrite <- seq_shift. rewrite <- IH. rewrite !flat_map_concat_map, map_map. reflexivity.
Qed.

Section Direct.
  Variable I : oin.
  Variable K : kern.
  Variable owned : nat -> bool.

  Definition row_adds (i : nat) (cr : nat * (nat -> R)) : list (nat * nat * R) :=
    map (fun jd => (i, snd jd, snd cr (fst jd))) (dof_list I (fst cr)).

  Lemma copier_build l : copier_adds I (to_dc (build l)) = flat_map (fun x => flat_map (row_adds (fst x)) (snd x)) l.
  Proof.
    unfold copier_adds.
    assert (Ln : length (dc_nodes (to_dc (build l))) = length l) by (rewrite build_spec; simpl; apply map_length).
    rewrite Ln. rewrite <- (flat_map_nth _ (0, [])). apply flat_map_eq. intros ii Hi. apply in_seq in Hi.
    rewrite slice_build by lia.
    replace (nth ii (dc_nodes (to_dc (build l))) 0) with (fst (nth ii l (0, []))); [reflexivity|].
    rewrite build_spec. simpl. change 0 with (fst (0, @nil (nat * (nat -> R)))) at 2. rewrite map_nth. auto.
  Qed.

  Variable st : ost.
  Lemma near_worker_build b : near_worker I st K owned b =
    to_dc (build (map (fun i => (i, map (fun c => (c, near_row I K i c (near_quads I st b))) (cells_in I (near_quads I st b))))
                      (filter owned (b_nodes (getb (st_blocks st) b))))).
  Proof.
    unfold near_worker. set (qs := near_quads I st b). set (rows := fun i => map (fun c => (c, near_row I K i c qs)) (cells_in I qs)).
    assert (X : forall l cd, fold_left (fun cd i =>
      if owned i then
        {| dc_nodes := dc_nodes cd ++ [i]; dc_start := dc_start cd ++ [length (dc_rows cd)];
           dc_rows := dc_rows cd ++ rows i |}
      else cd) l (to_dc cd) = to_dc (fold_left build_step (map (fun i => (i, rows i)) (filter owned l)) cd)).
    { induction l; intros cd; [reflexivity|]. cbn [fold_left filter]. destruct (owned a); [|apply IHl].
      cbn [map fold_left]. rewrite <- IHl. reflexivity. }
    exact (X _ ([], [], [])).
  Qed.
  Lemma big_worker_build level b : big_worker I st K owned level b =
    to_dc (build (map (fun i => (i, if owned i then map (fun c => (c, regular_row I K i c (big_quads I st level b))) (cells_in I (big_quads I st level b)) else []))
                      (b_nodes (getb (st_blocks st) b)))).
  Proof.
    unfold big_worker. set (qs := big_quads I st level b).
    set (rows := fun i => if owned i then map (fun c => (c, regular_row I K i c qs)) (cells_in I qs) else []).
    assert (X : forall l cd, fold_left (fun cd i =>
        {| dc_nodes := dc_nodes cd ++ [i]; dc_start := dc_start cd ++ [length (dc_rows cd)];
           dc_rows := dc_rows cd ++ rows i |}) l (to_dc cd) = to_dc (fold_left build_step (map (fun i => (i, rows i)) l) cd)).
    { induction l; intros cd; [reflexivity|]. cbn [fold_left map]. rewrite <- IHl. reflexivity. }
    exact (X _ ([], [], [])).
  Qed.

  Lemma near_adds b : copier_adds I (near_worker I st K owned b) =
    flat_map (fun i => flat_map (fun c => row_adds i (c, near_row I K i c (near_quads I st b))) (cells_in I (near_quads I st b)))
             (filter owned (b_nodes (getb (st_blocks st) b))).
  Proof.
    rewrite near_worker_build, copier_build. rewrite flat_map_concat_map, map_map, <- flat_map_concat_map.
    apply flat_map_eq. intros i _. cbn [fst snd]. rewrite flat_map_concat_map, map_map, <- flat_map_concat_map. reflexivity.
  Qed.
  Lemma big_adds level b : copier_adds I (big_worker I st K owned level b) =
    flat_map (fun i => if owned i then flat_map (fun c => row_adds i (c, regular_row I K i c (big_quads I st level b))) (cells_in I (big_quads I st level b)) else [])
             (b_nodes (getb (st_blocks st) b)).
  Proof.
    rewrite big_worker_build, copier_build. rewrite flat_map_concat_map, map_map, <- flat_map_concat_map.
    apply flat_map_eq. intros i _. cbn [fst snd]. destruct (owned i); [|reflexivity]. rewrite flat_map_concat_map, map_map, <- flat_map_concat_map. reflexivity.
  Qed.

  (** ** the product with the near matrix *)
  Variable phi : nat -> R.
  Variable i : nat.
  Definition hit (x : nat * nat * R) : R := if Nat.eqb (fst (fst x)) i then (snd x * phi (snd (fst x)))%R else 0%R.
  Lemma entry_sum adds d : entry adds i d = suml adds (fun x => if Nat.eqb (fst (fst x)) i && Nat.eqb (snd (fst x)) d then snd x else 0%R).
  Proof.
    unfold entry. enough (X : forall a, fold_left (fun (a : R) (x : nat * nat * R) => if Nat.eqb (fst (fst x)) i && Nat.eqb (snd (fst x)) d then (a + snd x)%R else a) adds a =
      (a + suml adds (fun x => if Nat.eqb (fst (fst x)) i && Nat.eqb (snd (fst x)) d then snd x else 0))%R) by (rewrite X; lra).
    induction adds as [|x adds IH]; intros a; [simpl; lra|]. cbn [fold_left]. rewrite IH.
    change (suml (x :: adds) ?f) with (f x + suml adds f)%R. cbv beta.
    destruct (Nat.eqb (fst (fst x)) i && Nat.eqb (snd (fst x)) d); lra.
  Qed.
  Lemma product_hits adds n : (forall x, In x adds -> snd (fst x) < n) ->
    fold_left (fun a d => (a + entry adds i d * phi d)%R) (seq 0 n) 0%R = suml adds hit.
  Proof.
    intros H. rewrite (fold_left_plus (seq 0 n) (fun d => entry adds i d * phi d)%R). rewrite Rplus_0_l.
    rewrite (suml_ext (seq 0 n) _ (fun d => suml adds (fun x => (if Nat.eqb (fst (fst x)) i && Nat.eqb (snd (fst x)) d then snd x else 0) * phi d)%R)).
    2:{ intros d _. rewrite entry_sum. rewrite suml_scal_r. reflexivity. }
    rewrite suml_swap. apply suml_ext. intros x Hx. unfold hit. specialize (H x Hx).
    destruct (Nat.eqb (fst (fst x)) i); cbn [andb].
    - rewrite (suml_one _ (snd (fst x))); [|apply seq_NoDup|apply in_seq; lia|].
      + rewrite Nat.eqb_refl; auto.
      + intros y _ NE. destruct (Nat.eqb_spec (snd (fst x)) y); [congruence|]. lra.
    - apply suml_zero. intros. lra.
  Qed.

  (** one row *)
  Lemma row_hits k c f : suml (row_adds k (c, f)) hit = if Nat.eqb k i then suml (dof_list I c) (fun jd => f (fst jd) * phi (snd jd))%R else 0%R.
  Proof.
    unfold row_adds. rewrite suml_map. unfold hit. cbn [fst snd]. destruct (Nat.eqb k i); auto. apply suml_zero; auto.
  Qed.
  Lemma regular_dot c qs : suml (dof_list I c) (fun jd => regular_row I K i c qs (fst jd) * phi (snd jd))%R =
    suml (cell_quads I qs c) (fun q => kd K i q * density I K phi q)%R.
  Proof.
    unfold regular_row.
    rewrite (suml_ext (dof_list I c) _ (fun jd => suml (cell_quads I qs c) (fun q => kd K i q * shp K q (fst jd) * jxw K q * phi (snd jd))%R)).
    2:{ intros jd _. rewrite (fold_left_plus _ (fun q => kd K i q * shp K q (fst jd) * jxw K q)%R). rewrite Rplus_0_l. rewrite suml_scal_r. reflexivity. }
    rewrite suml_swap. apply suml_ext. intros q Hq. unfold cell_quads in Hq. apply filter_In in Hq. destruct Hq as (_ & Hq). apply Nat.eqb_eq in Hq.
    unfold density. rewrite Hq. rewrite <- suml_scal. apply suml_ext. intros jd _. lra.
  Qed.
  Lemma regular_block qs : suml (cells_in I qs) (fun c => suml (cell_quads I qs c) (fun q => kd K i q * density I K phi q)%R) =
    suml qs (fun q => kd K i q * density I K phi q)%R.
  Proof. unfold cells_in, cell_quads. apply suml_nub_part. Qed.

  Definition sing_dot (c : nat) : R := suml (dof_list I c) (fun jd => sing K i c (fst jd) * phi (snd jd))%R.

  Lemma node_hits (f : nat -> list (nat * nat * R)) l : NoDup l -> (forall k, k <> i -> suml (f k) hit = 0%R) ->
    suml (flat_map f l) hit = if mem i l then suml (f i) hit else 0%R.
  Proof.
    intros ND H. rewrite suml_flat_map. destruct (mem i l) eqn:E.
    - apply mem_in in E. apply (suml_one l i (fun x => suml (f x) hit)); auto.
    - apply mem_false in E. apply suml_zero. intros x Hx. apply H. intros ->; auto.
  Qed.
  Lemma near_hits b : owned i = true -> NoDup (b_nodes (getb (st_blocks st) b)) ->
    suml (copier_adds I (near_worker I st K owned b)) hit =
    if mem i (b_nodes (getb (st_blocks st) b)) then
      suml (cells_in I (near_quads I st b)) (fun c => if is_singular I i c then sing_dot c else suml (cell_quads I (near_quads I st b) c) (fun q => kd K i q * density I K phi q)%R)
    else 0%R.
  Proof.
    intros Ho ND. rewrite near_adds, node_hits; [|apply NoDup_filter; auto|].
    - replace (mem i (filter owned (b_nodes (getb (st_blocks st) b)))) with (mem i (b_nodes (getb (st_blocks st) b))).
      2:{ apply mem_eq. rewrite filter_In. tauto. }
      destruct (mem i (b_nodes (getb (st_blocks st) b))); auto. rewrite suml_flat_map. apply suml_ext. intros c _. rewrite row_hits, Nat.eqb_refl.
      unfold near_row. destruct (is_singular I i c); [reflexivity|]. apply regular_dot.
    - intros k Hk. rewrite suml_flat_map. apply suml_zero. intros c _. rewrite row_hits. destruct (Nat.eqb_spec k i); [contradiction|auto].
  Qed.
  Lemma big_hits level b : owned i = true -> NoDup (b_nodes (getb (st_blocks st) b)) ->
    suml (copier_adds I (big_worker I st K owned level b)) hit =
    if mem i (b_nodes (getb (st_blocks st) b)) then suml (big_quads I st level b) (fun q => kd K i q * density I K phi q)%R else 0%R.
  Proof.
    intros Ho ND. rewrite big_adds, node_hits; auto.
    - destruct (mem i (b_nodes (getb (st_blocks st) b))); auto. rewrite Ho, suml_flat_map. rewrite <- regular_block. apply suml_ext. intros c _. rewrite row_hits, Nat.eqb_refl.
      apply regular_dot.
    - intros k Hk. destruct (owned k); [|reflexivity]. rewrite suml_flat_map. apply suml_zero. intros c _. rewrite row_hits. destruct (Nat.eqb_spec k i); [contradiction|auto].
  Qed.
End Direct.

(** ** sparsity (C41) *)
Section Sparse.
  Variable I : oin.
  Variable K : kern.
  Variable owned : nat -> bool.
  Variable st : ost.

  Lemma row_adds_in x i c f : In x (row_adds I i (c, f)) -> fst (fst x) = i /\ In (snd (fst x)) (o_cdofs I c).
  Proof.
    unfold row_adds. intros H. apply in_map_iff in H. destruct H as ((j & d) & <- & H). cbn. split; auto.
    apply in_combine_r in H. auto.
  Qed.
  Lemma cells_in_blocks c L : In c (cells_in I (quads_of_blocks st L)) -> exists b, In b L /\ In c (cells_in I (b_quads (getb (st_blocks st) b))).
  Proof.
    unfold cells_in, quads_of_blocks. rewrite nub_in, in_map_iff. intros (q & A & C). rewrite nub_in, in_flat_map in C. destruct C as (b & D & E).
    exists b. split; auto. rewrite nub_in. apply in_map_iff. exists q; auto.
  Qed.
  Lemma dofs_of_in d c L : In c (cells_in I (quads_of_blocks st L)) -> In d (o_cdofs I c) -> In d (dofs_of_blocks I st L).
  Proof.
    intros H Hd. apply cells_in_blocks in H. destruct H as (b & A & C). unfold dofs_of_blocks. rewrite nub_in, in_flat_map.
    exists b. split; auto. apply in_flat_map. exists c. auto.
  Qed.
  Lemma adds_in_sparsity cl lv x : (forall b, In b cl -> In b (st_childless st)) ->
    (forall l b, 1 <= l <= o_N I -> In b (lv l) -> In b (nth l (st_dfill st) [])) ->
    In x (direct_adds I st K owned cl lv) -> In (fst x) (sparsity I st owned).
  Proof.
    intros Hc Hl. unfold direct_adds, sparsity. rewrite !in_app_iff, !in_flat_map. intros [(b & A & C)|(l & A & C)]; [left|right].
    - exists b. split; auto. rewrite near_adds in C. apply in_flat_map in C. destruct C as (i & C1 & C2). apply in_flat_map in C2. destruct C2 as (c & C2 & C3).
      apply row_adds_in in C3. destruct C3 as (E1 & E2). unfold near_pattern. apply in_flat_map. exists i. split; auto.
      apply in_map_iff. exists (snd (fst x)). split; [rewrite <- E1; destruct (fst x); auto|]. apply (dofs_of_in _ c); auto.
    - apply in_seq in A. exists l. split; [apply in_seq; auto|]. apply in_flat_map in C. destruct C as (b & C1 & C2). apply in_flat_map. exists b. split; [apply Hl; auto; lia|].
      rewrite big_adds in C2. apply in_flat_map in C2. destruct C2 as (i & C2 & C3). destruct (owned i) eqn:Ho; [|destruct C3].
      apply in_flat_map in C3. destruct C3 as (c & C3 & C4). apply row_adds_in in C4. destruct C4 as (E1 & E2).
      unfold big_quads in C3. apply cells_in_blocks in C3. destruct C3 as (b2 & D1 & D2). apply in_flat_map in D1. destruct D1 as (s & D1 & D3).
      unfold level_pattern. apply in_flat_map. exists s. split; auto. apply in_flat_map. exists i. split; [apply filter_In; auto|].
      apply in_map_iff. exists (snd (fst x)). split; [rewrite <- E1; destruct (fst x); auto|].
      unfold dofs_of_blocks. rewrite nub_in, in_flat_map. exists b2. split; auto. apply in_flat_map. exists c. auto.
  Qed.
  (** conversely every entry of the pattern is written *)
  Lemma sparsity_written cl lv x : (forall b, In b (st_childless st) -> In b cl) ->
    (forall l b, 1 <= l <= o_N I -> In b (nth l (st_dfill st) []) -> In b (lv l)) ->
    In x (sparsity I st owned) -> exists v, In (x, v) (direct_adds I st K owned cl lv).
  Proof.
    intros Hc Hl. unfold direct_adds, sparsity. rewrite in_app_iff, !in_flat_map.
    assert (DL : forall d c, In d (o_cdofs I c) -> exists j, In (j, d) (dof_list I c)).
    { intros d c Hd. unfold dof_list. apply In_nth with (d := 0) in Hd. destruct Hd as (j & A & C). exists j.
      replace (j, d) with (nth j (combine (seq 0 (length (o_cdofs I c))) (o_cdofs I c)) (0, 0)).
      - apply nth_In. rewrite combine_length, seq_length. lia.
      - rewrite combine_nth by apply seq_length. rewrite seq_nth by auto. f_equal; auto. }
    assert (CB : forall c b L, In b L -> In c (cells_in I (b_quads (getb (st_blocks st) b))) -> In c (cells_in I (quads_of_blocks st L))).
    { intros c b L Hb H. unfold cells_in, quads_of_blocks in *. rewrite nub_in, in_map_iff in *. destruct H as (q & A & C). exists q. split; auto.
      rewrite nub_in, in_flat_map. exists b; auto. }
    intros [(b & A & C)|(l & A & C)].
    - unfold near_pattern in C. apply in_flat_map in C. destruct C as (i & C1 & C2). apply in_map_iff in C2. destruct C2 as (d & <- & C2).
      unfold dofs_of_blocks in C2. rewrite nub_in, in_flat_map in C2. destruct C2 as (b2 & D1 & D2). apply in_flat_map in D2. destruct D2 as (c & D2 & D3).
      destruct (DL d c D3) as (j & Hj). exists (near_row I K i c (near_quads I st b) j). apply in_app_iff. left. apply in_flat_map. exists b. split; auto.
      rewrite near_adds. apply in_flat_map. exists i. split; auto. apply in_flat_map. exists c. split; [apply (CB c b2); auto|].
      unfold row_adds. apply in_map_iff. exists (j, d). auto.
    - apply in_seq in A. apply in_flat_map in C. destruct C as (b & C1 & C2). unfold level_pattern in C2. apply in_flat_map in C2. destruct C2 as (s & S1 & C2).
      apply in_flat_map in C2. destruct C2 as (i & C3 & C2). apply in_map_iff in C2. destruct C2 as (d & <- & C2). apply filter_In in C3. destruct C3 as (C3 & Ho).
      unfold dofs_of_blocks in C2. rewrite nub_in, in_flat_map in C2. destruct C2 as (b2 & D1 & D2). apply in_flat_map in D2. destruct D2 as (c & D2 & D3).
      destruct (DL d c D3) as (j & Hj). exists (regular_row I K i c (big_quads I st l b) j). apply in_app_iff. right. apply in_flat_map. exists l. split; [apply in_seq; auto|].
      apply in_flat_map. exists b. split; [apply Hl; auto; lia|]. rewrite big_adds. apply in_flat_map. exists i. split; auto. rewrite Ho. apply in_flat_map.
      exists c. split; [|unfold row_adds; apply in_map_iff; exists (j, d); auto].
      unfold big_quads. apply (CB c b2); auto. apply in_flat_map. exists s; auto.
  Qed.
End Sparse.
