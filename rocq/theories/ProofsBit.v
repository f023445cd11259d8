(** Bit-for-bit facts about the loops: any arithmetic of doubles, any expansion operations. *)
From Coq Require Import Reals List Arith Bool Permutation Lia FunctionalExtensionality.
From Verif Require Import ModelOctree SpecOctree ProofsOctTree ProofsOctLevels ProofsOctFacts ProofsOctLists ModelFmm SpecFmm ProofsFmmCover ProofsFmmDirect ProofsFmm ProofsWork3.
Import ListNotations.
Local Open Scope nat_scope.

Lemma fold_perm {S X : Type} (f : S -> X -> S) (l l' : list X) : Permutation l l' -> NoDup l ->
  (forall x y s, In x l -> In y l -> x <> y -> f (f s x) y = f (f s y) x) -> forall s, fold_left f l s = fold_left f l' s.
Proof.
  induction 1 as [|a l l' Hp IH|a b l|l l' l'' H1 IH1 H2 IH2]; intros ND Hc s; cbn [fold_left].
  - reflexivity.
  - inversion ND; subst. apply IH; auto. intros x y s0 Hx Hy. apply Hc; right; auto.
  - inversion ND as [|? ? N1 N2]; subst. f_equal. apply Hc; [left; auto|right; left; auto|intros ->; apply N1; left; auto].
  - rewrite IH1 by auto. apply IH2; [eapply Permutation_NoDup; eauto|]. intros x y s0 Hx Hy. apply Hc; apply (Permutation_in _ (Permutation_sym H1)); auto.
Qed.
Lemma upd_swap {T} (f : nat -> T) a b x y : a <> b -> upd (upd f a x) b y = upd (upd f b y) a x.
Proof. intros N. apply functional_extensionality. intros j. unfold upd. destruct (Nat.eqb_spec j b), (Nat.eqb_spec j a); subst; congruence. Qed.
Lemma upd_at {T} (f : nat -> T) a x : upd f a x a = x. Proof. unfold upd. rewrite Nat.eqb_refl. auto. Qed.
Lemma upd_off {T} (f : nat -> T) a x j : j <> a -> upd f a x j = f j. Proof. unfold upd. intros N. destruct (Nat.eqb_spec j a); congruence. Qed.

Section Bit.
  Context {AR : arith}.
  Variable E : eops.
  Variable I : oin.
  Hypothesis W : wf_in I.
  Variable K : kern.
  Variable phi : nat -> R.
  Notation st := (octree I).
  Notation bs := (st_blocks (octree I)).
  Notation B := (getb (st_blocks (octree I))).
  Notation nb := (length (st_blocks (octree I))).
  Variable owned : nat -> bool.

  Lemma near_worker_build b : near_worker I st K owned b =
    to_dc (build (map (fun i => (i, map (fun c => (c, near_row I K i c (near_quads I st b))) (cells_in I (near_quads I st b))))
                      (filter owned (b_nodes (B b))))).
  Proof.
    unfold near_worker. set (qs := near_quads I st b). set (rows := fun i => map (fun c => (c, near_row I K i c qs)) (cells_in I qs)).
    assert (X : forall l cd, fold_left (fun cd i =>
      if owned i then
        {| dc_nodes := dc_nodes cd ++ [i]; dc_start := dc_start cd ++ [length (dc_rows cd)];
           dc_rows := dc_rows cd ++ rows i |}
      else cd) l (to_dc cd) = to_dc (fold_left build_step (map (fun i => (i, rows i)) (filter owned l)) cd)).
    { induction l; intros cd; [reflexivity|]. cbn [fold_left filter]. destruct (owned a); [|apply IHl].
      cbn [map fold_left]. rewrite <- IHl. reflexivity. }
    exact (X _ ([], [], [])).
  Qed.
  Lemma big_worker_build level b : big_worker I st K owned level b =
    to_dc (build (map (fun i => (i, if owned i then map (fun c => (c, regular_row I K i c (big_quads I st level b))) (cells_in I (big_quads I st level b)) else []))
                      (b_nodes (B b)))).
  Proof.
    unfold big_worker. set (qs := big_quads I st level b).
    set (rows := fun i => if owned i then map (fun c => (c, regular_row I K i c qs)) (cells_in I qs) else []).
    assert (X : forall l cd, fold_left (fun cd i =>
        {| dc_nodes := dc_nodes cd ++ [i]; dc_start := dc_start cd ++ [length (dc_rows cd)];
           dc_rows := dc_rows cd ++ rows i |}) l (to_dc cd) = to_dc (fold_left build_step (map (fun i => (i, rows i)) l) cd)).
    { induction l; intros cd; [reflexivity|]. cbn [fold_left map]. rewrite <- IHl. reflexivity. }
    exact (X _ ([], [], [])).
  Qed.
  Lemma near_adds_bit b : copier_adds I (near_worker I st K owned b) =
    flat_map (fun i => flat_map (fun c => row_adds I i (c, near_row I K i c (near_quads I st b))) (cells_in I (near_quads I st b)))
             (filter owned (b_nodes (B b))).
  Proof.
    rewrite near_worker_build, copier_build. rewrite flat_map_concat_map, map_map, <- flat_map_concat_map.
    apply flat_map_eq. intros i _. cbn [fst snd]. rewrite flat_map_concat_map, map_map, <- flat_map_concat_map. reflexivity.
  Qed.
  Lemma big_adds_bit level b : copier_adds I (big_worker I st K owned level b) =
    flat_map (fun i => if owned i then flat_map (fun c => row_adds I i (c, regular_row I K i c (big_quads I st level b))) (cells_in I (big_quads I st level b)) else [])
             (b_nodes (B b)).
  Proof.
    rewrite big_worker_build, copier_build. rewrite flat_map_concat_map, map_map, <- flat_map_concat_map.
    apply flat_map_eq. intros i _. cbn [fst snd]. destruct (owned i); [|reflexivity]. rewrite flat_map_concat_map, map_map, <- flat_map_concat_map. reflexivity.
  Qed.
  (** adds in a row come only from a block that contains the node *)
  Lemma near_rows b x : In x (copier_adds I (near_worker I st K owned b)) -> In (fst (fst x)) (b_nodes (B b)).
  Proof.
    rewrite near_adds_bit. intros Hx. apply in_flat_map in Hx. destruct Hx as (i & Hi & Hx). apply filter_In in Hi. apply in_flat_map in Hx. destruct Hx as (c & _ & Hx).
    apply row_adds_in in Hx. destruct Hx as (-> & _). tauto.
  Qed.
  Lemma big_rows l b x : In x (copier_adds I (big_worker I st K owned l b)) -> In (fst (fst x)) (b_nodes (B b)).
  Proof.
    rewrite big_adds_bit. intros Hx. apply in_flat_map in Hx. destruct Hx as (i & Hi & Hx). destruct (owned i); [|destruct Hx]. apply in_flat_map in Hx. destruct Hx as (c & _ & Hx).
    apply row_adds_in in Hx. destruct Hx as (-> & _). auto.
  Qed.
  Lemma level_unique l x y i : 1 <= l <= o_N I -> In x (nth l (st_dfill st) []) -> In y (nth l (st_dfill st) []) -> In i (b_nodes (B x)) -> In i (b_nodes (B y)) -> x = y.
  Proof.
    intros Hl Hx Hy Hix Hiy. apply (dfill_in I W) in Hx; auto. apply (dfill_in I W) in Hy; auto. destruct Hx as (X1 & X2 & _), Hy as (Y1 & Y2 & _).
    apply (front_unique_n I W l x y i); auto; split; auto; left; auto.
  Qed.

  (** ** The near-field matrix *)
  Definition ent_step (i d : nat) (a : R) (x : nat * nat * R) : R := if Nat.eqb (fst (fst x)) i && Nat.eqb (snd (fst x)) d then aadd a (snd x) else a.
  Lemma ent_idle i d l : (forall x, In x l -> fst (fst x) <> i) -> forall a, fold_left (ent_step i d) l a = a.
  Proof.
    induction l as [|x l IH]; intros Hl a; cbn [fold_left]; auto. rewrite IH by (intros; apply Hl; right; auto). unfold ent_step.
    destruct (Nat.eqb_spec (fst (fst x)) i) as [Q|]; auto. destruct (Hl x (or_introl eq_refl) Q).
  Qed.
  Lemma fold_flat_map {S X Y} (f : S -> Y -> S) (g : X -> list Y) l : forall s, fold_left f (flat_map g l) s = fold_left (fun s x => fold_left f (g x) s) l s.
  Proof. induction l as [|x l IH]; intros s; cbn [flat_map fold_left]; auto. rewrite fold_left_app. apply IH. Qed.
  Lemma ent_perm i d (g : nat -> list (nat * nat * R)) l l' : Permutation l l' -> NoDup l ->
    (forall b x, In x (g b) -> In (fst (fst x)) (b_nodes (B b))) ->
    (forall x y, In x l -> In y l -> In i (b_nodes (B x)) -> In i (b_nodes (B y)) -> x = y) ->
    forall a, fold_left (ent_step i d) (flat_map g l) a = fold_left (ent_step i d) (flat_map g l') a.
  Proof.
    intros Hp ND Hg Hu a. rewrite !fold_flat_map. apply fold_perm; auto. intros x y s Hx Hy N.
    destruct (in_dec Nat.eq_dec i (b_nodes (B x))) as [Ix|Ix].
    - assert (Iy : ~ In i (b_nodes (B y))) by (intros Iy; apply N; auto).
      rewrite !(ent_idle i d (g y)) by (intros z Hz Q; apply Hg in Hz; subst; contradiction). reflexivity.
    - rewrite !(ent_idle i d (g x)) by (intros z Hz Q; apply Hg in Hz; subst; contradiction). reflexivity.
  Qed.
  Theorem near_matrix_bit cl cl' lv lv' i d : Permutation cl (st_childless st) -> Permutation cl' (st_childless st) ->
    (forall l, 1 <= l <= o_N I -> Permutation (lv l) (nth l (st_dfill st) [])) -> (forall l, 1 <= l <= o_N I -> Permutation (lv' l) (nth l (st_dfill st) [])) ->
    entry (direct_adds I st K owned cl lv) i d = entry (direct_adds I st K owned cl' lv') i d.
  Proof.
    intros C1 C2 L1 L2. unfold entry, direct_adds. change (fun a x => if Nat.eqb (fst (fst x)) i && Nat.eqb (snd (fst x)) d then aadd a (snd x) else a) with (ent_step i d).
    rewrite !fold_left_app. assert (P : forall l l' : list nat, Permutation l (st_childless st) -> Permutation l' (st_childless st) -> Permutation l l') by (intros ? ? Q1 Q2; rewrite Q1, Q2; auto).
    assert (NC : NoDup cl) by (apply (Permutation_NoDup (Permutation_sym C1)); apply F_cl_nodup; auto).
    assert (UC : forall x y, In x cl -> In y cl -> In i (b_nodes (B x)) -> In i (b_nodes (B y)) -> x = y) by (intros x y Hx Hy; apply leaf_unique; auto; apply (Permutation_in _ C1); auto).
    rewrite (ent_perm i d (fun b => copier_adds I (near_worker I st K owned b)) cl cl' (P _ _ C1 C2) NC (near_rows) UC).
    generalize (fold_left (ent_step i d) (flat_map (fun b => copier_adds I (near_worker I st K owned b)) cl') 0%R).
    assert (G : forall ls, (forall l, In l ls -> 1 <= l <= o_N I) -> forall a,
      fold_left (ent_step i d) (flat_map (fun l => flat_map (fun b => copier_adds I (big_worker I st K owned l b)) (lv l)) ls) a =
      fold_left (ent_step i d) (flat_map (fun l => flat_map (fun b => copier_adds I (big_worker I st K owned l b)) (lv' l)) ls) a).
    { induction ls as [|l ls IH]; intros Hls a; cbn [flat_map]; auto. rewrite !fold_left_app. assert (Hl := Hls l (or_introl eq_refl)).
      rewrite (ent_perm i d (fun b => copier_adds I (big_worker I st K owned l b)) (lv l) (lv' l)).
      - apply IH. intros; apply Hls; right; auto.
      - rewrite (L1 l Hl), (L2 l Hl). auto.
      - apply (Permutation_NoDup (Permutation_sym (L1 l Hl))). apply dfill_nodup; auto; lia.
      - apply big_rows.
      - intros x y Hx Hy. apply (level_unique l); auto; apply (Permutation_in _ (L1 l Hl)); auto. }
    apply G. intros l Hl. apply in_seq in Hl. lia.
  Qed.

  (** ** Leaf expansions *)
  Theorem leaves_bit order order' : Permutation order order' -> NoDup order -> leaves E I st K phi order = leaves E I st K phi order'.
  Proof. intros Hp ND. unfold leaves. apply fold_perm; auto. intros x y M _ _ N. rewrite !(upd_off M) by auto. apply upd_swap. auto. Qed.

  (** ** Upward pass: only the order of the children of a block matters *)
  Definition kids_in (p : nat) (l : list nat) : list nat := filter (fun k => Nat.eqb (b_parent (B k)) p) l.
  Definition pull (M : nat -> ME E) (p : nat) (a : ME E) (k : nat) : ME E := madd E a (madd E (mz E p) (M k)).
  Lemma ascend_level_val l : (forall k, In k l -> forall k', In k' l -> b_parent (B k') <> k) -> forall M x,
    fold_left (ascend1 E st) l M x = fold_left (pull M x) (kids_in x l) (M x).
  Proof.
    intros Hl. assert (G : forall r, incl r l -> forall M0 M, (forall k, In k l -> M k = M0 k) -> forall x, fold_left (ascend1 E st) r M x = fold_left (pull M0 x) (kids_in x r) (M x)).
    { induction r as [|k r IH]; intros Hr M0 M HM x; cbn [fold_left kids_in filter]; auto.
      assert (Hk : In k l) by (apply Hr; left; auto).
      rewrite (IH (fun z Hz => Hr z (or_intror Hz)) M0).
      - unfold ascend1. fold (kids_in x r). destruct (Nat.eqb_spec (b_parent (B k)) x) as [Q|Q].
        + cbn [fold_left]. f_equal. rewrite Q, upd_at. unfold pull. rewrite (HM k Hk). auto.
        + f_equal. apply upd_off. auto.
      - intros z Hz. unfold ascend1. rewrite upd_off; auto. intros ->. apply (Hl _ Hz k Hk). auto. }
    intros M x. apply G; auto. apply incl_refl.
  Qed.
  Lemma level_parents l : 1 <= l <= o_N I -> forall up, Permutation up (level_ids st l) -> forall k, In k up -> forall k', In k' up -> b_parent (B k') <> k.
  Proof.
    intros Hl up Hp k Hk k' Hk' Q. apply (Permutation_in _ Hp) in Hk, Hk'. apply (F_level_ids I W) in Hk, Hk'; try lia. destruct Hk as (K1 & K2), Hk' as (K3 & K4).
    assert (k' <> 0) by (intros ->; destruct (Nat.eq_dec l 0); [lia|]; assert (Z := proj2 (level_pos I bs (F_tree I W) 0 K3) eq_refl); lia).
    assert (PL := parent_level I bs (F_tree I W) k' ltac:(lia)). rewrite Q in PL. lia.
  Qed.
  Theorem ascend_bit up up' M : (forall l, 1 <= l <= o_N I -> Permutation (up l) (level_ids st l)) -> (forall l, 1 <= l <= o_N I -> Permutation (up' l) (level_ids st l)) ->
    (forall l p, 1 <= l <= o_N I -> kids_in p (up l) = kids_in p (up' l)) -> ascend E I st up M = ascend E I st up' M.
  Proof.
    intros U1 U2 Hk. unfold ascend. assert (Hls : forall l, In l (rev (seq 1 (o_N I))) -> 1 <= l <= o_N I) by (intros l Hl; apply in_rev, in_seq in Hl; lia).
    revert M. induction (rev (seq 1 (o_N I))) as [|l ls IH]; intros M; cbn [fold_left]; auto. assert (Hl := Hls l (or_introl eq_refl)).
    replace (fold_left (ascend1 E st) (up' l) M) with (fold_left (ascend1 E st) (up l) M); [apply IH; intros; apply Hls; right; auto|].
    apply functional_extensionality. intros x. rewrite !ascend_level_val by (eapply level_parents; eauto). rewrite (Hk l x Hl). auto.
  Qed.

  (** ** Downward pass *)
  Definition contr (f : nat -> R) (nodes : list nat) (o : nat -> R) : nat -> R := fold_left (fun o i => upd o i (aadd (o i) (f i))) nodes o.
  Lemma contr_off f nodes o j : ~ In j nodes -> contr f nodes o j = o j.
  Proof. unfold contr. revert o. induction nodes as [|a l IH]; intros o Hj; cbn [fold_left]; auto. rewrite IH by (intros Q; apply Hj; right; auto). apply upd_off. intros ->. apply Hj. left; auto. Qed.
  Lemma contr_local f nodes o o' j : o j = o' j -> contr f nodes o j = contr f nodes o' j.
  Proof. unfold contr. revert o o'. induction nodes as [|a l IH]; intros o o' Hj; cbn [fold_left]; auto. apply IH. unfold upd. destruct (Nat.eqb_spec j a) as [->|]; auto. rewrite Hj. auto. Qed.
  Lemma contr_swap f g n1 n2 o : (forall j, In j n1 -> In j n2 -> False) -> contr g n2 (contr f n1 o) = contr f n1 (contr g n2 o).
  Proof.
    intros Hd. apply functional_extensionality. intros j. destruct (in_dec Nat.eq_dec j n1) as [J1|J1].
    - assert (J2 : ~ In j n2) by eauto. rewrite (contr_off g n2) by auto. apply contr_local. symmetry. apply contr_off; auto.
    - rewrite (contr_off f n1) by auto. apply contr_local. apply contr_off; auto.
  Qed.
  Lemma descend_swap M x y s : b_parent (B x) <> y -> b_parent (B y) <> x -> x <> y -> (forall j, In j (b_nodes (B x)) -> In j (b_nodes (B y)) -> False) ->
    descend1 E I st owned M (descend1 E I st owned M s x) y = descend1 E I st owned M (descend1 E I st owned M s y) x.
  Proof.
    intros Px Py N Hd. destruct s as (L, o). unfold descend1. cbv zeta. f_equal.
    - unfold descend_local. rewrite !(upd_off L) by auto. apply upd_swap. auto.
    - change (fold_left ?f ?l ?a) with (fold_left f l a). apply (contr_swap (fun i => if existsb owned (b_nodes (B x)) then descend_eval E I st M x i else 0%R) (fun i => if existsb owned (b_nodes (B y)) then descend_eval E I st M y i else 0%R)). auto.
  Qed.
  Theorem descend_bit dn dn' M out : (forall l, 1 <= l <= o_N I -> Permutation (dn l) (nth l (st_dfill st) [])) -> (forall l, 1 <= l <= o_N I -> Permutation (dn' l) (nth l (st_dfill st) [])) ->
    descend E I st owned M dn out = descend E I st owned M dn' out.
  Proof.
    intros D1 D2. unfold descend. generalize (lz E, out). assert (Hls : forall l, In l (seq 1 (o_N I)) -> 1 <= l <= o_N I) by (intros l Hl; apply in_seq in Hl; lia).
    induction (seq 1 (o_N I)) as [|l ls IH]; intros s; cbn [fold_left]; auto. assert (Hl := Hls l (or_introl eq_refl)).
    rewrite (fold_perm (descend1 E I st owned M) (dn l) (dn' l)); [apply IH; intros; apply Hls; right; auto| | |].
    - rewrite (D1 l Hl), (D2 l Hl). auto.
    - apply (Permutation_NoDup (Permutation_sym (D1 l Hl))). apply dfill_nodup; auto; lia.
    - intros x y s0 Hx Hy N. apply (Permutation_in _ (D1 l Hl)) in Hx, Hy. assert (Hx' := proj1 (dfill_in I W x l ltac:(lia)) Hx). assert (Hy' := proj1 (dfill_in I W y l ltac:(lia)) Hy).
      assert (P : forall z, z < nb -> b_level (B z) = l -> b_level (B (b_parent (B z))) <> l).
      { intros z Z1 Z2. assert (z <> 0) by (intros ->; assert (Z := proj2 (level_pos I bs (F_tree I W) 0 Z1) eq_refl); lia). assert (PL := parent_level I bs (F_tree I W) z ltac:(lia)). lia. }
      destruct Hx' as (X1 & X2 & _), Hy' as (Y1 & Y2 & _).
      apply descend_swap; auto; [intros Q; apply (P x X1 X2); rewrite Q; auto|intros Q; apply (P y Y1 Y2); rewrite Q; auto|].
      intros j Jx Jy. apply N. apply (level_unique l x y j); auto.
  Qed.
  Theorem evaluate_bit L order order' out : Permutation order (st_childless st) -> Permutation order' (st_childless st) ->
    evaluate E st owned L order out = evaluate E st owned L order' out.
  Proof.
    intros P1 P2. unfold evaluate. apply fold_perm; [rewrite P1, P2; auto|apply (Permutation_NoDup (Permutation_sym P1)); apply F_cl_nodup; auto|].
    intros x y o Hx Hy N. change (ev1 E I owned L (ev1 E I owned L o x) y = ev1 E I owned L (ev1 E I owned L o y) x).
    apply (Permutation_in _ P1) in Hx, Hy. apply functional_extensionality. intros j. destruct (in_dec Nat.eq_dec j (b_nodes (B x))) as [J1|J1].
    - assert (J2 : ~ In j (b_nodes (B y))) by (intros Q; apply N; apply (leaf_unique I W x y j); auto). rewrite (ev1_other E I owned L y) by auto. apply ev1_local. symmetry. apply ev1_other; auto.
    - rewrite (ev1_other E I owned L x) by auto. apply ev1_local. apply ev1_other; auto.
  Qed.
  Theorem product_bit s s' : good_sched I st s -> good_sched I st s' -> (forall l p, 1 <= l <= o_N I -> kids_in p (s_up s l) = kids_in p (s_up s' l)) ->
    forall i, fmm_product E I st K phi owned s i = fmm_product E I st K phi owned s' i.
  Proof.
    intros (A1 & A2 & A3 & A4 & A5 & A6) (B1 & B2 & B3 & B4 & B5 & B6) Hk i. unfold fmm_product.
    assert (NL : NoDup (s_leaves s)) by (apply (Permutation_NoDup (Permutation_sym A3)); apply F_cl_nodup; auto).
    rewrite (leaves_bit (s_leaves s) (s_leaves s')) by (auto; rewrite A3, B3; auto). rewrite (ascend_bit (s_up s) (s_up s')) by auto.
    assert (Q : (fun i0 => fold_left (fun a d => aadd a (amul (entry (direct_adds I st K owned (s_direct s) (s_big s)) i0 d) (phi d))) (seq 0 (o_nd I)) 0%R) =
                (fun i0 => fold_left (fun a d => aadd a (amul (entry (direct_adds I st K owned (s_direct s') (s_big s')) i0 d) (phi d))) (seq 0 (o_nd I)) 0%R)).
    { apply functional_extensionality. intros j. generalize 0%R. induction (seq 0 (o_nd I)) as [|d ds IH]; intros a; cbn [fold_left]; auto. rewrite (near_matrix_bit (s_direct s) (s_direct s') (s_big s) (s_big s')); auto. }
    rewrite Q. rewrite (descend_bit (s_down s) (s_down s')) by auto. destruct (descend E I st owned _ (s_down s') _) as (L, out). rewrite (evaluate_bit L (s_eval s) (s_eval s')); auto.
  Qed.
End Bit.

(** ** Partition of the nodes among processes *)
Section BitPart.
  Context {AR : arith}.
  Variable E : eops.
  Variable I : oin.
  Hypothesis W : wf_in I.
  Variable K : kern.
  Variable phi : nat -> R.
  Notation st := (octree I).
  Notation bs := (st_blocks (octree I)).
  Notation B := (getb (st_blocks (octree I))).
  Notation nb := (length (st_blocks (octree I))).
  Variables owned owned' : nat -> bool.
  Variable i : nat.
  Hypothesis Ho : owned i = true.
  Hypothesis Ho' : owned' i = true.

  Lemma rows_idle d k (g : nat -> list (nat * (nat -> R))) : k <> i -> forall a, fold_left (ent_step i d) (flat_map (row_adds I k) (g k)) a = a.
  Proof. intros N a. apply ent_idle. intros x Hx. apply in_flat_map in Hx. destruct Hx as ((c, f) & _ & Hx). apply row_adds_in in Hx. destruct Hx as (-> & _). auto. Qed.
  Lemma near_part_bit b d a : fold_left (ent_step i d) (copier_adds I (near_worker I st K owned b)) a = fold_left (ent_step i d) (copier_adds I (near_worker I st K owned' b)) a.
  Proof.
    rewrite !near_adds_bit. revert a. induction (b_nodes (B b)) as [|k l IH]; intros a; cbn [filter]; auto. destruct (Nat.eq_dec k i) as [->|N].
    - rewrite Ho, Ho'. cbn [flat_map]. rewrite !fold_left_app. apply IH.
    - assert (X : forall o : nat -> bool, fold_left (ent_step i d) (flat_map (fun i0 => flat_map (fun c => row_adds I i0 (c, near_row I K i0 c (near_quads I st b))) (cells_in I (near_quads I st b))) (if o k then k :: filter o l else filter o l)) a =
        fold_left (ent_step i d) (flat_map (fun i0 => flat_map (fun c => row_adds I i0 (c, near_row I K i0 c (near_quads I st b))) (cells_in I (near_quads I st b))) (filter o l)) a).
      { intros o. destruct (o k); auto. cbn [flat_map]. rewrite fold_left_app. f_equal. apply ent_idle. intros x Hx. apply in_flat_map in Hx. destruct Hx as (c & _ & Hx). apply row_adds_in in Hx. destruct Hx as (-> & _). auto. }
      rewrite !X. apply IH.
  Qed.
  Lemma big_part_bit lv b d a : fold_left (ent_step i d) (copier_adds I (big_worker I st K owned lv b)) a = fold_left (ent_step i d) (copier_adds I (big_worker I st K owned' lv b)) a.
  Proof.
    rewrite !big_adds_bit. revert a. induction (b_nodes (B b)) as [|k l IH]; intros a; cbn [flat_map]; auto. rewrite !fold_left_app. destruct (Nat.eq_dec k i) as [->|N].
    - rewrite Ho, Ho'. apply IH.
    - assert (X : forall o : nat -> bool, fold_left (ent_step i d) (if o k then flat_map (fun c => row_adds I k (c, regular_row I K k c (big_quads I st lv b))) (cells_in I (big_quads I st lv b)) else []) a = a).
      { intros o. destruct (o k); auto. apply ent_idle. intros x Hx. apply in_flat_map in Hx. destruct Hx as (c & _ & Hx). apply row_adds_in in Hx. destruct Hx as (-> & _). auto. }
      rewrite !X. apply IH.
  Qed.
  Lemma near_matrix_part cl lv d : entry (direct_adds I st K owned cl lv) i d = entry (direct_adds I st K owned' cl lv) i d.
  Proof.
    unfold entry, direct_adds. change (fun a x => if Nat.eqb (fst (fst x)) i && Nat.eqb (snd (fst x)) d then aadd a (snd x) else a) with (ent_step i d).
    rewrite !fold_left_app, !fold_flat_map.
    assert (G : forall (f g : R -> nat -> R) l a, (forall a x, f a x = g a x) -> fold_left f l a = fold_left g l a) by (intros f g l; induction l as [|x l IH]; intros a Hf; cbn [fold_left]; auto; rewrite Hf; auto).
    rewrite (G _ (fun a b => fold_left (ent_step i d) (copier_adds I (near_worker I st K owned' b)) a) cl) by (intros; apply near_part_bit).
    apply G. intros a l. rewrite !fold_flat_map. apply G. intros; apply big_part_bit.
  Qed.
  Definition SameAt (s s' : (nat -> LE E) * (nat -> R)) : Prop := (forall x, x < nb -> In i (b_nodes (B x)) -> fst s x = fst s' x) /\ snd s i = snd s' i.
  Lemma descend1_part M s s' b : 0 < b < nb -> SameAt s s' -> SameAt (descend1 E I st owned M s b) (descend1 E I st owned' M s' b).
  Proof.
    destruct s as (L, o), s' as (L', o'). intros Hb (S1 & S2). cbn [fst snd] in S1, S2. unfold descend1. cbv zeta.
    destruct (in_dec Nat.eq_dec i (b_nodes (B b))) as [Ib|Ib].
    - assert (On : existsb owned (b_nodes (B b)) = true) by (apply existsb_exists; eauto). assert (On' : existsb owned' (b_nodes (B b)) = true) by (apply existsb_exists; eauto). rewrite On, On'. split; cbn [fst snd].
      + intros x Hx Hix. unfold upd. destruct (Nat.eqb_spec x b) as [->|]; [|auto]. rewrite (S1 b Hx Ib). f_equal. unfold descend_local. rewrite (S1 (b_parent (B b))); auto.
        * destruct (parent_info I bs (F_tree I W) b Hb). lia.
        * apply (nodes_parent I bs (F_tree I W)); auto.
      + apply (contr_local (descend_eval E I st M b)). auto.
    - split; cbn [fst snd].
      + intros x Hx Hix. rewrite !upd_off by (intros ->; contradiction). auto.
      + etransitivity; [apply (contr_off (fun i0 => if existsb owned (b_nodes (B b)) then descend_eval E I st M b i0 else 0%R)); auto|].
        symmetry. etransitivity; [apply (contr_off (fun i0 => if existsb owned' (b_nodes (B b)) then descend_eval E I st M b i0 else 0%R)); auto|]. auto.
  Qed.
  Theorem product_part s : good_sched I st s -> fmm_product E I st K phi owned s i = fmm_product E I st K phi owned' s i.
  Proof.
    intros (A1 & A2 & A3 & A4 & A5 & A6). unfold fmm_product.
    set (M := ascend E I st (s_up s) (leaves E I st K phi (s_leaves s))).
    set (o1 := fun i0 => fold_left _ (seq 0 (o_nd I)) 0%R). set (o2 := fun i0 => fold_left (fun a d => aadd a (amul (entry (direct_adds I st K owned' _ _) i0 d) (phi d))) (seq 0 (o_nd I)) 0%R).
    assert (Q : SameAt (descend E I st owned M (s_down s) o1) (descend E I st owned' M (s_down s) o2)).
    { unfold descend. assert (S0 : SameAt (lz E, o1) (lz E, o2)).
      { split; auto. cbn [snd]. unfold o1, o2. generalize 0%R. induction (seq 0 (o_nd I)) as [|d ds IH]; intros a; cbn [fold_left]; auto. rewrite near_matrix_part. apply IH. }
      revert S0. generalize (lz E, o1), (lz E, o2). assert (Hls : forall l, In l (seq 1 (o_N I)) -> 1 <= l <= o_N I) by (intros l Hl; apply in_seq in Hl; lia).
      induction (seq 1 (o_N I)) as [|l ls IH]; intros s1 s2 S0; cbn [fold_left]; auto. apply IH; [intros; apply Hls; right; auto|]. assert (Hl := Hls l (or_introl eq_refl)).
      assert (Hin : forall b, In b (s_down s l) -> 0 < b < nb).
      { intros b Hb. apply (Permutation_in _ (A5 l Hl)) in Hb. apply (dfill_in I W) in Hb; [|lia]. destruct Hb as (X1 & X2 & _). split; auto. destruct b; [|lia]. assert (Z := proj2 (level_pos I bs (F_tree I W) 0 X1) eq_refl). lia. }
      revert s1 s2 S0 Hin. induction (s_down s l) as [|b r IHr]; intros s1 s2 S0 Hin; cbn [fold_left]; auto. apply IHr; [|intros; apply Hin; right; auto]. apply descend1_part; auto. apply Hin. left; auto. }
    destruct (descend E I st owned M (s_down s) o1) as (L, o), (descend E I st owned' M (s_down s) o2) as (L', o'). destruct Q as (Q1 & Q2). cbn [fst snd] in Q1, Q2.
    unfold evaluate. assert (He : forall b, In b (s_eval s) -> b < nb) by (intros b Hb; apply (F_cl I W); apply (Permutation_in _ A6); auto).
    clear - Q1 Q2 He Ho Ho'. revert o o' Q2. induction (s_eval s) as [|b r IH]; intros o o' Q2; cbn [fold_left]; auto. apply IH; [intros; apply He; right; auto|].
    assert (Hb := He b (or_introl eq_refl)).
    assert (G : forall l, incl l (b_nodes (B b)) -> forall o o', o i = o' i -> fold_left (fun o i0 => if owned i0 then upd o i0 (aadd (o i0) (evL E (L b) i0)) else o) l o i = fold_left (fun o i0 => if owned' i0 then upd o i0 (aadd (o i0) (evL E (L' b) i0)) else o) l o' i).
    { induction l as [|j l IHl]; intros Hi a a' Ha; cbn [fold_left]; auto. apply IHl; [intros z Hz; apply Hi; right; auto|]. destruct (Nat.eq_dec j i) as [->|N].
      - rewrite Ho, Ho', !upd_at, Ha, (Q1 b Hb); auto. apply Hi. left; auto.
      - destruct (owned j), (owned' j); rewrite ?upd_off by auto; auto. }
    apply G; auto. apply incl_refl.
  Qed.
End BitPart.
