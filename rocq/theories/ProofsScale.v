(** * The octree of a scaled mesh (C76). *)
From Coq Require Import QArith Qabs Qminmax Qround ZArith List Lia Arith Bool Lqa Setoid Morphisms.
From Verif Require Import ModelOctree.
Import ListNotations.
Local Open Scope nat_scope.

Definition pt_scaled (s : Q) (p p' : pt) : Prop := (px p' == s * px p /\ py p' == s * py p /\ pz p' == s * pz p)%Q.
(** the same mesh with coordinates multiplied by s, in an arithmetic whose rounding commutes with the
    multiplication by s (always true for exact arithmetic; true for binary floating point when s is a power of two
    and nothing overflows or underflows) *)
Record scaled_input (s : Q) (I I' : oin) : Prop := {
  si_pos : (0 < s)%Q;
  si_N : o_N I' = o_N I; si_max : o_max I' = o_max I; si_nd : o_nd I' = o_nd I; si_nc : o_nc I' = o_nc I; si_nqc : o_nqc I' = o_nqc I;
  si_dbl : forall d, o_dbl I' d = o_dbl I d; si_cdofs : forall c, o_cdofs I' c = o_cdofs I c;
  si_node : forall i, pt_scaled s (o_pos I i) (o_pos I' i);
  si_quad : forall q, pt_scaled s (o_qpos I q) (o_qpos I' q);
  si_rnd : forall x, o_rnd I' x = o_rnd I x;
  si_same : forall x y, (x == y)%Q -> (o_rnd I x == o_rnd I y)%Q;
  si_commutes : forall x, (o_rnd I (s * x) == s * o_rnd I x)%Q }.
(** blocks that differ in their coordinates only *)
Definition block_scaled (s : Q) (b b' : block) : Prop :=
  b_level b' = b_level b /\ b_parent b' = b_parent b /\ b_nodes b' = b_nodes b /\ b_quads b' = b_quads b /\ b_kids b' = b_kids b /\
  pt_scaled s (b_min b) (b_min b') /\ (b_delta b' == s * b_delta b)%Q.
Definition state_scaled (s : Q) (x x' : ost) : Prop :=
  Forall2 (block_scaled s) (st_blocks x) (st_blocks x') /\ (forall q, st_qtb x' q = st_qtb x q) /\ (forall d, st_dtb x' d = st_dtb x d) /\
  st_parents x' = st_parents x /\ st_childless x' = st_childless x /\ st_start x' = st_start x /\ st_end x' = st_end x /\
  st_dfill x' = st_dfill x /\ st_qfill x' = st_qfill x.

Section Scale.
  Variables (s : Q) (I I' : oin).
  Hypothesis SI : scaled_input s I I'.
  Let P : (0 < s)%Q := si_pos s I I' SI.

  Lemma le_scaled x y x' y' : (x' == s * x -> y' == s * y -> Qle_bool x' y' = Qle_bool x y)%Q.
  Proof.
    intros X Y. destruct (Qle_bool x y) eqn:E.
    - apply Qle_bool_iff in E. apply Qle_bool_iff. rewrite X, Y. apply Qmult_le_l; auto.
    - apply not_true_iff_false in E. apply not_true_iff_false. intros F. apply E. apply Qle_bool_iff. apply Qle_bool_iff in F. rewrite X, Y in F. apply Qmult_le_l in F; auto.
  Qed.
  Lemma rnd_scaled x x' : (x' == s * x -> o_rnd I' x' == s * o_rnd I x)%Q.
  Proof. intros X. rewrite (si_rnd _ _ _ SI), (si_same _ _ _ SI x' (s * x) X). apply (si_commutes _ _ _ SI). Qed.
  Lemma add_scaled x y x' y' : (x' == s * x -> y' == s * y -> o_rnd I' (x' + y') == s * o_rnd I (x + y))%Q.
  Proof. intros X Y. apply rnd_scaled. rewrite X, Y. ring. Qed.

  Lemma max_scaled : (max_coord I' == s * max_coord I)%Q.
  Proof.
    unfold max_coord. rewrite (si_nd _ _ _ SI).
    enough (H : forall l m m', (m' == s * m)%Q -> (fold_left (fun m i => let p := o_pos I' i in Qmax (Qmax (Qmax m (Qabs (px p))) (Qabs (py p))) (Qabs (pz p))) l m' ==
      s * fold_left (fun m i => let p := o_pos I i in Qmax (Qmax (Qmax m (Qabs (px p))) (Qabs (py p))) (Qabs (pz p))) l m)%Q) by (apply H; ring).
    induction l as [|i l IH]; intros m m' E; [exact E|]. cbn [fold_left]. apply IH. cbv zeta. destruct (si_node _ _ _ SI i) as (X & Y & Z).
    assert (A : forall x x', (x' == s * x -> Qabs x' == s * Qabs x)%Q) by (intros x x' Ex; rewrite Ex, Qabs_Qmult, (Qabs_pos s) by lra; reflexivity).
    assert (M : forall x y x' y', (x' == s * x -> y' == s * y -> Qmax x' y' == s * Qmax x y)%Q).
    { intros x y x' y' Ex Ey. destruct (Q.max_spec x y) as [(L & ->)|(L & ->)].
      - rewrite Q.max_r; auto. rewrite Ex, Ey. apply Qmult_le_l; auto. apply Qlt_le_weak; auto.
      - rewrite Q.max_l; auto. rewrite Ex, Ey. apply Qmult_le_l; auto. }
    auto.
  Qed.
  Lemma root_scaled : block_scaled s (root_block I) (root_block I').
  Proof.
    unfold root_block, block_scaled. cbn [b_level b_parent b_min b_delta b_nodes b_quads b_kids]. unfold o_nq. rewrite (si_nd _ _ _ SI), (si_nc _ _ _ SI), (si_nqc _ _ _ SI).
    assert (M := max_scaled). assert (C : (o_rnd I' (- o_rnd I' (11 # 10) * max_coord I') == s * o_rnd I (- o_rnd I (11 # 10) * max_coord I))%Q).
    { apply rnd_scaled. rewrite (si_rnd _ _ _ SI), M. ring. }
    repeat split; cbn [px py pz]; auto. apply rnd_scaled. rewrite (si_rnd _ _ _ SI), M. ring.
  Qed.
  Lemma octant_scaled m m' d d' p p' : pt_scaled s m m' -> (d' == s * d)%Q -> pt_scaled s p p' -> octant (o_rnd I') m' d' p' = octant (o_rnd I) m d p.
  Proof.
    intros (X & Y & Z) D (PX & PY & PZ). unfold octant.
    rewrite (le_scaled (pz p) (o_rnd I (pz m + d)%Q) (pz p') (o_rnd I' (pz m' + d')%Q) PZ (add_scaled _ _ _ _ Z D)).
    rewrite (le_scaled (py p) (o_rnd I (py m + d)%Q) (py p') (o_rnd I' (py m' + d')%Q) PY (add_scaled _ _ _ _ Y D)).
    rewrite (le_scaled (px p) (o_rnd I (px m + d)%Q) (px p') (o_rnd I' (px m' + d')%Q) PX (add_scaled _ _ _ _ X D)).
    reflexivity.
  Qed.
  Lemma child_scaled level jj d d' b b' c : (d' == s * d)%Q -> block_scaled s b b' -> block_scaled s (child_block I level jj d b c) (child_block I' level jj d' b' c).
  Proof.
    intros D (_ & _ & N & Q & _ & M & _). unfold child_block, block_scaled. cbn [b_level b_parent b_min b_delta b_nodes b_quads b_kids]. rewrite N, Q.
    split; [reflexivity|]. split; [reflexivity|].
    split; [apply filter_ext; intros k; rewrite (octant_scaled (b_min b) (b_min b') d d' _ _ M D (si_node _ _ _ SI k)); reflexivity|].
    split; [apply filter_ext; intros k; rewrite (octant_scaled (b_min b) (b_min b') d d' _ _ M D (si_quad _ _ _ SI k)); reflexivity|].
    split; [reflexivity|]. split; [|exact D].
    destruct M as (X & Y & Z). unfold child_min. destruct c as [|[|[|[|[|[|[|c]]]]]]]; repeat split; cbn [px py pz]; auto using add_scaled.
  Qed.
  Lemma getb_scaled l l' k : Forall2 (block_scaled s) l l' -> block_scaled s (getb l k) (getb l' k).
  Proof.
    intros F. revert k. unfold getb. induction F as [|b b' l l' Hb F IH]; intros k.
    - destruct k; cbn; unfold block_scaled, pt_scaled, dblock; cbn; repeat split; try reflexivity; ring.
    - destruct k; cbn [nth]; auto.
  Qed.
  Lemma F2_length {A} (R : A -> A -> Prop) l l' : Forall2 R l l' -> length l = length l'.
  Proof. induction 1; cbn; auto. Qed.
  Lemma push_ext l x f g : (forall k, f k = g k) -> forall k, push_all l x f k = push_all l x g k.
  Proof.
    revert f g. unfold push_all. induction l as [|a l IH]; intros f g E k; [apply E|]. cbn [fold_left]. apply IH. intros k'. rewrite !E. reflexivity.
  Qed.
  Lemma Forall2_firstn {A} (R : A -> A -> Prop) n l l' : Forall2 R l l' -> Forall2 R (firstn n l) (firstn n l').
  Proof. intros F. revert n. induction F; intros [|n]; cbn; constructor; auto. Qed.
  Lemma Forall2_skipn {A} (R : A -> A -> Prop) n l l' : Forall2 R l l' -> Forall2 R (skipn n l) (skipn n l').
  Proof. intros F. revert n. induction F; intros [|n]; cbn; try constructor; auto. Qed.
  Lemma add_child_scaled jj st st' b b' : state_scaled s st st' -> block_scaled s b b' -> state_scaled s (add_child jj st b) (add_child jj st' b').
  Proof.
    intros (B & Qt & Dt & E1 & E2 & E3 & E4 & E5 & E6) Hb. unfold add_child. assert (NE : nonempty b' = nonempty b) by (unfold nonempty; destruct Hb as (_ & _ & -> & -> & _); reflexivity).
    rewrite NE. destruct (nonempty b); [|split; [|split; [|split; [|split; [|split; [|split; [|split; [|split]]]]]]]; auto].
    assert (G := getb_scaled _ _ jj B). assert (L : length (st_blocks st') = length (st_blocks st)) by (symmetry; eapply F2_length; eauto).
    unfold state_scaled. cbn [st_blocks st_qtb st_dtb st_parents st_childless st_start st_end st_dfill st_qfill]. rewrite L.
    split; [|split; [|split; [|auto 10]]].
    - apply Forall2_app; [|constructor; [exact Hb|constructor]]. unfold add_kid. apply Forall2_app; [apply Forall2_firstn; auto|]. constructor; [|apply Forall2_skipn; auto].
      destruct G as (G1 & G2 & G3 & G4 & G5 & G6 & G7). unfold block_scaled. cbn [b_level b_parent b_min b_delta b_nodes b_quads b_kids]. rewrite G5. repeat split; auto; apply G6.
    - intros q. destruct Hb as (_ & _ & _ & -> & _). apply push_ext. exact Qt.
    - intros d. destruct G as (_ & _ & -> & _). apply push_ext. exact Dt.
  Qed.
  Lemma split_scaled level d d' st st' jj : (d' == s * d)%Q -> state_scaled s st st' -> state_scaled s (split_block I level d st jj) (split_block I' level d' st' jj).
  Proof.
    intros D E. unfold split_block. assert (G := getb_scaled _ _ jj (proj1 E)). set (par := getb (st_blocks st) jj) in *. set (par' := getb (st_blocks st') jj) in *. clearbody par par'.
    revert st st' E. induction (seq 0 8) as [|c l IH]; intros st st' E; [exact E|]. cbn [map fold_left]. apply IH. apply add_child_scaled; auto. apply child_scaled; auto.
  Qed.
  Lemma weight_scaled b b' : block_scaled s b b' -> block_weight I' b' = block_weight I b.
  Proof.
    intros (_ & _ & N & _). unfold block_weight. rewrite N. match goal with |- fold_left ?f _ ?w = fold_left ?g _ _ => generalize w; assert (FG : forall x n, f x n = g x n) by (intros; cbv beta; rewrite ?(si_dbl _ _ _ SI); reflexivity); revert FG; generalize f, g end.
    intros f g FG. clear N. induction (b_nodes b) as [|n l IH]; intros w; [reflexivity|]. cbn [fold_left]. rewrite FG. apply IH.
  Qed.
  Lemma pushes_ext (l : list nat) (rest : list nat) jj f g : (forall k, f k = g k) -> forall k,
    fold_left (fun f q => fold_left (fun f _ => push_all [q] jj f) rest f) l f k = fold_left (fun f q => fold_left (fun f _ => push_all [q] jj f) rest f) l g k.
  Proof.
    revert f g. induction l as [|q l IH]; intros f g E k; [apply E|]. cbn [fold_left]. apply IH. clear -E. revert f g E. induction rest as [|x rest IH]; intros f g E k; [apply E|]. cbn [fold_left]. apply IH. apply push_ext. exact E.
  Qed.
  Lemma classify_scaled level st st' jj : state_scaled s st st' -> state_scaled s (classify I level st jj) (classify I' level st' jj).
  Proof.
    intros (B & Qt & Dt & E1 & E2 & E3 & E4 & E5 & E6). assert (G := getb_scaled _ _ jj B). assert (Wt := weight_scaled _ _ G). destruct G as (_ & _ & G3 & G4 & _).
    unfold classify. cbv zeta. rewrite Wt, G3, G4, (si_max _ _ _ SI), (si_N _ _ _ SI), E1, E2, E5, E6.
    unfold state_scaled. cbn [st_blocks st_qtb st_dtb st_parents st_childless st_start st_end st_dfill st_qfill].
    split; [exact B|]. split; [intros q; destruct (Z.leb _ _); [apply pushes_ext|]; auto|]. split; [intros d; destruct (Z.leb _ _); [apply pushes_ext|]; auto|]. auto 10.
  Qed.
  Lemma fold_scaled (f f' : ost -> nat -> ost) l st st' : (forall x x' k, state_scaled s x x' -> state_scaled s (f x k) (f' x' k)) -> state_scaled s st st' -> state_scaled s (fold_left f l st) (fold_left f' l st').
  Proof. intros F. revert st st'. induction l as [|k l IH]; intros st st' E; [exact E|]. cbn [fold_left]. apply IH. auto. Qed.
  Lemma level_scaled sd sd' level : state_scaled s (fst sd) (fst sd') -> (snd sd' == s * snd sd)%Q ->
    state_scaled s (fst (level_step I sd level)) (fst (level_step I' sd' level)) /\ (snd (level_step I' sd' level) == s * snd (level_step I sd level))%Q.
  Proof.
    destruct sd as (st & d), sd' as (st' & d'). cbn [fst snd]. intros E D. unfold level_step. cbv zeta. cbn [fst snd].
    assert (D2 : (d' / 2 == s * (d / 2))%Q) by (rewrite D; field).
    assert (E1 : state_scaled s (fold_left (split_block I level (d / 2)) (st_parents st) st) (fold_left (split_block I' level (d' / 2)) (st_parents st') st')).
    { destruct E as (A1 & A2 & A3 & A4 & A5). rewrite A4. apply fold_scaled; [intros; apply split_scaled; auto|]. unfold state_scaled. auto. }
    assert (E2 : state_scaled s (open_level (fold_left (split_block I level (d / 2)) (st_parents st) st)) (open_level (fold_left (split_block I' level (d' / 2)) (st_parents st') st'))).
    { destruct E1 as (B & Qt & Dt & F1 & F2 & F3 & F4 & F5 & F6). unfold open_level, state_scaled. cbn [st_blocks st_qtb st_dtb st_parents st_childless st_start st_end st_dfill st_qfill].
      rewrite F2, F3, F4, F5, F6, <- (F2_length _ _ _ B). auto 10. }
    split; [|exact D2]. pose proof E2 as E3. destruct E3 as (_ & _ & _ & _ & _ & F3 & F4 & _). rewrite F3, F4. apply fold_scaled; [intros; apply classify_scaled; auto|exact E2].
  Qed.
  Lemma octree_scaled : state_scaled s (octree I) (octree I').
  Proof.
    assert (L : forall k, state_scaled s (fst (levels I k)) (fst (levels I' k)) /\ (snd (levels I' k) == s * snd (levels I k))%Q).
    { intros k. unfold levels. assert (R := root_scaled).
      assert (E0 : state_scaled s (init_state I) (init_state I')).
      { unfold init_state, state_scaled. cbn [st_blocks st_qtb st_dtb st_parents st_childless st_start st_end st_dfill st_qfill]. unfold o_nq. rewrite (si_nd _ _ _ SI), (si_nc _ _ _ SI), (si_nqc _ _ _ SI).
        split; [constructor; [exact R|constructor]|]. auto 10. }
      assert (D0 : (b_delta (root_block I') == s * b_delta (root_block I))%Q) by apply R.
      clear R. revert E0 D0. generalize (init_state I), (init_state I'), (b_delta (root_block I)), (b_delta (root_block I')). generalize (seq 1 k). clear k.
      induction l as [|x l IH]; intros st st' d d' E D; [split; auto|]. cbn [fold_left]. destruct (level_scaled (st, d) (st', d') x E D) as (A & C).
      destruct (level_step I (st, d) x), (level_step I' (st', d') x). apply IH; auto. }
    unfold octree. rewrite (si_N _ _ _ SI). destruct (L (o_N I)) as ((B & Qt & Dt & F1 & F2 & F3 & F4 & F5 & F6) & _). unfold state_scaled. cbn [st_blocks st_qtb st_dtb st_parents st_childless st_start st_end st_dfill st_qfill].
    rewrite F1, F2. auto 10.
  Qed.
End Scale.
