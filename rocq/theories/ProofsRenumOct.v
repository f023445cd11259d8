(** * The octree and the interaction lists do not depend on the numbering of the nodes (C85). *)
From Coq Require Import QArith Qabs Qminmax Qround Reals ZArith List Lia Arith Bool Lqa Setoid Morphisms Permutation.
From Verif Require Import ModelOctree SpecOctree ModelFmm SpecRenumber SpecFmmRenum ProofsScale ProofsOctLists ProofsFmmCover.
Import ListNotations.
Local Open Scope nat_scope.

Definition pt_eq (p p' : pt) : Prop := (px p' == px p /\ py p' == py p /\ pz p' == pz p)%Q.
Definition inr (n : nat) (l : list nat) : Prop := forall i, In i l -> i < n.
Definition brel (pi : nat -> nat) (n : nat) (b b' : block) : Prop :=
  b_level b' = b_level b /\ b_parent b' = b_parent b /\ b_quads b' = b_quads b /\ b_kids b' = b_kids b /\
  pt_eq (b_min b) (b_min b') /\ (b_delta b' == b_delta b)%Q /\ Permutation (map pi (b_nodes b')) (b_nodes b) /\ inr n (b_nodes b').
Definition orel (pi : nat -> nat) (n m : nat) (x x' : ost) : Prop :=
  Forall2 (brel pi n) (st_blocks x) (st_blocks x') /\ (forall q, st_qtb x' q = st_qtb x q) /\
  st_parents x' = st_parents x /\ st_childless x' = st_childless x /\ st_start x' = st_start x /\ st_end x' = st_end x /\
  st_dfill x' = st_dfill x /\ st_qfill x' = st_qfill x /\ Forall (fun b => inr m (b_quads b)) (st_blocks x).

Lemma le_same x y x' y' : (x' == x -> y' == y -> Qle_bool x' y' = Qle_bool x y)%Q.
Proof. intros X Y. apply eq_true_iff_eq. rewrite !Qle_bool_iff, X, Y. reflexivity. Qed.
Lemma fold_plus_perm (f : nat -> Q) l l' : Permutation l l' -> forall w w', (w == w')%Q -> (fold_left (fun w n => w + f n) l w == fold_left (fun w n => w + f n) l' w')%Q.
Proof.
  assert (X : forall l w w', (w == w')%Q -> (fold_left (fun w n => w + f n) l w == fold_left (fun w n => w + f n) l w')%Q).
  { induction l0 as [|a l0 IH]; intros w w' E; [exact E|]. cbn [fold_left]. apply IH. rewrite E. reflexivity. }
  induction 1; intros w w' E; cbn [fold_left].
  - exact E.
  - apply IHPermutation. rewrite E. reflexivity.
  - apply X. rewrite E. ring.
  - rewrite (IHPermutation1 w w' E). apply IHPermutation2. reflexivity.
Qed.
Lemma nodup_map_in {A B} (f : A -> B) l : (forall x y, In x l -> In y l -> f x = f y -> x = y) -> NoDup l -> NoDup (map f l).
Proof.
  intros F N. induction N as [|a l Na N IH]; cbn [map]; constructor.
  - intros X. apply in_map_iff in X. destruct X as (y & E & Hy). apply Na. rewrite <- (F y a); auto; [right; auto|left; auto].
  - apply IH. intros x y Hx Hy. apply F; right; auto.
Qed.
Lemma filter_map_perm (pi : nat -> nat) (f g : nat -> bool) l l' : Permutation (map pi l') l -> (forall i, In i l' -> f i = g (pi i)) ->
  Permutation (map pi (filter f l')) (filter g l).
Proof.
  intros Hp E. assert (X : map pi (filter f l') = filter g (map pi l')).
  { clear Hp. induction l' as [|a l' IH]; [reflexivity|]. cbn [filter map]. rewrite <- (E a (or_introl eq_refl)). rewrite <- IH by (intros; apply E; right; auto). destruct (f a); reflexivity. }
  rewrite X. clear X E. induction Hp; cbn [filter].
  - constructor.
  - destruct (g x); auto.
  - destruct (g x), (g y); auto. constructor.
  - eapply perm_trans; eauto.
Qed.

Section Renum.
  Variables (pi rho : nat -> nat) (I I' : oin).
  Hypothesis SM : same_mesh pi rho I I'.
  Hypothesis RN : rounds_numbers I.
  Notation n := (o_nd I).
  Notation nq := (o_nq I).
  Notation br := (brel pi n).
  Notation sr := (orel pi n nq).

  Lemma rnd_same x x' : (x' == x -> o_rnd I' x' == o_rnd I x)%Q.
  Proof. intros X. rewrite (sm_rnd _ _ _ _ SM). apply RN. exact X. Qed.
  Lemma add_same x y x' y' : (x' == x -> y' == y -> o_rnd I' (x' + y') == o_rnd I (x + y))%Q.
  Proof. intros X Y. apply rnd_same. rewrite X, Y. reflexivity. Qed.
  Lemma nq_same : o_nq I' = nq.
  Proof. unfold o_nq. rewrite (sm_nc _ _ _ _ SM), (sm_nqc _ _ _ _ SM). reflexivity. Qed.
  Lemma pi_lt i : i < n -> pi i < n. Proof. intros L. apply (sm_bij _ _ _ _ SM i L). Qed.
  Lemma pi_inj i j : i < n -> j < n -> pi i = pi j -> i = j.
  Proof. intros Li Lj E. destruct (sm_bij _ _ _ _ SM i Li) as (_ & _ & A & _). destruct (sm_bij _ _ _ _ SM j Lj) as (_ & _ & B & _). congruence. Qed.

  Lemma pi_perm : Permutation (map pi (seq 0 n)) (seq 0 n).
  Proof.
    apply NoDup_Permutation_bis.
    - apply nodup_map_in; [|apply seq_NoDup]. intros x y Hx Hy. apply in_seq in Hx, Hy. apply pi_inj; lia.
    - rewrite map_length. lia.
    - intros x Hx. apply in_map_iff in Hx. destruct Hx as (y & <- & Hy). apply in_seq in Hy. assert (X := pi_lt y ltac:(lia)). apply in_seq. lia.
  Qed.

  Let mx (p : nat -> pt) := fun (m : Q) (i : nat) => Qmax (Qmax (Qmax m (Qabs (px (p i)))) (Qabs (py (p i)))) (Qabs (pz (p i))).
  Lemma mx_fold_map p l m : fold_left (mx p) (map pi l) m = fold_left (mx (fun i => p (pi i))) l m.
  Proof. revert m. induction l as [|a l IH]; intros m; [reflexivity|]. cbn [map fold_left]. apply IH. Qed.
  Lemma mx_proper p l m m' : (m == m')%Q -> (fold_left (mx p) l m == fold_left (mx p) l m')%Q.
  Proof. revert m m'. induction l as [|a l IH]; intros m m' E; [exact E|]. cbn [fold_left]. apply IH. unfold mx. rewrite E. reflexivity. Qed.
  Lemma mx_perm p l l' : Permutation l l' -> forall m m', (m == m')%Q -> (fold_left (mx p) l m == fold_left (mx p) l' m')%Q.
  Proof.
    induction 1; intros m m' E; cbn [fold_left].
    - exact E.
    - apply IHPermutation. unfold mx. rewrite E. reflexivity.
    - apply mx_proper. unfold mx. rewrite E. set (a1 := Qabs (px (p y))); set (a2 := Qabs (py (p y))); set (a3 := Qabs (pz (p y))). set (b1 := Qabs (px (p x))); set (b2 := Qabs (py (p x))); set (b3 := Qabs (pz (p x))).
      apply Qle_antisym; repeat (apply Q.max_lub); repeat (first [apply Qle_refl | apply Q.le_max_r | eapply Qle_trans; [|apply Q.le_max_l]]).
    - rewrite (IHPermutation1 m m' E). apply IHPermutation2. reflexivity.
  Qed.
  Lemma mx_ext p p' l m : (forall i, In i l -> p i = p' i) -> fold_left (mx p) l m = fold_left (mx p') l m.
  Proof. revert m. induction l as [|a l IH]; intros m E; [reflexivity|]. cbn [fold_left]. unfold mx at 2 4. rewrite (E a (or_introl eq_refl)). apply IH. intros; apply E; right; auto. Qed.
  Lemma max_same : (max_coord I' == max_coord I)%Q.
  Proof.
    unfold max_coord. rewrite (sm_nd _ _ _ _ SM). change (fold_left (mx (o_pos I')) (seq 0 n) 0 == fold_left (mx (o_pos I)) (seq 0 n) 0)%Q.
    rewrite (mx_ext _ (fun i => o_pos I (pi i))) by (intros i Hi; apply in_seq in Hi; apply (sm_pos _ _ _ _ SM); lia).
    rewrite <- mx_fold_map. apply mx_perm; [apply pi_perm|reflexivity].
  Qed.
  Lemma root_same : br (root_block I) (root_block I').
  Proof.
    unfold root_block, brel, pt_eq. cbn [b_level b_parent b_min b_delta b_nodes b_quads b_kids px py pz]. rewrite nq_same, (sm_nd _ _ _ _ SM).
    assert (M := max_same). assert (C : (o_rnd I' (- o_rnd I' (11 # 10) * max_coord I') == o_rnd I (- o_rnd I (11 # 10) * max_coord I))%Q).
    { apply rnd_same. rewrite (sm_rnd _ _ _ _ SM), M. reflexivity. }
    repeat split; auto.
    - apply rnd_same. rewrite (sm_rnd _ _ _ _ SM), M. reflexivity.
    - apply pi_perm.
    - intros i Hi. apply in_seq in Hi. lia.
  Qed.
  Lemma octant_same m m' d d' p : pt_eq m m' -> (d' == d)%Q -> octant (o_rnd I') m' d' p = octant (o_rnd I) m d p.
  Proof.
    intros (X & Y & Z) D. unfold octant.
    rewrite (le_same (pz p) (o_rnd I (pz m + d)%Q) (pz p) (o_rnd I' (pz m' + d')%Q) (Qeq_refl _) (add_same _ _ _ _ Z D)).
    rewrite (le_same (py p) (o_rnd I (py m + d)%Q) (py p) (o_rnd I' (py m' + d')%Q) (Qeq_refl _) (add_same _ _ _ _ Y D)).
    rewrite (le_same (px p) (o_rnd I (px m + d)%Q) (px p) (o_rnd I' (px m' + d')%Q) (Qeq_refl _) (add_same _ _ _ _ X D)).
    reflexivity.
  Qed.
  Lemma child_same level jj d d' b b' c : (d' == d)%Q -> br b b' -> inr nq (b_quads b) -> br (child_block I level jj d b c) (child_block I' level jj d' b' c).
  Proof.
    intros D (_ & _ & Q & _ & M & _ & N & R) Rq. unfold child_block, brel. cbn [b_level b_parent b_min b_delta b_nodes b_quads b_kids]. rewrite Q.
    split; [reflexivity|]. split; [reflexivity|].
    split; [apply filter_ext_in; intros k Hk; rewrite (sm_qpos _ _ _ _ SM) by (apply Rq; auto); rewrite (octant_same (b_min b) (b_min b') d d' _ M D); reflexivity|].
    split; [reflexivity|]. split.
    { destruct M as (X & Y & Z). unfold child_min. destruct c as [|[|[|[|[|[|[|c]]]]]]]; repeat split; cbn [px py pz]; auto using add_same. }
    split; [exact D|]. split.
    - apply filter_map_perm; [exact N|]. intros i Hi. rewrite (sm_pos _ _ _ _ SM) by (apply R; auto). rewrite (octant_same (b_min b) (b_min b') d d' _ M D). reflexivity.
    - intros i Hi. apply filter_In in Hi. apply R. tauto.
  Qed.
  Lemma brel_d : br dblock dblock.
  Proof. unfold brel, pt_eq, dblock. cbn. repeat split; try reflexivity; auto. intros i []. Qed.
  Lemma getb_same l l' k : Forall2 br l l' -> br (getb l k) (getb l' k).
  Proof.
    intros F. revert k. unfold getb. induction F as [|b b' l l' Hb F IH]; intros k.
    - destruct k; apply brel_d.
    - destruct k; cbn [nth]; auto.
  Qed.
  Lemma getb_quads l k : Forall (fun b => inr nq (b_quads b)) l -> inr nq (b_quads (getb l k)).
  Proof. intros F. revert k. unfold getb. induction F as [|b l Hb F IH]; intros [|k]; cbn [nth]; auto; intros i []. Qed.
  Lemma add_child_same jj st st' b b' : sr st st' -> br b b' -> inr nq (b_quads b) -> sr (add_child jj st b) (add_child jj st' b').
  Proof.
    intros (B & Qt & E1 & E2 & E3 & E4 & E5 & E6 & E7) Hb Rq. unfold add_child.
    assert (NE : nonempty b' = nonempty b).
    { unfold nonempty. destruct Hb as (_ & _ & -> & _ & _ & _ & Pn & _). apply Permutation_length in Pn. rewrite map_length in Pn. rewrite Pn. reflexivity. }
    rewrite NE. destruct (nonempty b); [|split; [|split; [|split; [|split; [|split; [|split; [|split; [|split]]]]]]]; auto].
    assert (G := getb_same _ _ jj B). assert (L : length (st_blocks st') = length (st_blocks st)) by (symmetry; eapply F2_length; eauto).
    unfold orel. cbn [st_blocks st_qtb st_parents st_childless st_start st_end st_dfill st_qfill]. rewrite L.
    split; [|split; [|repeat (split; [auto|])]].
    - apply Forall2_app; [|constructor; [exact Hb|constructor]]. unfold add_kid. apply Forall2_app; [apply Forall2_firstn; auto|]. constructor; [|apply Forall2_skipn; auto].
      destruct G as (G1 & G2 & G3 & G4 & G5 & G6 & G7 & G8). unfold brel. cbn [b_level b_parent b_min b_delta b_nodes b_quads b_kids]. rewrite G4. repeat split; auto; apply G5.
    - intros q. destruct Hb as (_ & _ & -> & _). apply push_ext. exact Qt.
    - apply Forall_app. split; [|constructor; auto]. unfold add_kid. apply Forall_app. split.
      + apply Forall_forall. intros x Hx. rewrite Forall_forall in E7. apply E7. rewrite <- (firstn_skipn jj). apply in_or_app. auto.
      + constructor; [cbn [b_quads]; apply getb_quads; auto|]. apply Forall_forall. intros x Hx. rewrite Forall_forall in E7. apply E7. rewrite <- (firstn_skipn (S jj)). apply in_or_app. auto.
  Qed.
  Lemma split_same level d d' st st' jj : (d' == d)%Q -> sr st st' -> sr (split_block I level d st jj) (split_block I' level d' st' jj).
  Proof.
    intros D E. unfold split_block. assert (G := getb_same _ _ jj (proj1 E)).
    assert (Gq : inr nq (b_quads (getb (st_blocks st) jj))) by (apply getb_quads; apply E).
    set (par := getb (st_blocks st) jj) in *. set (par' := getb (st_blocks st') jj) in *. clearbody par par'.
    revert st st' E. induction (seq 0 8) as [|c l IH]; intros st st' E; [exact E|]. cbn [map fold_left]. apply IH. apply add_child_same; auto.
    - apply child_same; auto.
    - intros q Hq. unfold child_block in Hq. cbn [b_quads] in Hq. apply filter_In in Hq. apply Gq. tauto.
  Qed.
  Lemma weight_same b b' : br b b' -> (block_weight I' b' == block_weight I b)%Q.
  Proof.
    intros (_ & _ & _ & _ & _ & _ & N & R). unfold block_weight.
    transitivity (fold_left (fun w m => w + 1 / inject_Z (Z.of_nat (length (o_dbl I m)))) (map pi (b_nodes b')) 0)%Q.
    - assert (X : forall l w, inr n l -> (fold_left (fun w m => w + 1 / inject_Z (Z.of_nat (length (o_dbl I' m)))) l w = fold_left (fun w m => w + 1 / inject_Z (Z.of_nat (length (o_dbl I m)))) (map pi l) w)%Q).
      { induction l as [|a l IH]; intros w Rl; [reflexivity|]. cbn [map fold_left]. rewrite IH by (intros i Hi; apply Rl; right; auto).
        assert (Lp := Permutation_length (sm_dbl _ _ _ _ SM a (Rl a (or_introl eq_refl)))). rewrite map_length in Lp. rewrite Lp. reflexivity. }
      rewrite X by auto. reflexivity.
    - apply (fold_plus_perm (fun m => (1 / inject_Z (Z.of_nat (length (o_dbl I m))))%Q)); [exact N|reflexivity].
  Qed.
  Lemma classify_same level st st' jj : sr st st' -> sr (classify I level st jj) (classify I' level st' jj).
  Proof.
    intros (B & Qt & E1 & E2 & E3 & E4 & E5 & E6 & E7). assert (G := getb_same _ _ jj B). assert (Wt := weight_same _ _ G). destruct G as (_ & _ & G4 & _).
    assert (W1 : qround (block_weight I' (getb (st_blocks st') jj)) = qround (block_weight I (getb (st_blocks st) jj))) by (unfold qround; apply Qfloor_comp; rewrite Wt; reflexivity).
    assert (W2 : Qle_bool (block_weight I' (getb (st_blocks st') jj)) 0 = Qle_bool (block_weight I (getb (st_blocks st) jj)) 0) by (apply le_same; [exact Wt|reflexivity]).
    unfold classify. cbv zeta. rewrite W1, W2, G4, (sm_max _ _ _ _ SM), (sm_N _ _ _ _ SM), E1, E2, E5, E6.
    unfold orel. cbn [st_blocks st_qtb st_parents st_childless st_start st_end st_dfill st_qfill].
    split; [exact B|]. split; [intros q; destruct (Z.leb _ _); [apply pushes_ext|]; auto|]. auto 10.
  Qed.
  Lemma fold_same (f f' : ost -> nat -> ost) l st st' : (forall x x' k, sr x x' -> sr (f x k) (f' x' k)) -> sr st st' -> sr (fold_left f l st) (fold_left f' l st').
  Proof. intros F. revert st st'. induction l as [|k l IH]; intros st st' E; [exact E|]. cbn [fold_left]. apply IH. auto. Qed.
  Lemma level_same sd sd' level : sr (fst sd) (fst sd') -> (snd sd' == snd sd)%Q ->
    sr (fst (level_step I sd level)) (fst (level_step I' sd' level)) /\ (snd (level_step I' sd' level) == snd (level_step I sd level))%Q.
  Proof.
    destruct sd as (st & d), sd' as (st' & d'). cbn [fst snd]. intros E D. unfold level_step. cbv zeta. cbn [fst snd].
    assert (D2 : (d' / 2 == d / 2)%Q) by (rewrite D; reflexivity).
    assert (E1 : sr (fold_left (split_block I level (d / 2)) (st_parents st) st) (fold_left (split_block I' level (d' / 2)) (st_parents st') st')).
    { pose proof E as (_ & _ & A4 & _). rewrite A4. apply fold_same; [intros; apply split_same; auto|exact E]. }
    assert (E2 : sr (open_level (fold_left (split_block I level (d / 2)) (st_parents st) st)) (open_level (fold_left (split_block I' level (d' / 2)) (st_parents st') st'))).
    { destruct E1 as (B & Qt & F1 & F2 & F3 & F4 & F5 & F6 & F7). unfold open_level, orel. cbn [st_blocks st_qtb st_parents st_childless st_start st_end st_dfill st_qfill].
      rewrite F2, F3, F4, F5, F6, <- (F2_length _ _ _ B). auto 10. }
    split; [|exact D2]. pose proof E2 as (_ & _ & _ & _ & F3 & F4 & _). rewrite F3, F4. apply fold_same; [intros; apply classify_same; auto|exact E2].
  Qed.
  Lemma octree_same : sr (octree I) (octree I').
  Proof.
    assert (L : forall k, sr (fst (levels I k)) (fst (levels I' k)) /\ (snd (levels I' k) == snd (levels I k))%Q).
    { intros k. unfold levels. assert (R := root_same).
      assert (E0 : sr (init_state I) (init_state I')).
      { unfold init_state, orel. cbn [st_blocks st_qtb st_parents st_childless st_start st_end st_dfill st_qfill]. rewrite nq_same.
        split; [constructor; [exact R|constructor]|]. repeat (split; [reflexivity|]). constructor; [|constructor]. cbn [root_block b_quads]. intros q Hq. apply in_seq in Hq. lia. }
      assert (D0 : (b_delta (root_block I') == b_delta (root_block I))%Q) by apply R.
      clear R. revert E0 D0. generalize (init_state I), (init_state I'), (b_delta (root_block I)), (b_delta (root_block I')). generalize (seq 1 k). clear k.
      induction l as [|x l IH]; intros st st' d d' E D; [split; auto|]. cbn [fold_left]. destruct (level_same (st, d) (st', d') x E D) as (A & C).
      destruct (level_step I (st, d) x), (level_step I' (st', d') x). apply IH; auto. }
    unfold octree. rewrite (sm_N _ _ _ _ SM). destruct (L (o_N I)) as ((B & Qt & F1 & F2 & F3 & F4 & F5 & F6 & F7) & _). unfold orel. cbn [st_blocks st_qtb st_parents st_childless st_start st_end st_dfill st_qfill].
    rewrite F1, F2. auto 10.
  Qed.

  (** ** lists *)
  Hypothesis WI : wf_in I.
  Hypothesis WI' : wf_in I'.
  Notation st := (octree I).
  Notation st' := (octree I').
  Notation B := (getb (st_blocks st)).
  Notation B' := (getb (st_blocks st')).
  Lemma Bs k : br (B k) (B' k). Proof. apply getb_same. apply octree_same. Qed.
  Lemma len_same : length (st_blocks st') = length (st_blocks st).
  Proof. symmetry. eapply F2_length. apply octree_same. Qed.
  Lemma in_nodes k i : i < n -> (In i (b_nodes (B' k)) <-> In (pi i) (b_nodes (B k))).
  Proof.
    intros Li. destruct (Bs k) as (_ & _ & _ & _ & _ & _ & Pn & R). split; intros X.
    - apply (Permutation_in _ Pn). apply in_map. auto.
    - apply (Permutation_in _ (Permutation_sym Pn)) in X. apply in_map_iff in X. destruct X as (j & E & Hj). apply pi_inj in E; auto. subst. auto.
  Qed.
  Lemma in_dbl i j : i < n -> j < n -> (In j (o_dbl I' i) <-> In (pi j) (o_dbl I (pi i))).
  Proof.
    intros Li Lj. assert (Pn := sm_dbl _ _ _ _ SM i Li). split; intros X.
    - apply (Permutation_in _ Pn). apply in_map. auto.
    - apply (Permutation_in _ (Permutation_sym Pn)) in X. apply in_map_iff in X. destruct X as (k & E & Hk).
      assert (Lk : k < n) by (destruct WI' as (_ & _ & D & _); rewrite <- (sm_nd _ _ _ _ SM); apply (D i); auto; rewrite (sm_nd _ _ _ _ SM); auto).
      apply pi_inj in E; auto. subst. auto.
  Qed.
  Lemma in_cdofs c d : c < o_nc I -> d < n -> (In d (o_cdofs I' c) <-> In (pi d) (o_cdofs I c)).
  Proof.
    intros Lc Ld. rewrite <- (sm_cdofs _ _ _ _ SM c Lc). split; intros X; [apply in_map; auto|].
    apply in_map_iff in X. destruct X as (k & E & Hk).
    assert (Lk : k < n) by (destruct WI' as (_ & _ & _ & D); rewrite <- (sm_nd _ _ _ _ SM); apply (D c); auto; rewrite (sm_nc _ _ _ _ SM); auto).
    apply pi_inj in E; auto. subst. auto.
  Qed.
  Lemma pi_onto j : j < n -> exists i, i < n /\ pi i = j.
  Proof. intros L. exists (rho j). destruct (sm_bij _ _ _ _ SM j L) as (_ & A & _ & C). auto. Qed.

  Lemma touches_same k j : touches (o_rnd I') (B' k) (B' j) = touches (o_rnd I) (B k) (B j).
  Proof.
    destruct (Bs k) as (_ & _ & _ & _ & (X1 & Y1 & Z1) & D1 & _). destruct (Bs j) as (_ & _ & _ & _ & (X2 & Y2 & Z2) & D2 & _).
    assert (FM : forall a b c d a' b' c' d', (a' == a -> b' == b -> c' == c -> d' == d -> faces_meet (o_rnd I') a' b' c' d' = faces_meet (o_rnd I) a b c d)%Q).
    { intros. unfold faces_meet. f_equal; apply le_same; try (apply rnd_same; reflexivity); apply Qabs_wd; apply rnd_same; rewrite ?H, ?H0, ?H1, ?H2; reflexivity. }
    assert (OV : forall a b c d a' b' c' d', (a' == a -> b' == b -> c' == c -> d' == d -> overlap (o_rnd I') a' b' c' d' = overlap (o_rnd I) a b c d)%Q).
    { intros. unfold overlap. assert (T : (o_rnd I' toll == o_rnd I toll)%Q) by (apply rnd_same; reflexivity). f_equal; apply le_same; auto; apply rnd_same; rewrite T, ?H, ?H0, ?H1, ?H2; reflexivity. }
    assert (PM : forall k, (px (pmax (o_rnd I') (B' k)) == px (pmax (o_rnd I) (B k)) /\ py (pmax (o_rnd I') (B' k)) == py (pmax (o_rnd I) (B k)) /\ pz (pmax (o_rnd I') (B' k)) == pz (pmax (o_rnd I) (B k)))%Q).
    { intros l. destruct (Bs l) as (_ & _ & _ & _ & (X & Y & Z) & D & _). unfold pmax. cbn [px py pz]. split; [|split]; apply rnd_same; rewrite D, ?X, ?Y, ?Z; reflexivity. }
    destruct (PM k) as (A1 & A2 & A3). destruct (PM j) as (C1 & C2 & C3). unfold touches. cbv zeta.
    rewrite !(FM _ _ _ _ _ _ _ _ X1 A1 X2 C1), !(FM _ _ _ _ _ _ _ _ Y1 A2 Y2 C2), !(FM _ _ _ _ _ _ _ _ Z1 A3 Z2 C3).
    rewrite !(OV _ _ _ _ _ _ _ _ X1 A1 X2 C1), !(OV _ _ _ _ _ _ _ _ Y1 A2 Y2 C2), !(OV _ _ _ _ _ _ _ _ Z1 A3 Z2 C3). reflexivity.
  Qed.
  Lemma kids_same k : b_kids (B' k) = b_kids (B k). Proof. apply Bs. Qed.
  Lemma level_same_b k : b_level (B' k) = b_level (B k). Proof. apply Bs. Qed.
  Lemma refine1_same j : refine1 (st_blocks st') j = refine1 (st_blocks st) j.
  Proof. unfold refine1. rewrite kids_same. reflexivity. Qed.
  Lemma flat_map_ext' {A C} (f g : A -> list C) l : (forall x, f x = g x) -> flat_map f l = flat_map g l.
  Proof. intros E. induction l; cbn; rewrite ?E, ?IHl; auto. Qed.
  Lemma near0_same k l : near0 (o_rnd I') (st_blocks st') k l = near0 (o_rnd I) (st_blocks st) k l.
  Proof.
    unfold near0. f_equal. f_equal. rewrite (flat_map_ext' (refine1 (st_blocks st')) (refine1 (st_blocks st)) _ refine1_same).
    apply filter_ext. intros j. apply touches_same.
  Qed.
  Lemma near_next_same k l : near_next (o_rnd I') (st_blocks st') k l = near_next (o_rnd I) (st_blocks st) k l.
  Proof.
    unfold near_next. f_equal. apply flat_map_ext'. intros j. rewrite kids_same. destruct (b_kids (B j)) as [|a l0]; auto. apply filter_ext. intros c. apply touches_same.
  Qed.
  Lemma near_subs_same k m l : near_subs (o_rnd I') (st_blocks st') k m l = near_subs (o_rnd I) (st_blocks st) k m l.
  Proof. revert l. induction m as [|m IH]; intros l; [reflexivity|]. cbn [near_subs]. cbv zeta. rewrite near_next_same, IH. reflexivity. Qed.
  Lemma start_same l : startL st' l = startL st l.
  Proof. unfold startL. destruct octree_same as (_ & _ & _ & _ & -> & _). reflexivity. Qed.
  Lemma end_same l : endL st' l = endL st l.
  Proof. unfold endL. destruct octree_same as (_ & _ & _ & _ & _ & -> & _). reflexivity. Qed.
  Lemma level_ids_same l : level_ids st' l = level_ids st l.
  Proof. unfold level_ids. rewrite start_same, end_same. reflexivity. Qed.
  Lemma near_of_same tab tab' k : (forall j, tab' j = tab j) -> near_of I' st' tab' k = near_of I st tab k.
  Proof.
    intros E. unfold near_of. cbv zeta. destruct (Bs k) as (-> & -> & _ & -> & _). rewrite level_ids_same, E, near0_same, (sm_N _ _ _ _ SM).
    destruct (Nat.eqb _ 1); auto. f_equal. destruct (b_kids (B k)); auto. apply near_subs_same.
  Qed.
  Lemma near_tab_same k : near_tab I' st' k = near_tab I st k.
  Proof.
    unfold near_tab, num_blocks. rewrite len_same. generalize (seq 1 (length (st_blocks st) - 1)) as l.
    enough (X : forall l tab tab', (forall j, tab' j = tab j) -> forall k,
      fold_left (fun tab k => let v := near_of I' st' tab k in fun j => if Nat.eqb j k then v else tab j) l tab' k =
      fold_left (fun tab k => let v := near_of I st tab k in fun j => if Nat.eqb j k then v else tab j) l tab k) by (intros l; apply X; auto).
    induction l as [|a l IH]; intros tab tab' E j; [apply E|]. cbn [fold_left]. apply IH. intros x. cbv zeta. rewrite (near_of_same tab tab' a E), E. reflexivity.
  Qed.
  Lemma near_same k s : near I' st' k s = near I st k s.
  Proof. unfold near. rewrite near_tab_same. reflexivity. Qed.
  Lemma near_levels_same k : near_levels I' st' k = near_levels I st k.
  Proof. unfold near_levels. rewrite near_tab_same. reflexivity. Qed.
  Lemma dof_elems_same d c : d < n -> (In c (dof_elems I' d) <-> In c (dof_elems I (pi d))).
  Proof.
    intros Ld. rewrite !dof_elems_in, (sm_nc _ _ _ _ SM). split; intros (Lc & X); split; auto.
    - rewrite <- (sm_old _ _ _ _ SM d c Ld Lc), <- (in_cdofs c d Lc Ld). exact X.
    - rewrite (sm_old _ _ _ _ SM d c Ld Lc), (in_cdofs c d Lc Ld). exact X.
  Qed.
  Lemma quads_of_cell_same c : quads_of_cell I' c = quads_of_cell I c.
  Proof. unfold quads_of_cell. rewrite (sm_nqc _ _ _ _ SM). reflexivity. Qed.
  Lemma around_same k s x : In x (around I' st' k s) <-> In x (around I st k s).
  Proof.
    unfold around. cbv zeta. rewrite level_same_b. assert (Nd : forall i, In i (b_nodes (B' k)) -> i < n) by apply Bs.
    assert (Qt : forall q, st_qtb st' q = st_qtb st q) by apply octree_same.
    assert (Mq : forall c, map (fun q => nth (b_level (B k) + s) (st_qtb st' q) 0) (quads_of_cell I' c) = map (fun q => nth (b_level (B k) + s) (st_qtb st q) 0) (quads_of_cell I c)).
    { intros c. rewrite quads_of_cell_same. apply map_ext. intros q. rewrite Qt. reflexivity. }
    rewrite !in_flat_map. split.
    - intros (i & Hi & X). apply in_flat_map in X. destruct X as (d & Hd & X). apply in_flat_map in X. destruct X as (c & Hc & X). rewrite Mq in X.
      assert (Li := Nd i Hi). assert (Ld : d < n) by (destruct WI' as (_ & _ & D & _); rewrite <- (sm_nd _ _ _ _ SM); apply (D i); auto; rewrite (sm_nd _ _ _ _ SM); auto).
      exists (pi i). split; [apply in_nodes; auto|]. apply in_flat_map. exists (pi d). split; [apply in_dbl; auto|]. apply in_flat_map. exists c. split; [apply dof_elems_same; auto|exact X].
    - intros (i0 & Hi & X). apply in_flat_map in X. destruct X as (d0 & Hd & X). apply in_flat_map in X. destruct X as (c & Hc & X). rewrite <- Mq in X.
      destruct (Bs k) as (_ & _ & _ & _ & _ & _ & Pn & _). pose proof Hi as Hi'. apply (Permutation_in _ (Permutation_sym Pn)) in Hi'. apply in_map_iff in Hi'. destruct Hi' as (i & <- & Hi').
      assert (Li := Nd i Hi'). assert (Ld0 : d0 < n) by (destruct WI as (_ & _ & D & _); apply (D (pi i)); auto using pi_lt). destruct (pi_onto d0 Ld0) as (d & Ld & <-).
      exists i. split; auto. apply in_flat_map. exists d. split; [apply in_dbl; auto|]. apply in_flat_map. exists c. split; [apply dof_elems_same; auto|exact X].
  Qed.
  Lemma int_same k s x : In x (int_list I' st' k s) <-> In x (int_list I st k s).
  Proof.
    unfold int_list. rewrite level_same_b, level_ids_same. destruct (Nat.eqb _ 1); [reflexivity|]. rewrite !nub_in, !in_app_iff, near_same, around_same. reflexivity.
  Qed.
  Lemma nonint_same k s x : In x (nonint_list I' st' k s) <-> In x (nonint_list I st k s).
  Proof.
    unfold nonint_list. cbv zeta. destruct (Bs k) as (-> & -> & _). destruct (Nat.eqb _ 1); [reflexivity|]. rewrite !nub_in, !filter_In.
    assert (E : negb (existsb (Nat.eqb x) (int_list I' st' k s)) = negb (existsb (Nat.eqb x) (int_list I st k s))).
    { f_equal. apply eq_true_iff_eq. rewrite !existsb_eqb. apply int_same. }
    rewrite E. enough (F : In x (flat_map (refine1 (st_blocks st')) (match s with 0 => int_list I' st' (b_parent (B k)) 0 | S s' => int_list I' st' k s' end)) <->
      In x (flat_map (refine1 (st_blocks st)) (match s with 0 => int_list I st (b_parent (B k)) 0 | S s' => int_list I st k s' end))) by (rewrite F; reflexivity).
    rewrite (flat_map_ext' _ _ _ refine1_same), !in_flat_map. destruct s; split; intros (y & Hy & Hx); exists y; split; auto; apply int_same; auto.
  Qed.
  Lemma quads_of_same l l' x : (forall b, In b l' <-> In b l) -> (In x (quads_of_blocks st' l') <-> In x (quads_of_blocks st l)).
  Proof.
    intros E. unfold quads_of_blocks. rewrite !nub_in, !in_flat_map. assert (Q : forall b, b_quads (B' b) = b_quads (B b)) by (intros b; apply Bs).
    split; intros (b & Hb & Hx); exists b; [rewrite <- E, <- Q|rewrite E, Q]; auto.
  Qed.
  Lemma near_quads_same b x : In x (near_quads I' st' b) <-> In x (near_quads I st b).
  Proof. unfold near_quads. apply quads_of_same. intros c. unfold last_int. rewrite near_levels_same. apply int_same. Qed.
  Lemma filter_same {A} (f : A -> bool) l l' x : (In x l' <-> In x l) -> (In x (filter f l') <-> In x (filter f l)).
  Proof. intros E. rewrite !filter_In, E. reflexivity. Qed.
  Lemma bigger_same level b s x : In x (bigger I' st' level b s) <-> In x (bigger I st level b s).
  Proof. unfold bigger. rewrite start_same. apply filter_same, nonint_same. Qed.
  Lemma same_size_same level b s x : In x (same_size I' st' level b s) <-> In x (same_size I st level b s).
  Proof. unfold same_size. rewrite start_same, end_same. apply filter_same, nonint_same. Qed.
  Lemma smaller_same level b s x : In x (smaller I' st' level b s) <-> In x (smaller I st level b s).
  Proof. unfold smaller. rewrite end_same. apply filter_same, nonint_same. Qed.
  Lemma flat_map_iff {A C} (f g : A -> list C) l l' x : (forall a, In a l' <-> In a l) -> (forall a, In x (f a) <-> In x (g a)) -> (In x (flat_map f l') <-> In x (flat_map g l)).
  Proof. intros E F. rewrite !in_flat_map. split; intros (a & Ha & Hx); exists a; [rewrite <- E, <- F|rewrite E, F]; auto. Qed.
  Lemma big_quads_same level b x : In x (big_quads I' st' level b) <-> In x (big_quads I st level b).
  Proof. unfold big_quads. rewrite near_levels_same. apply quads_of_same. intros c. apply flat_map_iff; [reflexivity|]. intros s. apply bigger_same. Qed.
  Lemma mem_nodes i b : i < n -> mem i (b_nodes (B' b)) = mem (pi i) (b_nodes (B b)).
  Proof. intros Li. apply mem_eq. apply in_nodes. auto. Qed.
  Lemma mem_quads q b : mem q (b_quads (B' b)) = mem q (b_quads (B b)).
  Proof. destruct (Bs b) as (_ & _ & -> & _). reflexivity. Qed.
  Lemma ways_same i q w : i < n -> (In w (ways I' st' i q) <-> In w (ways I st (pi i) q)).
  Proof.
    intros Li. unfold ways. rewrite !in_app_iff. assert (S8 := octree_same). destruct S8 as (_ & _ & _ & Ec & _ & _ & Ed & _). rewrite (sm_N _ _ _ _ SM).
    enough (X : (In w (near_ways I' st' i q) <-> In w (near_ways I st (pi i) q)) /\
      (In w (flat_map (fun level => big_ways I' st' level i q ++ far_ways I' st' level i q) (seq 1 (o_N I))) <->
       In w (flat_map (fun level => big_ways I st level (pi i) q ++ far_ways I st level (pi i) q) (seq 1 (o_N I))))) by tauto.
    split.
    - unfold near_ways. rewrite Ec. apply flat_map_iff; [reflexivity|]. intros b. rewrite (mem_nodes i b Li), (mem_eq q _ q _ (near_quads_same b q)). reflexivity.
    - apply flat_map_iff; [reflexivity|]. intros level. rewrite !in_app_iff.
      enough (X : (In w (big_ways I' st' level i q) <-> In w (big_ways I st level (pi i) q)) /\ (In w (far_ways I' st' level i q) <-> In w (far_ways I st level (pi i) q))) by tauto. split.
      + unfold big_ways. rewrite Ed. apply flat_map_iff; [reflexivity|]. intros b. rewrite (mem_nodes i b Li), (mem_eq q _ q _ (big_quads_same level b q)). reflexivity.
      + unfold far_ways. rewrite Ed. apply flat_map_iff; [reflexivity|]. intros b. rewrite (mem_nodes i b Li). destruct (mem _ _); [|reflexivity]. rewrite near_levels_same.
        apply flat_map_iff; [reflexivity|]. intros s. rewrite !in_app_iff.
        enough (X : (In w (flat_map (fun c => if mem q (b_quads (B' c)) then [M2L b c] else []) (same_size I' st' level b s)) <-> In w (flat_map (fun c => if mem q (b_quads (B c)) then [M2L b c] else []) (same_size I st level b s))) /\
          (In w (flat_map (fun c => if mem q (b_quads (B' c)) then [MEval b c] else []) (smaller I' st' level b s)) <-> In w (flat_map (fun c => if mem q (b_quads (B c)) then [MEval b c] else []) (smaller I st level b s)))) by tauto.
        split; (apply flat_map_iff; [intros; first [apply same_size_same | apply smaller_same]|]); intros c; rewrite mem_quads; reflexivity.
  Qed.
End Renum.
