(** * Two instances of the expansion operations related step by step give the same product. *)
From Coq Require Import Reals List Lia Arith Bool Permutation.
From Verif Require Import ModelOctree SpecOctree ModelFmm SpecFmm.
Import ListNotations.
Local Open Scope nat_scope.

Lemma fold_rel {A B C : Type} (P : B -> C -> Prop) (f : B -> A -> B) (g : C -> A -> C) (l : list A) :
  (forall a x y, In a l -> P x y -> P (f x a) (g y a)) -> forall x y, P x y -> P (fold_left f l x) (fold_left g l y).
Proof.
  induction l as [|a l IH]; intros H0 x y Pxy; [exact Pxy|]. cbn [fold_left]. apply IH; [intros; apply H0; auto; right; auto|]. apply H0; auto. left; auto.
Qed.

Section Rel.
  Variables (E E' : eops) (I : oin) (st : ost) (K : kern) (phi : nat -> R) (owned : nat -> bool) (s : sched).
  Variable RM : nat -> ME E -> ME E' -> Prop.
  Variable RL : nat -> LE E -> LE E' -> Prop.
  Hypothesis Hs : good_sched I st s.
  Hypothesis h_mz : forall b, RM b (mz E b) (mz E' b).
  Hypothesis h_lz : forall b, RL b (lz E b) (lz E' b).
  Hypothesis h_src : forall b m m' w q, In b (st_childless st) -> In q (b_quads (getb (st_blocks st) b)) -> RM b m m' -> RM b (msrc E m w q) (msrc E' m' w q).
  Hypothesis h_addc : forall b m m' n n' a, RM b m m' -> RM b n n' -> RM b (maddc E m n a) (maddc E' m' n' a).
  Hypothesis h_same : forall b m m' n n', RM b m m' -> RM b n n' -> RM b (madd E m n) (madd E' m' n').
  Hypothesis h_up : forall l k m m' n n', 1 <= l <= o_N I -> In k (level_ids st l) -> RM (b_parent (getb (st_blocks st) k)) m m' -> RM k n n' ->
    RM (b_parent (getb (st_blocks st) k)) (madd E m n) (madd E' m' n').
  Hypothesis h_lsame : forall b m m' n n', RL b m m' -> RL b n n' -> RL b (laddl E m n) (laddl E' m' n').
  Hypothesis h_down : forall l k m m' n n', 1 <= l <= o_N I -> In k (nth l (st_dfill st) []) -> RL k m m' -> RL (b_parent (getb (st_blocks st) k)) n n' ->
    RL k (laddl E m n) (laddl E' m' n').
  Hypothesis h_conv : forall l b c t m m' n n', 1 <= l <= o_N I -> In b (nth l (st_dfill st) []) -> t < near_levels I st b ->
    In c (nonint_list I st b t) -> RL b m m' -> RM c n n' -> RL b (laddm E m n) (laddm E' m' n').
  Hypothesis h_evM : forall l b c t n n' i, 1 <= l <= o_N I -> In b (nth l (st_dfill st) []) -> t < near_levels I st b ->
    In c (nonint_list I st b t) -> In i (b_nodes (getb (st_blocks st) b)) -> RM c n n' -> evM E n i = evM E' n' i.
  Hypothesis h_evL : forall b n n' i, In b (st_childless st) -> In i (b_nodes (getb (st_blocks st) b)) -> owned i = true -> RL b n n' -> evL E n i = evL E' n' i.

  Definition RMs (M : nat -> ME E) (M' : nat -> ME E') : Prop := forall b, RM b (M b) (M' b).
  Definition RLs (L : nat -> LE E) (L' : nat -> LE E') : Prop := forall b, RL b (L b) (L' b).
  Lemma rel_elem b c j : In b (st_childless st) -> RM b (elem_exp E I st K b c j) (elem_exp E' I st K b c j).
  Proof.
    intros Hb. unfold elem_exp. apply fold_rel; [|apply h_mz]. intros q x y Hq Hxy. apply h_src; auto. unfold cell_quads in Hq. apply filter_In in Hq. tauto.
  Qed.
  Lemma rel_leaf b m m' : In b (st_childless st) -> RM b m m' -> RM b (leaf_exp E I st K phi b m) (leaf_exp E' I st K phi b m').
  Proof.
    intros Hb Hm. unfold leaf_exp. apply fold_rel; auto. intros c x y _ Hxy. apply fold_rel; auto. intros jd u v _ Huv. apply h_addc; auto. apply rel_elem; auto.
  Qed.
  Lemma upd_rel {A B} (P : nat -> A -> B -> Prop) f g k u v : (forall b, P b (f b) (g b)) -> P k u v -> forall b, P b (upd f k u b) (upd g k v b).
  Proof. intros F Q b. unfold upd. destruct (Nat.eqb_spec b k) as [->|]; auto. Qed.
  Lemma rel_leaves : RMs (leaves E I st K phi (s_leaves s)) (leaves E' I st K phi (s_leaves s)).
  Proof.
    destruct Hs as (_ & _ & Hl & _). unfold leaves. apply fold_rel; [|exact h_mz]. intros b x y Hb Hxy. intros k. apply (upd_rel RM); auto. apply rel_leaf; auto. eapply Permutation_in; eauto.
  Qed.
  Lemma rel_ascend M M' : RMs M M' -> RMs (ascend E I st (s_up s) M) (ascend E' I st (s_up s) M').
  Proof.
    destruct Hs as (_ & _ & _ & Hu & _). intros HM. unfold ascend. apply fold_rel; auto. intros l x y Hl Hxy. apply in_rev, in_seq in Hl. apply fold_rel; auto.
    intros k u v Hk Huv. assert (Hk' := Permutation_in _ (Hu l ltac:(lia)) Hk). unfold ascend1. cbv zeta. intros b. apply (upd_rel RM); auto. apply h_same; auto. apply (h_up l); auto. lia.
  Qed.
  Definition RO (u : (nat -> LE E) * (nat -> R)) (v : (nat -> LE E') * (nat -> R)) : Prop := RLs (fst u) (fst v) /\ forall i, snd u i = snd v i.
  Lemma rel_descend_local M M' L L' l b : 1 <= l <= o_N I -> In b (nth l (st_dfill st) []) -> RMs M M' -> RLs L L' ->
    RL b (descend_local E I st M L b) (descend_local E' I st M' L' b).
  Proof.
    intros Hl Hb HM HL. unfold descend_local. cbv zeta. apply fold_rel; [|apply (h_down l); auto]. intros t x y Ht Hxy. apply in_seq in Ht. apply fold_rel; auto.
    intros c u v Hc Huv. unfold same_size in Hc. apply filter_In in Hc. apply (h_conv l b c t); auto; lia || tauto.
  Qed.
  Lemma rel_descend_eval M M' l b i : 1 <= l <= o_N I -> In b (nth l (st_dfill st) []) -> In i (b_nodes (getb (st_blocks st) b)) -> RMs M M' ->
    descend_eval E I st M b i = descend_eval E' I st M' b i.
  Proof.
    intros Hl Hb Hi HM. unfold descend_eval. cbv zeta. apply (fold_rel eq); auto. intros t x y Ht ->. apply in_seq in Ht. apply (fold_rel eq); auto.
    intros c u v Hc ->. unfold smaller in Hc. apply filter_In in Hc. f_equal. apply (h_evM l b c t); auto; lia || tauto.
  Qed.
  Lemma rel_descend M M' out : RMs M M' -> RO (descend E I st owned M (s_down s) out) (descend E' I st owned M' (s_down s) out).
  Proof.
    destruct Hs as (_ & _ & _ & _ & Hd & _). intros HM. unfold descend. apply (fold_rel RO); [|split; auto; exact h_lz]. intros l x y Hl Hxy. apply in_seq in Hl. apply (fold_rel RO); auto.
    intros b [L o] [L' o'] Hb (HL & Ho). assert (Hb' := Permutation_in _ (Hd l ltac:(lia)) Hb). cbn [fst snd] in *. unfold descend1. cbv zeta. split; cbn [fst snd].
    - intros k. apply (upd_rel RL); auto. apply h_lsame; auto. destruct (existsb _ _); auto. apply (rel_descend_local M M' L L' l); auto; lia.
    - assert (G : forall nodes u v, (forall i, In i nodes -> In i (b_nodes (getb (st_blocks st) b))) -> (forall i, u i = v i) -> forall i,
        fold_left (fun o i => upd o i (o i + (if existsb owned (b_nodes (getb (st_blocks st) b)) then descend_eval E I st M b i else 0))%R) nodes u i =
        fold_left (fun o i => upd o i (o i + (if existsb owned (b_nodes (getb (st_blocks st) b)) then descend_eval E' I st M' b i else 0))%R) nodes v i).
      { induction nodes as [|n nodes IH]; intros u v Hn Huv i; [apply Huv|]. cbn [fold_left]. apply IH; [intros; apply Hn; right; auto|]. intros k. unfold upd. destruct (Nat.eqb k n); auto.
        rewrite Huv. f_equal. destruct (existsb _ _); auto. apply (rel_descend_eval M M' l); auto; [lia|]. apply Hn. left; auto. }
      intros i. apply G; auto.
  Qed.
  Theorem product_rel i : fmm_product E I st K phi owned s i = fmm_product E' I st K phi owned s i.
  Proof.
    unfold fmm_product. cbv zeta. set (out0 := fun i => _). assert (D := rel_descend _ _ out0 (rel_ascend _ _ rel_leaves)).
    destruct (descend E I st owned _ _ out0) as [L o]. destruct (descend E' I st owned _ _ out0) as [L' o']. destruct D as (HL & Ho). cbn [fst snd] in *.
    destruct Hs as (_ & _ & _ & _ & _ & He). unfold evaluate.
    assert (G : forall bl u v, (forall b, In b bl -> In b (st_childless st)) -> (forall i, u i = v i) -> forall i,
      fold_left (fun o b => fold_left (fun o i => if owned i then upd o i (o i + evL E (L b) i)%R else o) (b_nodes (getb (st_blocks st) b)) o) bl u i =
      fold_left (fun o b => fold_left (fun o i => if owned i then upd o i (o i + evL E' (L' b) i)%R else o) (b_nodes (getb (st_blocks st) b)) o) bl v i).
    { induction bl as [|b bl IH]; intros u v Hb Huv k; [apply Huv|]. cbn [fold_left]. apply IH; [intros; apply Hb; right; auto|]. clear IH k.
      assert (G2 : forall nodes u v, (forall i, In i nodes -> In i (b_nodes (getb (st_blocks st) b))) -> (forall i, u i = v i) -> forall i,
        fold_left (fun o i => if owned i then upd o i (o i + evL E (L b) i)%R else o) nodes u i = fold_left (fun o i => if owned i then upd o i (o i + evL E' (L' b) i)%R else o) nodes v i).
      { induction nodes as [|n nodes IH]; intros u0 v0 Hn Huv0 k; [apply Huv0|]. cbn [fold_left]. apply IH; [intros; apply Hn; right; auto|]. intros j. destruct (owned n) eqn:On; auto. unfold upd. destruct (Nat.eqb j n) eqn:J; auto.
        rewrite Huv0. f_equal. apply (h_evL b); auto; [apply Hb; left; auto|]. apply Hn. left; auto. }
      intros k. apply G2; auto. }
    apply G; auto. intros b Hb. eapply Permutation_in; eauto.
  Qed.
End Rel.
