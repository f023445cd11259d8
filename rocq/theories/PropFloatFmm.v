(** Property theorems C93: NaN in the fast product. *)
From Coq Require Import ZArith QArith Qreals Reals List Lia Lra Bool Arith Permutation.
From Flocq Require Import Core.
From Verif Require Import ModelLegendre ModelExp SpecExp ModelOctree SpecOctree ProofsOctTree ProofsOctFacts ModelFmm SpecFmm ModelFmmExp ProofsFmmCover ProofsFmmRel ProofsOctLevels ProofsOctLists ProofsFmm.
From Verif Require Import ModelFloat SpecFloat LibFlx ModelFloatExp SpecFloatExp ProofsFloatExp PropFloatExp PropFloatExp2 ModelFloatExp2 PropFloatExp4 PropFloatExp5 ModelFloatFmm SpecFloatFmm.
Import ListNotations.
Local Open Scope R_scope.

(** ** Two sets of operations related step by step, in any arithmetic *)
Section Rel.
  Context {AR : arith}.
  Variables (E E' : eops) (I : oin) (st : ost) (K : kern) (phi : nat -> R) (owned : nat -> bool) (s : sched).
  Variable RM : nat -> ME E -> ME E' -> Prop.
  Variable RL : nat -> LE E -> LE E' -> Prop.
  Variable row : nat -> Prop.   (* rows of interest *)
  Hypothesis Hs : good_sched I st s.
  Hypothesis h_mz : forall b, RM b (mz E b) (mz E' b).
  Hypothesis h_lz : forall b, RL b (lz E b) (lz E' b).
  Hypothesis h_leaf : forall b m m', In b (st_childless st) -> RM b m m' -> RM b (leaf_exp E I st K phi b m) (leaf_exp E' I st K phi b m').
  Hypothesis h_up : forall l k m m' n n', (1 <= l <= o_N I)%nat -> In k (level_ids st l) -> let b := b_parent (getb (st_blocks st) k) in RM b m m' -> RM k n n' -> RM b (madd E m (madd E (mz E b) n)) (madd E' m' (madd E' (mz E' b) n')).
  Hypothesis h_own : forall b m m' n n', RL b m m' -> RL b n n' -> RL b (laddl E m n) (laddl E' m' n').
  Hypothesis h_down : forall b m m', RL (b_parent (getb (st_blocks st) b)) m m' -> RL b (laddl E (lz E b) m) (laddl E' (lz E' b) m').
  Hypothesis h_conv : forall b c m m' n n', converted I st b c -> RL b m m' -> RM c n n' -> RL b (laddm E m n) (laddm E' m' n').
  Hypothesis h_evM : forall c n n' i, row i -> multipole_of I st i c -> RM c n n' -> evM E n i = evM E' n' i.
  Hypothesis h_evL : forall b n n' i, row i -> local_of st i b -> owned i = true -> RL b n n' -> evL E n i = evL E' n' i.
  Notation RMs := (fun M M' => forall b, RM b (M b) (M' b)).
  Notation RLs := (fun L L' => forall b, RL b (L b) (L' b)).

  Lemma rel_finals : RMs (final_multipoles E I st K phi s) (final_multipoles E' I st K phi s).
  Proof.
    destruct Hs as (_ & _ & Hl & Hu & _). unfold final_multipoles, ascend. apply (fold_rel RMs).
    - intros l x y Hl' Hxy. apply (fold_rel RMs); auto. intros k u v Hk Huv. unfold ascend1. cbv zeta. intros b. apply (upd_rel RM); auto. apply in_rev in Hl'. apply in_seq in Hl'. apply (h_up l); auto; [lia|]. eapply Permutation_in; [apply Hu; lia|exact Hk].
    - unfold leaves. apply (fold_rel RMs); [|exact h_mz]. intros b x y Hb Hxy. intros k. apply (upd_rel RM); auto. apply h_leaf; auto. eapply Permutation_in; eauto.
  Qed.
  Lemma rel_descend M M' out : RMs M M' -> let u := descend E I st owned M (s_down s) out in let v := descend E' I st owned M' (s_down s) out in
    RLs (fst u) (fst v) /\ forall i, row i -> snd u i = snd v i.
  Proof.
    destruct Hs as (_ & _ & _ & _ & Hd & _). intros HM. cbv zeta. unfold descend.
    apply (fold_rel (fun (u : (nat -> LE E) * (nat -> R)) (v : (nat -> LE E') * (nat -> R)) => RLs (fst u) (fst v) /\ forall i, row i -> snd u i = snd v i)); [|split; auto; exact h_lz].
    intros l x y Hl Hxy. apply in_seq in Hl. apply (fold_rel (fun (u : (nat -> LE E) * (nat -> R)) (v : (nat -> LE E') * (nat -> R)) => RLs (fst u) (fst v) /\ forall i, row i -> snd u i = snd v i)); auto.
    intros b [L o] [L' o'] Hb (HL & Ho). assert (Hb' := Permutation_in _ (Hd l ltac:(lia)) Hb). cbn [fst snd] in *. unfold descend1. cbv zeta. split; cbn [fst snd].
    - intros k. apply (upd_rel RL); auto. apply h_own; auto. destruct (existsb _ _); auto. unfold descend_local. cbv zeta. apply (fold_rel (RL b)); [|apply h_down; auto].
      intros t x0 y0 Ht Hx. apply in_seq in Ht. apply (fold_rel (RL b)); auto. intros c u v Hc Huv. apply (h_conv b c); auto. exists l, t. repeat split; auto; lia || tauto.
    - assert (Ev : forall i, row i -> In i (b_nodes (getb (st_blocks st) b)) -> descend_eval E I st M b i = descend_eval E' I st M' b i).
      { intros i Ri Hi. unfold descend_eval. cbv zeta. apply (fold_rel eq); auto. intros t x0 y0 Ht ->. apply in_seq in Ht. apply (fold_rel eq); auto. intros c u v Hc ->.
        f_equal. apply (h_evM c); auto. exists l, b, t. repeat split; auto; lia || tauto. }
      assert (G : forall nodes u v, (forall i, In i nodes -> In i (b_nodes (getb (st_blocks st) b))) -> (forall i, row i -> u i = v i) -> forall i, row i ->
        fold_left (fun o i => upd o i (aadd (o i) (if existsb owned (b_nodes (getb (st_blocks st) b)) then descend_eval E I st M b i else 0))) nodes u i =
        fold_left (fun o i => upd o i (aadd (o i) (if existsb owned (b_nodes (getb (st_blocks st) b)) then descend_eval E' I st M' b i else 0))) nodes v i).
      { induction nodes as [|n nodes IH]; intros u v Hn Huv i Ri; [apply Huv; auto|]. cbn [fold_left]. apply IH; auto; [intros; apply Hn; right; auto|]. intros k Rk. unfold upd. destruct (Nat.eqb_spec k n) as [->|]; auto.
        rewrite Huv by auto. f_equal. destruct (existsb _ _); auto. apply Ev; auto. apply Hn. left; auto. }
      intros i. apply G; auto.
  Qed.
  Lemma rel_locals : RLs (final_locals E I st K phi owned s) (final_locals E' I st K phi owned s).
  Proof. unfold final_locals. apply rel_descend. apply rel_finals. Qed.
  Lemma rel_product i : row i -> fmm_product E I st K phi owned s i = fmm_product E' I st K phi owned s i.
  Proof.
    intros Ri. unfold fmm_product. cbv zeta. set (out0 := fun i => _). assert (D := rel_descend _ _ out0 rel_finals). unfold final_multipoles in D. cbv zeta in D.
    destruct (descend E I st owned _ _ out0) as [L o]. destruct (descend E' I st owned _ _ out0) as [L' o']. destruct D as (HL & Ho). cbn [fst snd] in *.
    destruct Hs as (_ & _ & _ & _ & _ & He). unfold evaluate.
    assert (G : forall bl u v, (forall b, In b bl -> In b (st_childless st)) -> (forall i, row i -> u i = v i) -> forall i, row i ->
      fold_left (fun o b => fold_left (fun o i => if owned i then upd o i (aadd (o i) (evL E (L b) i)) else o) (b_nodes (getb (st_blocks st) b)) o) bl u i =
      fold_left (fun o b => fold_left (fun o i => if owned i then upd o i (aadd (o i) (evL E' (L' b) i)) else o) (b_nodes (getb (st_blocks st) b)) o) bl v i).
    { induction bl as [|b bl IH]; intros u v Hb Huv k Rk; [apply Huv; auto|]. cbn [fold_left]. apply IH; auto; [intros; apply Hb; right; auto|]. clear IH k Rk.
      assert (G2 : forall nodes u v, (forall i, In i nodes -> In i (b_nodes (getb (st_blocks st) b))) -> (forall i, row i -> u i = v i) -> forall i, row i ->
        fold_left (fun o i => if owned i then upd o i (aadd (o i) (evL E (L b) i)) else o) nodes u i = fold_left (fun o i => if owned i then upd o i (aadd (o i) (evL E' (L' b) i)) else o) nodes v i).
      { induction nodes as [|n nodes IH]; intros u0 v0 Hn Huv0 k Rk; [apply Huv0; auto|]. cbn [fold_left]. apply IH; auto; [intros; apply Hn; right; auto|]. intros j Rj. destruct (owned n) eqn:On; auto. unfold upd. destruct (Nat.eqb_spec j n) as [->|]; auto.
        rewrite Huv0 by auto. f_equal. apply (h_evL b); auto. split; [apply Hb; left; auto|]. apply Hn. left; auto. }
      intros k Rk. apply G2; auto. }
    apply G; auto. intros b Hb. eapply Permutation_in; eauto.
  Qed.
End Rel.

(** ** Theorems *)
(** a source of nonzero strength at quadrature point q can be added to expansions about c: it is not at c and, for dipoles, the computed polar angle is not 0 or pi *)
Definition call_of (I : oin) (ly : layer) (w : R) (q : nat) : m_call :=
  match ly with Single => MCharge w (rpt (o_qpos I q)) | Double n => MDipole w (rpt (o_qpos I q)) (n q) end.
Definition sound_source (M : fmath) (I : oin) (ly : layer) (c : ModelExp.pt) (q : nat) : Prop := harmless M c (call_of I ly 1 q).
Lemma sound_any M I ly c q w : sound_source M I ly c q -> harmless M c (call_of I ly w q).
Proof. unfold sound_source, call_of. destruct ly; cbn [harmless]; intros [F|F]; try lra; auto. Qed.
Lemma unsound_any M I ly c q w : w <> 0 -> ~ sound_source M I ly c q -> ~ harmless M c (call_of I ly w q).
Proof. unfold sound_source, call_of. intros W. destruct ly; cbn [harmless]; intros F; intros [G|G]; try contradiction; apply F; auto. Qed.

Lemma center_double M st b : double_math M -> double_point (fblock_center M st b).
Proof. intros HM. unfold double_point, fblock_center, fcoordinate. cbn [ModelExp.cx ModelExp.cy ModelExp.cz]. rewrite !(e_add M HM). repeat split; apply flx_double. Qed.
Lemma apply_source M pi I ly e w q : fm_apply M pi e (call_of I ly w q) = match ly with Single => fm_charge M e w (rpt (o_qpos I q)) | Double n => fm_dipole M e w (rpt (o_qpos I q)) (n q) end.
Proof. destruct ly; reflexivity. Qed.
(** one call, about the centre of the expansion *)
Lemma one_call M pi e k : double_math M -> signs M -> (1 <= e_p e <= 20)%nat -> double_point (e_center e) -> of_order (e_p e) k ->
  (harmless M (e_center e) k /\ exists e', fm_apply M pi e k = Some e' /\ e_p e' = e_p e /\ e_center e' = e_center e) \/ (~ harmless M (e_center e) k /\ fm_apply M pi e k = None).
Proof.
  intros HM HS Hp D Ho. destruct k as [q x|q x v|other sol|other]; cbn [fm_apply harmless of_order] in *.
  - unfold fm_charge. destruct (Req_EM_T q 0) as [Q|Q]; [left; split; [auto|eauto]|].
    destruct (pt_eq_dec x (e_center e)) as [X|X].
    + right. split; [tauto|]. unfold fadd_charge. destruct (Req_EM_T q 0); [contradiction|]. rewrite X. rewrite fspher_none; auto. intros Z. apply (rel_nonzero M _ _ HM D) in Z. auto.
    + left. split; [auto|]. destruct (C91_charge_is_finite M (e_p e) (e_center e) (e_coeffs e) q x HM ltac:(lia) D X) as (C' & E). rewrite E. unfold fnonzero. cbn [ModelLegendre.bind]. eauto.
  - unfold fm_dipole. destruct (Req_EM_T q 0) as [Q|Q]; [left; split; [auto|eauto]|]. assert (N := normder_some_iff M e q x v HM ltac:(lia) D Q).
    destruct (fadd_normder M (e_p e) (e_center e) (e_coeffs e) q x v) as [C'|].
    + left. split; [right; apply N; eauto|]. unfold fnonzero. cbn [ModelLegendre.bind]. eauto.
    + right. split; [|reflexivity]. intros [F|F]; [contradiction|]. apply N in F. destruct F as (? & ?). discriminate.
  - left. split; [exact Logic.I|]. destruct (C91_scaled_is_finite M e other sol Ho) as (e' & E & A & B). exists e'. rewrite E. auto.
  - left. split; [exact Logic.I|]. destruct (C91_translation_is_finite M pi HM HS e other) as (e' & E & A & B); [congruence|lia|]. exists e'. auto.
Qed.

(** ** Expansions that are spoilt stay spoilt, whatever the operations *)
Lemma fold_reach {S A} (G : S -> Prop) (f : S -> A -> S) x : (forall s, G (f s x)) -> (forall s y, G s -> G (f s y)) -> forall l s, In x l -> G (fold_left f l s).
Proof.
  intros H1 H2. assert (K : forall l s, G s -> G (fold_left f l s)) by (induction l as [|y l IH]; intros s Gs; cbn [fold_left]; auto).
  induction l as [|y l IH]; intros s Hx; [destruct Hx|]. cbn [fold_left]. destruct Hx as [->|Hx]; auto.
Qed.
Lemma fold_keep {S A} (G : S -> Prop) (f : S -> A -> S) : (forall s y, G s -> G (f s y)) -> forall l s, G s -> G (fold_left f l s).
Proof. intros H2. induction l as [|y l IH]; intros s Gs; cbn [fold_left]; auto. Qed.

Section Bad.
  Context {AR : arith}.
  Variables (E : eops) (I : oin) (K : kern) (phi : nat -> R) (owned : nat -> bool) (s : sched).
  Hypothesis W : wf_in I.
  Notation st := (octree I).
  Notation bs := (st_blocks (octree I)).
  Notation B := (getb (st_blocks (octree I))).
  Notation N := (o_N I).
  Variable BM : ME E -> Prop.
  Variable BL : LE E -> Prop.
  Hypothesis Hs : good_sched I st s.
  Hypothesis h_madd1 : forall m n, BM m -> BM (madd E m n).
  Hypothesis h_madd2 : forall m n, BM n -> BM (madd E m n).
  Hypothesis h_maddc : forall m n a, BM m -> BM (maddc E m n a).
  Hypothesis h_laddl1 : forall m n, BL m -> BL (laddl E m n).
  Hypothesis h_laddl2 : forall m n, BL n -> BL (laddl E m n).
  Hypothesis h_laddm1 : forall m n, BL m -> BL (laddm E m n).
  Hypothesis h_laddm2 : forall m n, BM n -> BL (laddm E m n).
  Variables (b0 q0 : nat).
  Hypothesis Hb0 : In b0 (st_childless st).
  Hypothesis Hq0 : In q0 (b_quads (B b0)).
  Hypothesis Hbad : forall m, BM (leaf_exp E I st K phi b0 m).

  Lemma holds_quad c : (c < length bs)%nat -> In q0 (b_quads (B c)) -> (b_level (B c) <= b_level (B b0))%nat /\ c = pathb I b0 (b_level (B c)).
  Proof.
    intros Hc Hq. assert (Hbl := F_cl I W b0 Hb0). assert (HT := F_tree I W). destruct (Nat.le_gt_cases (b_level (B c)) (b_level (B b0))) as [L|L].
    - split; auto. destruct (path_facts I W b0 (b_level (B c)) Hbl L) as (A1 & A2 & _ & _ & A5). apply (ProofsOctLevels.quads_same_level I bs HT _ _ q0); auto.
    - exfalso. destruct (anc_nth I W c (b_level (B b0)) Hc L) as (A1 & A2 & A3 & A4 & _).
      assert (X : b0 = nth (b_level (B b0)) (ancestors bs c) 0%nat) by (apply (ProofsOctLevels.quads_same_level I bs HT _ _ q0); auto).
      apply A3. rewrite <- X. apply (F_leaf I W); auto.
  Qed.
  Lemma bad_leaf : BM (leaves E I st K phi (s_leaves s) b0).
  Proof.
    destruct Hs as (_ & _ & Hl & _). unfold leaves. apply (fold_reach (fun M : nat -> ME E => BM (M b0)) _ b0).
    - intros M. unfold upd. rewrite Nat.eqb_refl. apply Hbad.
    - intros M y HM. unfold upd. destruct (Nat.eqb_spec b0 y) as [<-|]; auto.
    - eapply Permutation_in; [symmetry; exact Hl|]. auto.
  Qed.
  Lemma bad_ascend1 M k c : BM (M c) -> BM (ascend1 E st M k c).
  Proof. intros HM. unfold ascend1. cbv zeta. unfold upd. destruct (Nat.eqb_spec c (b_parent (B k))) as [<-|]; auto. Qed.
  Lemma bad_parent M k : BM (M k) -> BM (ascend1 E st M k (b_parent (B k))).
  Proof. intros HM. unfold ascend1. cbv zeta. unfold upd. rewrite Nat.eqb_refl. auto. Qed.
  Lemma fold_reach_if {A} (f : (nat -> ME E) -> A -> (nat -> ME E)) (P Q : (nat -> ME E) -> Prop) x : (forall M y, P M -> P (f M y)) -> (forall M y, Q M -> Q (f M y)) -> (forall M, P M -> Q (f M x)) ->
    forall l M, In x l -> P M -> Q (fold_left f l M).
  Proof.
    intros HP HQ HX. assert (Kq : forall l M, Q M -> Q (fold_left f l M)) by (induction l as [|y l IH]; intros M GM; cbn [fold_left]; auto).
    induction l as [|y l IH]; intros M Hx PM; [destruct Hx|]. cbn [fold_left]. destruct Hx as [->|Hx]; auto.
  Qed.
  Lemma bad_up : forall n M, (n <= N)%nat -> (forall l, (n <= l)%nat -> BM (M (pathb I b0 l))) ->
    forall l, BM (fold_left (fun M level => fold_left (ascend1 E st) (s_up s level) M) (rev (seq 1 n)) M (pathb I b0 l)).
  Proof.
    assert (Hbl := F_cl I W b0 Hb0). destruct Hs as (_ & _ & _ & Hu & _).
    induction n as [|n IH]; intros M Hn HM l; [cbn; apply HM; lia|]. rewrite seq_S, rev_app_distr. cbn [rev app fold_left Nat.add].
    apply IH; [lia|]. intros l' Hl'. assert (Keep : forall l', BM (M (pathb I b0 l')) -> BM (fold_left (ascend1 E st) (s_up s (S n)) M (pathb I b0 l'))).
    { intros l2 H2. apply (fold_keep (fun M => BM (M (pathb I b0 l2)))); auto. intros; apply bad_ascend1; auto. }
    destruct (Nat.le_gt_cases (S n) l') as [L|L]; [auto|]. replace l' with n by lia.
    destruct (Nat.le_gt_cases (b_level (B b0)) n) as [L2|L2].
    - rewrite (path_leaf I W) by auto. rewrite <- (path_leaf I W b0 (S n)) by (auto; lia). auto.
    - rewrite <- (path_parent I W b0 n Hbl L2).
      apply (fold_reach_if (ascend1 E st) (fun M => BM (M (pathb I b0 (S n)))) (fun M => BM (M (b_parent (B (pathb I b0 (S n)))))) (pathb I b0 (S n))); auto.
      + intros; apply bad_ascend1; auto.
      + intros; apply bad_ascend1; auto.
      + intros; apply bad_parent; auto.
      + eapply Permutation_in; [symmetry; apply Hu; lia|]. apply (F_level_ids I W); [lia|]. destruct (path_facts I W b0 (S n) Hbl ltac:(lia)) as (A1 & A2 & _). auto.
  Qed.
  Lemma bad_multipoles c : (c < length bs)%nat -> In q0 (b_quads (B c)) -> BM (final_multipoles E I st K phi s c).
  Proof.
    intros Hc Hq. destruct (holds_quad c Hc Hq) as (_ & ->). unfold final_multipoles, ascend. apply bad_up; [lia|]. intros l Hl. rewrite (path_leaf I W).
    - apply bad_leaf.
    - apply (F_cl I W); auto.
    - assert (X := F_level_le I W b0 (F_cl I W b0 Hb0)). lia.
  Qed.

  (** the node and its leaf *)
  Variables (i a : nat).
  Hypothesis Ha : In a (st_childless st).
  Hypothesis Hi : In i (b_nodes (B a)).
  Hypothesis Ho : owned i = true.
  Lemma bad_descend1 M x y c : BL (fst x c) -> BL (fst (descend1 E I st owned M x y) c).
  Proof. destruct x as [L o]. unfold descend1. cbv zeta. cbn [fst]. intros HL. unfold upd. destruct (Nat.eqb_spec c y) as [<-|]; auto. Qed.
  Lemma owned_on b : In i (b_nodes (B b)) -> existsb owned (b_nodes (B b)) = true.
  Proof. intros H. apply existsb_exists. eauto. Qed.
  Lemma local_keeps M L b : BL (L (b_parent (B b))) -> BL (descend_local E I st M L b).
  Proof. intros HL. unfold descend_local. cbv zeta. apply fold_keep; auto. intros l t Hl. apply fold_keep; auto. Qed.
  Lemma local_reach M L b c t : (b < length bs)%nat -> (t < near_levels I st b)%nat -> In c (same_size I st (b_level (B b)) b t) -> BM (M c) -> BL (descend_local E I st M L b).
  Proof.
    intros Hb Ht Hc HM. unfold descend_local. cbv zeta. rewrite (ProofsFmm.level_of_id_ok I W b Hb).
    apply (fold_reach BL _ t); [|intros; apply fold_keep; auto|apply in_seq; lia]. intros l. apply (fold_reach BL _ c); auto.
  Qed.
  Lemma bad_step M x b : In i (b_nodes (B b)) -> (forall L, BL (descend_local E I st M L b)) -> BL (fst (descend1 E I st owned M x b) b).
  Proof. intros Hb HL. destruct x as [L o]. unfold descend1. cbv zeta. cbn [fst]. unfold upd. rewrite Nat.eqb_refl, (owned_on b Hb). auto. Qed.
  Lemma bad_step_parent M x b : In i (b_nodes (B b)) -> BL (fst x (b_parent (B b))) -> BL (fst (descend1 E I st owned M x b) b).
  Proof. intros Hb HL. destruct x as [L o]. unfold descend1. cbv zeta. cbn [fst] in *. unfold upd. rewrite Nat.eqb_refl, (owned_on b Hb). apply h_laddl2. apply local_keeps. auto. Qed.
  Lemma path_dfill l : (1 <= l <= b_level (B a))%nat -> In (pathb I a l) (nth l (st_dfill st) []) /\ In i (b_nodes (B (pathb I a l))).
  Proof.
    intros Hl. assert (Hal := F_cl I W a Ha). assert (X := F_level_le I W a Hal). destruct (path_facts I W a l Hal ltac:(lia)) as (A1 & A2 & _ & A4 & _). split; [|auto].
    apply (dfill_in I W); [lia|]. repeat split; auto. intros Z. apply A4 in Hi. rewrite Z in Hi. destruct Hi.
  Qed.
  Lemma bad_down M out b c l t : (1 <= l <= b_level (B a))%nat -> b = pathb I a l -> (t < near_levels I st b)%nat -> In c (same_size I st l b t) -> BM (M c) ->
    BL (fst (descend E I st owned M (s_down s) (out : nat -> R)) a).
  Proof.
    assert (Hal := F_cl I W a Ha). assert (HaN := F_level_le I W a Hal). destruct Hs as (_ & _ & _ & _ & Hd & _). intros Hl Eb Ht Hc HM. unfold descend.
    set (F := fun x level => fold_left (descend1 E I st owned M) (s_down s level) x).
    assert (KF : forall l' x c', BL (fst x c') -> BL (fst (F x l') c')). { intros l' x c' H'. unfold F. apply (fold_keep (fun x => BL (fst x c'))); auto. intros; apply bad_descend1; auto. }
    assert (Hb : (b < length bs)%nat /\ b_level (B b) = l). { subst b. destruct (path_facts I W a l Hal ltac:(lia)) as (A1 & A2 & _). auto. }
    assert (G : forall n x, (l + n <= b_level (B a))%nat -> BL (fst (fold_left F (seq 1 (l + n)) x) (pathb I a (l + n)))).
    { induction n as [|n IH]; intros x Hn.
      - rewrite Nat.add_0_r, <- Eb. destruct l as [|l']; [lia|]. rewrite seq_S, fold_left_app. cbn [fold_left Nat.add]. unfold F at 1.
        destruct (path_dfill (S l') Hl) as (D1 & D2). rewrite <- Eb in *.
        apply (fold_reach (fun x => BL (fst x b)) _ b).
        + intros y. apply bad_step; auto. intros L. apply (local_reach M L b c t); try tauto. destruct Hb as (_ & ->). auto.
        + intros; apply bad_descend1; auto.
        + eapply Permutation_in; [symmetry; apply Hd; lia|auto].
      - rewrite Nat.add_succ_r, seq_S, fold_left_app. cbn [fold_left Nat.add]. specialize (IH x ltac:(lia)).
        set (y := fold_left F (seq 1 (l + n)) x) in *. unfold F.
        destruct (path_dfill (S (l + n)) ltac:(lia)) as (D1 & D2). assert (Pp := path_parent I W a (l + n) Hal ltac:(lia)).
        set (b' := pathb I a (S (l + n))) in *.
        assert (Z : forall ll y, In b' ll -> BL (fst y (b_parent (B b'))) -> BL (fst (fold_left (descend1 E I st owned M) ll y) b')).
        { induction ll as [|k ll IHl]; intros y0 Hx Hy; [destruct Hx|]. cbn [fold_left]. destruct Hx as [->|Hx].
          - apply (fold_keep (fun x => BL (fst x b'))); [intros; apply bad_descend1; auto|]. apply bad_step_parent; auto.
          - apply IHl; auto. apply bad_descend1. auto. }
        apply Z; [|rewrite Pp; auto]. eapply Permutation_in; [symmetry; apply Hd; lia|auto]. }
    replace (o_N I) with (b_level (B a) + (o_N I - b_level (B a)))%nat by lia. rewrite seq_app, fold_left_app.
    apply (fold_keep (fun x => BL (fst x a))); [intros; apply KF; auto|].
    specialize (G (b_level (B a) - l)%nat (lz E, out) ltac:(lia)). replace (l + (b_level (B a) - l))%nat with (b_level (B a)) in G by lia.
    rewrite (path_leaf I W) in G by auto. exact G.
  Qed.
  Lemma far_way w : In w (ways I st i q0) -> match w with
    | M2L b c => exists l t, (1 <= l <= b_level (B a))%nat /\ b = pathb I a l /\ (t < near_levels I st b)%nat /\ In c (same_size I st l b t) /\ (c < length bs)%nat /\ In q0 (b_quads (B c))
    | MEval b c => (c < length bs)%nat /\ In q0 (b_quads (B c)) /\ multipole_of I st i c
    | _ => True end.
  Proof.
    intros Hw. assert (Hal := F_cl I W a Ha). unfold ways in Hw. apply in_app_iff in Hw. destruct Hw as [Hw|Hw].
    - unfold near_ways in Hw. apply in_flat_map in Hw. destruct Hw as (b & _ & Hw). destruct (_ && _); [|destruct Hw]. destruct Hw as [<-|[]]. exact Logic.I.
    - apply in_flat_map in Hw. destruct Hw as (l & Hl & Hw). apply in_seq in Hl. apply in_app_iff in Hw. destruct Hw as [Hw|Hw].
      + unfold big_ways in Hw. apply in_flat_map in Hw. destruct Hw as (b & _ & Hw). destruct (_ && _); [|destruct Hw]. destruct Hw as [<-|[]]. exact Logic.I.
      + unfold far_ways in Hw. apply in_flat_map in Hw. destruct Hw as (b & Hb & Hw). destruct (mem i _) eqn:Mi; [|destruct Hw]. apply mem_in in Mi.
        assert (Hb' := Hb). apply (dfill_in I W) in Hb'; [|lia]. destruct Hb' as (Hbl & Lb & _).
        apply (holds_node I W a b i Ha Hi Hbl) in Mi as Mj. destruct Mj as (Lle & Eb). rewrite Lb in Lle, Eb.
        apply in_flat_map in Hw. destruct Hw as (t & Ht & Hw). apply in_seq in Ht.
        assert (Bd : forall c, In c (nonint_list I st b t) -> (c < length bs)%nat).
        { intros c Hc. assert (b0p := path_pos I W a l Hal ltac:(lia)). rewrite <- Eb in b0p.
          destruct (Nat.eq_dec (b_level (B b)) 1) as [L1|L1]; [rewrite nonint_1 in Hc by auto; destruct Hc|]. apply (nonint_front I W b t c) in Hc; [apply Hc|lia|auto|lia]. }
        apply in_app_iff in Hw. destruct Hw as [Hw|Hw]; apply in_flat_map in Hw; destruct Hw as (c & Hc & Hw);
          (destruct (mem q0 _) eqn:Mq; [|destruct Hw]); apply mem_in in Mq; destruct Hw as [<-|[]].
        * exists l, t. repeat split; auto; try lia. apply Bd. unfold same_size in Hc. apply filter_In in Hc. tauto.
        * assert (Hc0 := Hc). unfold smaller in Hc. apply filter_In in Hc. split; [apply Bd; tauto|]. split; auto. exists l, b, t. rewrite (ProofsFmm.level_of_id_ok I W b Hbl), Lb. repeat split; auto; try lia.
  Qed.
End Bad.

(** an expansion that is finite, of order p, about the computed centre of block b *)
Definition whole (M : fmath) (st : ost) (p b : nat) (m : option expansion) : Prop := exists e, m = Some e /\ e_p e = p /\ e_center e = fblock_center M st b.
Section Spoilt.
  Variable M : fmath.
  Variable pow_i : Z -> R.
  Hypotheses (HM : double_math M) (HS : signs M).
  Variables (I : oin) (p : nat) (ly : layer).
  Hypothesis W : wf_in I.
  Hypothesis Hp : (1 <= p <= 10)%nat.
  Notation st := (octree I).
  Notation ops := (float_eops M pow_i I st p ly).
  Notation ctr := (fblock_center M st).
  Notation AR := (@f_arith (fm_ops M)).

  Lemma strength_nonzero (K : kern) q j : shp K q j <> 0 -> jxw K q <> 0 -> @adiv AR (@adiv AR (@amul AR (shp K q j) (jxw K q)) 4) (@api AR) <> 0.
  Proof.
    destruct HM as (E & _). rewrite E. cbn [adiv amul api f_arith unlimited_double]. intros H1 H2 Z. apply (proj1 (flx_zero_iff _)) in Z.
    assert (P : flx PI <> 0) by (intros Y; apply (proj1 (flx_zero_iff _)) in Y; assert (Q := PI_RGT_0); lra).
    apply Rmult_integral in Z. destruct Z as [Z|Z]; [|apply Rinv_neq_0_compat in P; auto]. apply (proj1 (flx_zero_iff _)) in Z.
    apply Rmult_integral in Z. destruct Z as [Z|Z]; [|lra]. apply (proj1 (flx_zero_iff _)) in Z. apply Rmult_integral in Z. tauto.
  Qed.

  Lemma spoilt_elem junk (K : kern) b q j : In q (b_quads (getb (st_blocks st) b)) -> shp K q j <> 0 -> jxw K q <> 0 -> ~ sound_source M I ly (ctr b) q ->
    @elem_exp AR (ops junk) I st K b (cell_of I q) j = None.
  Proof.
    intros Hq H1 H2 N. unfold elem_exp.
    set (P := fun m : option expansion => m = None \/ whole M st p b m).
    assert (St : forall m w x, P m -> P (msrc (ops junk) m w x)).
    { intros m w x [->|(e & -> & Ep & Ec)]; [left; reflexivity|]. cbn [msrc float_eops ModelLegendre.bind]. rewrite <- (apply_source M pow_i).
      destruct (one_call M pow_i e (call_of I ly w x) HM HS) as [(_ & e' & E & P1 & P2)|(_ & E)]; [lia|rewrite Ec; apply center_double; auto|destruct ly; exact Logic.I| |].
      - right. rewrite E. exists e'. rewrite P1, P2. auto.
      - left. exact E. }
    assert (Bd : forall m w, w <> 0 -> P m -> msrc (ops junk) m w q = None).
    { intros m w Hw [->|(e & -> & Ep & Ec)]; [reflexivity|]. cbn [msrc float_eops ModelLegendre.bind]. rewrite <- (apply_source M pow_i).
      destruct (one_call M pow_i e (call_of I ly w q) HM HS) as [(F & _)|(_ & E)]; [lia|rewrite Ec; apply center_double; auto|destruct ly; exact Logic.I| |exact E].
      exfalso. revert F. rewrite Ec. apply unsound_any; auto. }
    assert (G : forall l m, P m -> In q l -> fold_left (fun m x => msrc (ops junk) m (@adiv AR (@adiv AR (@amul AR (shp K x j) (jxw K x)) 4) (@api AR)) x) l m = None).
    { assert (Z : forall l, fold_left (fun m x => msrc (ops junk) m (@adiv AR (@adiv AR (@amul AR (shp K x j) (jxw K x)) 4) (@api AR)) x) l (None : ME (ops junk)) = None).
      { intros l. apply (fold_keep (fun m : ME (ops junk) => m = None)); auto. intros m y ->. reflexivity. }
      induction l as [|y l IH]; intros m Pm Hl; [destruct Hl|]. cbn [fold_left]. destruct Hl as [->|Hl]; [|apply IH; auto].
      rewrite Bd; auto. apply strength_nonzero; auto. }
    apply G.
    - right. eexists. split; [reflexivity|]. split; reflexivity.
    - unfold cell_quads. apply filter_In. split; auto. apply Nat.eqb_refl.
  Qed.

  (** If one quadrature point of a childless block cannot be added to its expansion (a shape function with nonzero value there has a nonzero coefficient in the
      density), the multipole expansions of that block and of every block above it are not finite; so is the local expansion of every node of the process that
      accounts for the point by a conversion; and every node that accounts for it by an evaluation reads such a multipole expansion. *)
  Theorem C93_spoilt_expansions : forall s K phi owned junk b0 q0 jd, good_sched I st s ->
    In b0 (st_childless st) -> In q0 (b_quads (getb (st_blocks st) b0)) -> ~ sound_source M I ly (ctr b0) q0 ->
    In jd (dof_list I (cell_of I q0)) -> shp K q0 (fst jd) <> 0 -> jxw K q0 <> 0 -> phi (snd jd) <> 0 ->
    (forall c, (c < length (st_blocks st))%nat -> In q0 (b_quads (getb (st_blocks st) c)) -> @final_multipoles AR (ops junk) I st K phi s c = None) /\
    (forall i a b c, owned i = true -> local_of st i a -> In (M2L b c) (ways I st i q0) -> @final_locals AR (ops junk) I st K phi owned s a = None) /\
    (forall i a b c, local_of st i a -> In (MEval b c) (ways I st i q0) -> multipole_of I st i c /\ @final_multipoles AR (ops junk) I st K phi s c = None).
  Proof.
    intros s K phi owned junk b0 q0 jd Gs Hb Hq N Hj H1 H2 H3.
    assert (L : forall m, @leaf_exp AR (ops junk) I st K phi b0 m = None).
    { intros m. unfold leaf_exp. apply (fold_reach (fun m : ME (ops junk) => m = None) _ (cell_of I q0)).
      - intros x. apply (fold_reach (fun m : ME (ops junk) => m = None) _ jd); auto.
        + intros y. rewrite (spoilt_elem junk K b0 q0 (fst jd)) by auto. cbn [maddc float_eops]. unfold fadd_scaled_nan. destruct y as [e|]; cbn [ModelLegendre.bind]; auto.
          destruct (Req_EM_T (phi (snd jd)) 0); [contradiction|auto].
        + intros y z ->. reflexivity.
      - intros x y ->. apply (fold_keep (fun m : ME (ops junk) => m = None)); auto. intros z w ->. reflexivity.
      - apply nub_in. apply in_map. auto. }
    assert (X1 : forall m n : option expansion, m = None -> lift2 (fm_translate M pow_i) m n = None) by (intros m n ->; reflexivity).
    assert (X2 : forall m n : option expansion, n = None -> lift2 (fm_translate M pow_i) m n = None) by (intros m n ->; destruct m; reflexivity).
    assert (X3 : forall (m n : option expansion) a, m = None -> fadd_scaled_nan M m n a = None) by (intros m n a ->; reflexivity).
    assert (X4 : forall m n : option expansion, m = None -> lift2 (fl_translate M pow_i) m n = None) by (intros m n ->; reflexivity).
    assert (X5 : forall m n : option expansion, n = None -> lift2 (fl_translate M pow_i) m n = None) by (intros m n ->; destruct m; reflexivity).
    assert (X6 : forall m n : option expansion, m = None -> lift2 (fl_convert M pow_i) m n = None) by (intros m n ->; reflexivity).
    assert (X7 : forall m n : option expansion, n = None -> lift2 (fl_convert M pow_i) m n = None) by (intros m n ->; destruct m; reflexivity).
    assert (Bm : forall c, (c < length (st_blocks st))%nat -> In q0 (b_quads (getb (st_blocks st) c)) -> @final_multipoles AR (ops junk) I st K phi s c = None).
    { exact (@bad_multipoles AR (ops junk) I K phi s W (fun m => m = None) Gs X1 X2 b0 q0 Hb Hq L). }
    split; [exact Bm|]. split.
    - intros i a b c Ho (Ha & Hi) Hw. apply (far_way I W q0 i a Ha Hi) in Hw. destruct Hw as (l & t & Hl & Eb & Ht & Hc & Hcl & Hqc).
      unfold final_locals. exact (@bad_down AR (ops junk) I owned s W (fun m => m = None) (fun m => m = None) Gs X4 X5 X6 X7 b0 i a Ha Hi Ho _ _ b c l t Hl Eb Ht Hc (Bm c Hcl Hqc)).
    - intros i a b c (Ha & Hi) Hw. apply (far_way I W q0 i a Ha Hi) in Hw. destruct Hw as (Hcl & Hqc & Hm). auto.
  Qed.
  (** ** The converse *)
  Variables (K : kern) (phi : nat -> R) (owned : nat -> bool) (s : sched).
  Hypothesis Gs : good_sched I st s.
  Notation bs := (st_blocks (octree I)).
  Notation B := (getb (st_blocks (octree I))).
  (** quadrature point q spoils the expansion of its block *)
  Definition spoils (q : nat) : Prop := exists b jd, In b (st_childless st) /\ In q (b_quads (B b)) /\ ~ sound_source M I ly (ctr b) q /\
    In jd (dof_list I (cell_of I q)) /\ shp K q (fst jd) <> 0 /\ jxw K q <> 0 /\ phi (snd jd) <> 0.
  Definition clean (c : nat) : Prop := forall q, In q (b_quads (B c)) -> ~ spoils q.
  Definition clean_local (b : nat) : Prop := forall n c, converted I st (anc bs b n) c -> clean c /\ ctr c <> ctr (anc bs b n).
  Notation wh := (whole M st p).
  Definition RM (b : nat) (m m' : option expansion) : Prop := m = m' /\ (clean b -> wh b m).
  Definition RL (b : nat) (m m' : option expansion) : Prop := m = m' /\ (clean_local b -> wh b m).
  Lemma zero_strength (q j : nat) : shp K q j = 0 \/ jxw K q = 0 -> @adiv AR (@adiv AR (@amul AR (shp K q j) (jxw K q)) 4) (@api AR) = 0.
  Proof.
    destruct HM as (E & _). rewrite E. cbn [adiv amul api f_arith unlimited_double]. intros Z. replace (shp K q j * jxw K q) with 0 by (destruct Z as [-> | ->]; ring).
    rewrite flx_0. unfold Rdiv. rewrite !Rmult_0_l, flx_0, !Rmult_0_l, flx_0. reflexivity.
  Qed.
  Lemma wh_mz b : wh b (Some (fresh p (ctr b))). Proof. eexists. split; [reflexivity|]. split; reflexivity. Qed.
  Lemma wh_translate b k m n : wh b m -> wh k n -> wh b (lift2 (fm_translate M pow_i) m n).
  Proof.
    intros (e & -> & Ep & Ec) (f & -> & Fp & Fc). unfold lift2. cbn [ModelLegendre.bind].
    destruct (C91_translation_is_finite M pow_i HM HS e f) as (e' & E & P1 & P2); [congruence|lia|]. rewrite E. exists e'. rewrite P1, P2. auto.
  Qed.
  Lemma wh_ltranslate b k m n : wh b m -> wh k n -> wh b (lift2 (fl_translate M pow_i) m n).
  Proof.
    intros (e & -> & Ep & Ec) (f & -> & Fp & Fc). unfold lift2. cbn [ModelLegendre.bind].
    destruct (C91_local_translation_is_finite M pow_i HM HS e f) as (e' & E & P1 & P2); [congruence|lia|]. rewrite E. exists e'. rewrite P1, P2. auto.
  Qed.
  Lemma wh_convert b c m n : ctr c <> ctr b -> wh b m -> wh c n -> wh b (lift2 (fl_convert M pow_i) m n).
  Proof.
    intros Nc (e & -> & Ep & Ec) (f & -> & Fp & Fc). unfold lift2. cbn [ModelLegendre.bind].
    destruct (C91_conversion_is_finite M pow_i HM HS e f) as (e' & E & P1 & P2); [congruence|lia|rewrite Ec; apply center_double; auto|rewrite Ec, Fc; auto|]. rewrite E. exists e'. rewrite P1, P2. auto.
  Qed.
  Lemma step_call b m w x : wh b m -> (exists e, msrc (ops 0) m w x = Some e /\ wh b (Some e)) \/ (~ harmless M (ctr b) (call_of I ly w x) /\ msrc (ops 0) m w x = None).
  Proof.
    intros (e & -> & Ep & Ec). cbn [msrc float_eops ModelLegendre.bind]. rewrite <- (apply_source M pow_i).
    destruct (one_call M pow_i e (call_of I ly w x) HM HS) as [(_ & e' & E & P1 & P2)|(N & E)]; [lia|rewrite Ec; apply center_double; auto|destruct ly; exact Logic.I| |].
    - left. exists e'. split; [exact E|]. exists e'. rewrite P1, P2. auto.
    - right. rewrite <- Ec. auto.
  Qed.
  Lemma elem_either b c j : @elem_exp AR (ops 0) I st K b c j = None \/ wh b (@elem_exp AR (ops 0) I st K b c j).
  Proof.
    unfold elem_exp. apply (fold_keep (fun m : ME (ops 0) => m = None \/ wh b m)); [|right; apply wh_mz].
    intros m y [->|Hm]; [left; reflexivity|]. destruct (step_call b m (@adiv AR (@adiv AR (@amul AR (shp K y j) (jxw K y)) 4) (@api AR)) y Hm) as [(e & E & H1)|(_ & E)]; rewrite E; auto.
  Qed.
  Lemma elem_whole b c jd : In b (st_childless st) -> clean b -> In jd (dof_list I c) -> phi (snd jd) <> 0 -> wh b (@elem_exp AR (ops 0) I st K b c (fst jd)).
  Proof.
    intros Hb Cb Hj Hphi. unfold elem_exp.
    assert (G : forall l m, (forall q, In q l -> In q (b_quads (B b)) /\ cell_of I q = c) -> wh b m ->
      wh b (fold_left (fun m q => msrc (ops 0) m (@adiv AR (@adiv AR (@amul AR (shp K q (fst jd)) (jxw K q)) 4) (@api AR)) q) l m)).
    { induction l as [|q l IH]; intros m Hl Hm; [exact Hm|]. cbn [fold_left]. apply IH; [intros; apply Hl; right; auto|].
      destruct (Hl q (or_introl eq_refl)) as (Hq & Hc).
      destruct (step_call b m (@adiv AR (@adiv AR (@amul AR (shp K q (fst jd)) (jxw K q)) 4) (@api AR)) q Hm) as [(e & E & H1)|(N & E)]; [rewrite E; auto|]. exfalso.
      apply (Cb q Hq). exists b, jd. split; [auto|]. split; [auto|]. split; [intros F; apply N; apply sound_any; auto|]. split; [rewrite Hc; auto|].
      assert (Zs : forall w, w = 0 -> harmless M (ctr b) (call_of I ly w q)) by (intros w ->; unfold call_of; destruct ly; left; reflexivity).
      split; [intros Z; apply N, Zs, zero_strength; auto|]. split; [intros Z; apply N, Zs, zero_strength; auto|auto]. }
    apply G; [|apply wh_mz]. intros q Hq. unfold cell_quads in Hq. apply filter_In in Hq. destruct Hq as (Hq & E). apply Nat.eqb_eq in E. auto.
  Qed.
  Lemma leaf_whole b m : In b (st_childless st) -> clean b -> wh b m -> wh b (@leaf_exp AR (ops 0) I st K phi b m).
  Proof.
    intros Hb Cb Hm. unfold leaf_exp.
    assert (G : forall cl m, wh b m -> wh b (fold_left (fun m c => fold_left (fun m jd => maddc (ops 0) m (@elem_exp AR (ops 0) I st K b c (fst jd)) (phi (snd jd)))
      (combine (seq 0 (length (o_cdofs I c))) (o_cdofs I c)) m) cl m)); [|apply G; auto].
    induction cl as [|c cl IH]; intros m0 H0; [exact H0|]. cbn [fold_left]. apply IH.
    assert (G2 : forall l m, (forall jd, In jd l -> In jd (dof_list I c)) -> wh b m -> wh b (fold_left (fun m jd => maddc (ops 0) m (@elem_exp AR (ops 0) I st K b c (fst jd)) (phi (snd jd))) l m)); [|apply G2; auto].
    induction l as [|jd l IHl]; intros m1 Hl H1; [exact H1|]. cbn [fold_left]. apply IHl; [intros; apply Hl; right; auto|].
    destruct H1 as (e & -> & Ep & Ec). cbn [maddc float_eops]. unfold fadd_scaled_nan. cbn [ModelLegendre.bind].
    assert (X : forall f, wh b (Some f) -> wh b (fm_add_scaled M e f (phi (snd jd)))).
    { intros f (f' & F & Fp & Fc). injection F as <-. destruct (C91_scaled_is_finite M e f (phi (snd jd))) as (e' & E & P1 & P2); [congruence|]. rewrite E. exists e'. rewrite P1, P2. auto. }
    destruct (Req_EM_T (phi (snd jd)) 0) as [Z|Z].
    - destruct (elem_either b c (fst jd)) as [E|E].
      + rewrite E. exists e. auto.
      + assert (E' := E). destruct E' as (f & F & _). rewrite F in *. apply X. exact E.
    - assert (E := elem_whole b c jd Hb Cb (Hl jd (or_introl eq_refl)) Z). assert (E' := E). destruct E' as (f & F & _). rewrite F in *. apply X. exact E.
  Qed.
  Lemma anc_parent b n : anc bs (b_parent (B b)) n = anc bs b (S n).
  Proof. induction n as [|n IH]; [reflexivity|]. cbn [anc] in *. rewrite IH. reflexivity. Qed.
  Lemma clean_kid k : (0 < k < length bs)%nat -> clean (b_parent (B k)) -> clean k.
  Proof. intros Hk C q Hq. apply C. apply (quads_parent I bs (F_tree I W)); auto. Qed.
  Lemma clean_up b : clean_local b -> clean_local (b_parent (B b)).
  Proof. intros C n c. rewrite anc_parent. apply C. Qed.

  (** the row of node i reads nothing spoilt *)
  Definition clean_row (i : nat) : Prop :=
    (forall q w, In w (ways I st i q) -> match w with M2L _ _ | MEval _ _ => ~ spoils q | _ => True end) /\
    (forall b c, In i (b_nodes (B b)) -> converted I st b c -> ctr c <> ctr b) /\
    (forall c, multipole_of I st i c -> rpt (o_pos I i) <> ctr c) /\
    (forall a, local_of st i a -> rpt (o_pos I i) <> ctr a).
  Lemma node_anc a i n : In a (st_childless st) -> In i (b_nodes (B a)) -> (anc bs a n < length bs)%nat /\ In i (b_nodes (B (anc bs a n))).
  Proof.
    intros Ha Hi. assert (HT := F_tree I W). induction n as [|n IH]; [split; [apply (F_cl I W); auto|auto]|]. cbn [anc]. destruct IH as (L & IH).
    destruct (Nat.eq_dec (anc bs a n) 0) as [Z|Z].
    - rewrite Z in *. rewrite (root_parent I bs HT). auto.
    - destruct (parent_info I bs HT (anc bs a n) ltac:(lia)) as (P1 & _). split; [lia|]. apply (nodes_parent I bs HT); auto; lia.
  Qed.
  Lemma lid b l : (1 <= l <= o_N I)%nat -> In b (nth l (st_dfill st) []) -> level_of_id I st b = l.
  Proof. intros Hl Hb. apply (dfill_in I W) in Hb; [|lia]. destruct Hb as (Hb & <- & _). apply (ProofsFmm.level_of_id_ok I W). auto. Qed.
  Lemma conversion_way i b c q : In i (b_nodes (B b)) -> converted I st b c -> In q (b_quads (B c)) -> In (M2L b c) (ways I st i q).
  Proof.
    intros Hi (l & t & Hl & Hb & Ht & Hc) Hq. rewrite (lid b l Hl Hb) in Hc. unfold ways. apply in_app_iff. right. apply in_flat_map. exists l. split; [apply in_seq; lia|].
    apply in_app_iff. right. unfold far_ways. apply in_flat_map. exists b. split; [auto|]. apply mem_in in Hi. rewrite Hi. apply in_flat_map. exists t. split; [apply in_seq; lia|].
    apply in_app_iff. left. apply in_flat_map. exists c. split; [auto|]. apply mem_in in Hq. rewrite Hq. left. reflexivity.
  Qed.
  Lemma evaluation_way i c q : multipole_of I st i c -> In q (b_quads (B c)) -> exists b, In (MEval b c) (ways I st i q).
  Proof.
    intros (l & b & t & Hl & Hb & Hi & Ht & Hc) Hq. exists b. rewrite (lid b l Hl Hb) in Hc. unfold ways. apply in_app_iff. right. apply in_flat_map. exists l. split; [apply in_seq; lia|].
    apply in_app_iff. right. unfold far_ways. apply in_flat_map. exists b. split; [auto|]. apply mem_in in Hi. rewrite Hi. apply in_flat_map. exists t. split; [apply in_seq; lia|].
    apply in_app_iff. right. apply in_flat_map. exists c. split; [auto|]. apply mem_in in Hq. rewrite Hq. left. reflexivity.
  Qed.
  Lemma row_local i a : local_of st i a -> (forall q b c, In (M2L b c) (ways I st i q) -> ~ spoils q) -> (forall b c, In i (b_nodes (B b)) -> converted I st b c -> ctr c <> ctr b) -> clean_local a.
  Proof.
    intros (Ha & Hi) C1 C2 n c Hc. destruct (node_anc a i n Ha Hi) as (_ & Hn). split; [|apply C2; auto].
    intros q Hq. apply (C1 q (anc bs a n) c). apply conversion_way; auto.
  Qed.

  Lemma r_leaf : forall j j' b m m', In b (st_childless st) -> RM b m m' -> RM b (@leaf_exp AR (ops j) I st K phi b m) (@leaf_exp AR (ops j') I st K phi b m').
  Proof. intros j j' b m m' Hb (<- & Hm). split; [reflexivity|]. intros C. apply (leaf_whole b m); auto. Qed.
  Lemma r_up : forall l k m m' n n', (1 <= l <= o_N I)%nat -> In k (level_ids st l) -> let b := b_parent (B k) in RM b m m' -> RM k n n' ->
    RM b (lift2 (fm_translate M pow_i) m (lift2 (fm_translate M pow_i) (Some (fresh p (ctr b))) n)) (lift2 (fm_translate M pow_i) m' (lift2 (fm_translate M pow_i) (Some (fresh p (ctr b))) n')).
  Proof.
    intros l k m m' n n' Hl Hk b (<- & Hm) (<- & Hn). split; [reflexivity|]. intros C. apply (F_level_ids I W) in Hk; [|lia]. destruct Hk as (Hk & Lk).
    assert (k <> 0)%nat by (intros ->; assert (Z := proj2 (level_pos I bs (F_tree I W) 0%nat Hk) eq_refl); lia).
    apply wh_translate with (k := b); [auto|]. apply wh_translate with (k := k); [apply wh_mz|]. apply Hn. apply clean_kid; auto. lia.
  Qed.
  Lemma r_own : forall b m m' n n', RL b m m' -> RL b n n' -> RL b (lift2 (fl_translate M pow_i) m n) (lift2 (fl_translate M pow_i) m' n').
  Proof. intros b m m' n n' (<- & Hm) (<- & Hn). split; [reflexivity|]. intros C. apply wh_ltranslate with (k := b); auto. Qed.
  Lemma r_down : forall b m m', RL (b_parent (B b)) m m' -> RL b (lift2 (fl_translate M pow_i) (Some (fresh p (ctr b))) m) (lift2 (fl_translate M pow_i) (Some (fresh p (ctr b))) m').
  Proof. intros b m m' (<- & Hm). split; [reflexivity|]. intros C. apply wh_ltranslate with (k := b_parent (B b)); [apply wh_mz|]. apply Hm. apply clean_up; auto. Qed.
  Lemma r_conv : forall b c m m' n n', converted I st b c -> RL b m m' -> RM c n n' -> RL b (lift2 (fl_convert M pow_i) m n) (lift2 (fl_convert M pow_i) m' n').
  Proof. intros b c m m' n n' Cv (<- & Hm) (<- & Hn). split; [reflexivity|]. intros C. destruct (C 0%nat c Cv) as (C1 & C2). apply wh_convert with (c := c); auto. Qed.
  Lemma r_evM : forall j j' c n n' i, clean_row i -> multipole_of I st i c -> RM c n n' -> evM (ops j) n i = evM (ops j') n' i.
  Proof.
    intros j j' c n n' i (R1 & R2 & R3 & R4) Hi (<- & Hn). assert (Cc : clean c).
    { intros q Hq. destruct (evaluation_way i c q Hi Hq) as (b & Hw). exact (R1 q _ Hw). }
    destruct (Hn Cc) as (e & -> & Ep & Ec). cbn [evM float_eops ModelLegendre.bind]. destruct (fm_evaluate M e (rpt (o_pos I i))) as [v|] eqn:V; [reflexivity|]. exfalso.
    unfold fm_evaluate in V. destruct (e_zero e); [discriminate|]. destruct (C91_evaluation_is_finite M (e_p e) (e_center e) (e_coeffs e) (rpt (o_pos I i)) HM) as (v & E);
      [lia|rewrite Ec; apply center_double; auto|rewrite Ec; auto|congruence].
  Qed.
  Lemma r_evL : forall j j' b n n' i, clean_row i -> local_of st i b -> owned i = true -> RL b n n' -> evL (ops j) n i = evL (ops j') n' i.
  Proof.
    intros j j' b n n' i (R1 & R2 & R3 & R4) Hi _ (<- & Hn). assert (Cb : clean_local b) by (apply (row_local i); auto; intros q x c Hw; exact (R1 q _ Hw)).
    destruct (Hn Cb) as (e & -> & Ep & Ec). cbn [evL float_eops ModelLegendre.bind]. destruct (C91_local_evaluation_is_finite M HM e (rpt (o_pos I i))) as (v & E);
      [lia|rewrite Ec; apply center_double; auto|rewrite Ec; auto|]. rewrite E. reflexivity.
  Qed.
  Lemma r_mz : forall b, RM b (Some (fresh p (ctr b))) (Some (fresh p (ctr b))). Proof. intros b. split; [reflexivity|]. intros _. apply wh_mz. Qed.
  Lemma r_lz : forall b, RL b (Some (fresh p (ctr b))) (Some (fresh p (ctr b))). Proof. intros b. split; [reflexivity|]. intros _. apply wh_mz. Qed.

  (** A multipole expansion is finite at the end exactly when no point in its block spoils its leaf. *)
  Theorem C93_which_multipoles : forall junk c, (c < length bs)%nat ->
    ((exists e, @final_multipoles AR (ops junk) I st K phi s c = Some e) <-> forall q, In q (b_quads (B c)) -> ~ spoils q).
  Proof.
    intros ju c Hc. split.
    - intros (e & E) q Hq (b0 & jd & Hb & Hqb & N & Hj & H1 & H2 & H3).
      destruct (C93_spoilt_expansions s K phi owned ju b0 q jd Gs Hb Hqb N Hj H1 H2 H3) as (X & _). rewrite (X c Hc Hq) in E. discriminate.
    - intros C. destruct (@rel_finals AR (ops ju) (ops ju) I st K phi s RM Gs r_mz (r_leaf ju ju) r_up c) as (_ & X). destruct (X C) as (e & E & _). eauto.
  Qed.
  (** The local expansion that an owned node reads is finite at the end exactly when no point that the node accounts for by a conversion spoils its leaf. *)
  Theorem C93_which_locals : forall junk i a, owned i = true -> local_of st i a -> (forall b c, In i (b_nodes (B b)) -> converted I st b c -> ctr c <> ctr b) ->
    ((exists e, @final_locals AR (ops junk) I st K phi owned s a = Some e) <-> forall q b c, In (M2L b c) (ways I st i q) -> ~ spoils q).
  Proof.
    intros ju i a Ho Hi Ap. split.
    - intros (e & E) q b c Hw (b0 & jd & Hb & Hqb & N & Hj & H1 & H2 & H3).
      destruct (C93_spoilt_expansions s K phi owned ju b0 q jd Gs Hb Hqb N Hj H1 H2 H3) as (_ & X & _). rewrite (X i a b c Ho Hi Hw) in E. discriminate.
    - intros C. destruct (@rel_locals AR (ops ju) (ops ju) I st K phi owned s RM RL clean_row Gs r_mz r_lz (r_leaf ju ju) r_up r_own r_down r_conv (r_evM ju ju) a) as (_ & X).
      destruct (X (row_local i a Hi C Ap)) as (e & E & _). eauto.
  Qed.
  (** A row that accounts for no spoiling point by an expansion, of a node that is not at a centre and whose conversions are between different centres, does not
      depend on what reading a NaN gives: whatever spoils other rows does not reach it. *)
  Theorem C93_rows : forall i, clean_row i -> forall junk junk', @fmm_product AR (ops junk) I st K phi owned s i = @fmm_product AR (ops junk') I st K phi owned s i.
  Proof.
    intros i Ri j j'. exact (@rel_product AR (ops j) (ops j') I st K phi owned s RM RL clean_row Gs r_mz r_lz (r_leaf j j') r_up r_own r_down r_conv (r_evM j j') (r_evL j j') i Ri).
  Qed.
  (** If every point is sound, no block is converted into one with the same computed centre, and no node is at the computed centre of a block whose expansion
      it evaluates, then all expansions are finite, and nothing that is not finite is read. *)
  Theorem C93_finite_product :
    (forall b q, In b (st_childless st) -> In q (b_quads (B b)) -> sound_source M I ly (ctr b) q) ->
    (forall b c, converted I st b c -> ctr c <> ctr b) ->
    (forall i c, multipole_of I st i c -> rpt (o_pos I i) <> ctr c) ->
    (forall i b, local_of st i b -> rpt (o_pos I i) <> ctr b) ->
    (forall junk junk' i, @fmm_product AR (ops junk) I st K phi owned s i = @fmm_product AR (ops junk') I st K phi owned s i) /\
    (forall junk b, exists e, @final_multipoles AR (ops junk) I st K phi s b = Some e) /\
    (forall junk b, exists e, @final_locals AR (ops junk) I st K phi owned s b = Some e).
  Proof.
    intros Hq Hc Hm Hl. assert (Ns : forall q, ~ spoils q) by (intros q (b & jd & H1 & H2 & H3 & _); apply H3; auto). split; [|split].
    - intros j j' i. apply C93_rows. split; [intros q w _; destruct w; auto|]. split; [auto|]. split; auto.
    - intros ju b. destruct (@rel_finals AR (ops ju) (ops ju) I st K phi s RM Gs r_mz (r_leaf ju ju) r_up b) as (_ & X). destruct X as (e & E & _); [intros q _; auto|eauto].
    - intros ju b. destruct (@rel_locals AR (ops ju) (ops ju) I st K phi owned s RM RL clean_row Gs r_mz r_lz (r_leaf ju ju) r_up r_own r_down r_conv (r_evM ju ju) b) as (_ & X).
      destruct X as (e & E & _); [|eauto]. intros n c Cv. split; [intros q _; auto|auto].
  Qed.
End Spoilt.

(** ** Instances: nodes near the two ends of a bar, quadrature point 0 straight below the centre of its leaf *)
Definition ex_axis : oin := {|
  o_N := 3; o_max := 1; o_nd := 4;
  o_pos := fun d => mkpt (match d with 0%nat => -10 | 1%nat => -9 | 2%nat => 9 | _ => 10 end)%Q 1%Q 1%Q;
  o_nc := 2; o_nqc := 1;
  o_qpos := fun q => match q with 0%nat => mkpt (Qmake (-77) 8) (Qmake 11 8) (Qmake 1 2) | _ => mkpt (Qmake 19 2) 1%Q (Qmake 1 2) end;
  o_dbl := fun d => [d]; o_cdofs := fun c => [(2 * c)%nat; (2 * c + 1)%nat]; o_rnd := fun x => x; o_old := fun _ => [] |}.
Lemma ex_axis_wf : wf_in ex_axis.
Proof. repeat split; try (simpl; lia); intros; simpl in *; try (left; reflexivity); intuition (subst; try lia; auto). Qed.
Definition ex_kern : kern := {| kd := fun _ _ => 1; shp := fun _ _ => 1; jxw := fun _ => 1; sing := fun _ _ _ => 0 |}.
Definition ex_seq : sched := let st := octree ex_axis in {| s_direct := st_childless st; s_big := fun l => nth l (st_dfill st) []; s_leaves := st_childless st;
  s_up := level_ids st; s_down := fun l => nth l (st_dfill st) []; s_eval := st_childless st |}.
Lemma ex_seq_good : good_sched ex_axis (octree ex_axis) ex_seq.
Proof. repeat split; auto. Qed.

(** centres in units of 1/64 *)
Definition z64 (x : Q) : Z := (Qnum x * 64 / QDen x)%Z.
Definition z32 (x : Q) : Z := (Qnum x * 32 / QDen x)%Z.
Definition on_grid (x d : Q) : bool :=
  Qeq_bool x (Qmake (z64 x) 64) && Qeq_bool d (Qmake (z32 d) 32) && (Z.abs (z32 d) <? 2 ^ 53)%Z && (Z.abs (z64 x + z32 d) <? 2 ^ 53)%Z.
Lemma grid_coordinate x d : on_grid x d = true -> fcoordinate rounded_math x d = IZR (z64 x + z32 d) / 64.
Proof.
  unfold on_grid. rewrite !andb_true_iff, !Z.ltb_lt. intros (((Hx & Hd) & H1) & H2). apply Qeq_bool_eq in Hx. apply Qeq_bool_eq in Hd. apply Qeq_eqR in Hx. apply Qeq_eqR in Hd.
  unfold fcoordinate. rewrite (e_add rounded_math rounded_math_ok). replace (@adiv (@f_arith (fm_ops rounded_math)) (Q2R d) 2) with (flx (Q2R d / 2)) by reflexivity.
  rewrite Hx, Hd. unfold Q2R. cbn [Qnum Qden].
  assert (D1 := double_IZR (z32 d) (-6) H1). assert (D2 := double_IZR (z64 x + z32 d) (-6) H2). change (bpow radix2 (-6)) with (/ 64) in *.
  replace (IZR (z32 d) * / 32 / 2) with (IZR (z32 d) * / 64) by lra. rewrite (flx_id _ D1). rewrite <- Rmult_plus_distr_r, <- plus_IZR. rewrite (flx_id _ D2). reflexivity.
Qed.
Definition cen (B : block) : Z * Z * Z := let h := z32 (b_delta B) in (z64 (px (b_min B)) + h, z64 (py (b_min B)) + h, z64 (pz (b_min B)) + h)%Z.
Definition block_ok (B : block) : bool := on_grid (px (b_min B)) (b_delta B) && on_grid (py (b_min B)) (b_delta B) && on_grid (pz (b_min B)) (b_delta B)
  && negb (Z.eqb (snd (cen B)) 32) && negb (Z.eqb (snd (cen B)) 64).
Opaque octree.
Notation cbk b := (cen (getb (st_blocks (octree ex_axis)) b)).
Lemma blocks_ok b : block_ok (getb (st_blocks (octree ex_axis)) b) = true.
Proof.
  destruct (Nat.lt_ge_cases b 7) as [L|L].
  - assert (A : forallb (fun b => block_ok (getb (st_blocks (octree ex_axis)) b)) (seq 0 7) = true) by (vm_compute; reflexivity).
    rewrite forallb_forall in A. apply A. apply in_seq. lia.
  - unfold getb. rewrite nth_overflow by (change (length (st_blocks (octree ex_axis))) with (num_blocks (octree ex_axis)); replace (num_blocks (octree ex_axis)) with 7%nat by (vm_compute; reflexivity); exact L). vm_compute. reflexivity.
Qed.
Lemma ex_center b : fblock_center rounded_math (octree ex_axis) b = Pt (IZR (fst (fst (cbk b))) / 64) (IZR (snd (fst (cbk b))) / 64) (IZR (snd (cbk b)) / 64) /\ snd (cbk b) <> 32%Z /\ snd (cbk b) <> 64%Z.
Proof.
  assert (K := blocks_ok b). unfold block_ok in K. rewrite !andb_true_iff, !negb_true_iff, !Z.eqb_neq in K. destruct K as ((((Kx & Ky) & Kz) & N1) & N2).
  split; [|auto]. unfold fblock_center. revert Kx Ky Kz. clear. generalize (getb (st_blocks (octree ex_axis)) b). intros B Kx Ky Kz. cbv zeta. rewrite !grid_coordinate by auto. reflexivity.
Qed.
Lemma pt_off b x y z k : z = IZR k / 64 -> (k = 32 \/ k = 64)%Z -> Pt x y z <> fblock_center rounded_math (octree ex_axis) b.
Proof.
  intros -> Hk. destruct (ex_center b) as (-> & N1 & N2). intros F. apply (f_equal cz) in F. cbn [cz] in F. assert (G : IZR k = IZR (snd (cbk b))) by lra. apply eq_IZR in G. lia.
Qed.
Lemma q0_off q b : rpt (o_qpos ex_axis q) <> fblock_center rounded_math (octree ex_axis) b.
Proof. unfold rpt. apply pt_off with (k := 32%Z); [|auto]. destruct q; cbn; unfold Q2R; cbn; lra. Qed.
Lemma node_off i b : rpt (o_pos ex_axis i) <> fblock_center rounded_math (octree ex_axis) b.
Proof. unfold rpt. apply pt_off with (k := 64%Z); [|auto]. cbn; unfold Q2R; cbn; lra. Qed.
Lemma converted_apart b c : converted ex_axis (octree ex_axis) b c -> fblock_center rounded_math (octree ex_axis) c <> fblock_center rounded_math (octree ex_axis) b.
Proof.
  intros (l & s & Hl & Hb & Hs & Hc). destruct (ex_center b) as (-> & _). destruct (ex_center c) as (-> & _).
  assert (A : forallb (fun l => forallb (fun b => forallb (fun s => forallb (fun c => negb (Z.eqb (fst (fst (cbk b))) (fst (fst (cbk c))))) (same_size ex_axis (octree ex_axis) (level_of_id ex_axis (octree ex_axis) b) b s))
    (seq 0 (near_levels ex_axis (octree ex_axis) b))) (nth l (st_dfill (octree ex_axis)) [])) (seq 1 3) = true) by (vm_compute; reflexivity).
  rewrite forallb_forall in A. specialize (A l ltac:(apply in_seq; cbn in Hl; lia)). rewrite forallb_forall in A. specialize (A b Hb).
  rewrite forallb_forall in A. specialize (A s (proj2 (in_seq _ 0 s) (conj (Nat.le_0_l s) Hs))). rewrite forallb_forall in A. specialize (A c Hc).
  apply negb_true_iff, Z.eqb_neq in A. intros F. apply (f_equal cx) in F. cbn [cx] in F. apply A. apply eq_IZR. lra.
Qed.
(** with the single layer the hypotheses of C93_finite_product hold, and a conversion takes place *)
Example C93_finite_instance : double_math rounded_math /\ signs rounded_math /\ good_sched ex_axis (octree ex_axis) ex_seq /\
  (forall b q, In b (st_childless (octree ex_axis)) -> In q (b_quads (getb (st_blocks (octree ex_axis)) b)) -> sound_source rounded_math ex_axis Single (fblock_center rounded_math (octree ex_axis) b) q) /\
  (forall b c, converted ex_axis (octree ex_axis) b c -> fblock_center rounded_math (octree ex_axis) c <> fblock_center rounded_math (octree ex_axis) b) /\
  (forall i c, multipole_of ex_axis (octree ex_axis) i c -> rpt (o_pos ex_axis i) <> fblock_center rounded_math (octree ex_axis) c) /\
  (forall i b, local_of (octree ex_axis) i b -> rpt (o_pos ex_axis i) <> fblock_center rounded_math (octree ex_axis) b) /\
  In (M2L 3 4) (ways ex_axis (octree ex_axis) 2 0).
Proof.
  split; [exact rounded_math_ok|]. split; [exact rounded_signs|]. split; [exact ex_seq_good|]. split; [intros b q _ _; right; apply q0_off|].
  split; [exact converted_apart|]. split; [intros; apply node_off|]. split; [intros; apply node_off|]. vm_compute. auto.
Qed.
(** with the double layer and horizontal normals, point 0 spoils the expansion of its leaf, and with it the rows of the nodes at the other end *)
Definition horizontal (q : nat) : ModelExp.pt := sideways.
Lemma q0_unsound : ~ sound_source rounded_math ex_axis (Double horizontal) (fblock_center rounded_math (octree ex_axis) 6) 0.
Proof.
  unfold sound_source, call_of. cbn [harmless]. intros [F|(_ & _ & F)]; [lra|].
  destruct (ex_center 6) as (E & _). assert (C : cbk 6%nat = (-616, 88, 88)%Z) by (vm_compute; reflexivity). rewrite C in E. cbn [fst snd] in E.
  assert (Dc : double_point (fblock_center rounded_math (octree ex_axis) 6)) by (apply center_double; exact rounded_math_ok).
  assert (N0 := q0_off 0 6).
  assert (Sn : nonzero sideways) by (unfold sideways; intros G; injection G; lra).
  set (d := frelative rounded_math (rpt (o_qpos ex_axis 0)) (fblock_center rounded_math (octree ex_axis) 6)).
  assert (Zx : ModelExp.cx d = 0 /\ ModelExp.cy d = 0 /\ ModelExp.cz d <> 0).
  { assert (Dd := Dc). rewrite E in Dd. destruct Dd as (D1 & D2 & D3). cbn [cx cy cz] in D1, D2, D3. unfold d. rewrite E. unfold frelative, rpt. rewrite !(e_add rounded_math rounded_math_ok), !(e_mul rounded_math rounded_math_ok).
    cbn [cx cy cz px py pz o_qpos ex_axis]. unfold Q2R. cbn [Qnum Qden]. split; [|split].
    - apply (rel_zero rounded_math _ _ rounded_math_ok D1). lra.
    - apply (rel_zero rounded_math _ _ rounded_math_ok D2). lra.
    - intros Z. apply (rel_zero rounded_math _ _ rounded_math_ok D3) in Z. lra. }
  destruct Zx as (Z1 & Z2 & Z3).
  assert (D : fadd_normder rounded_math 4 (fblock_center rounded_math (octree ex_axis) 6) (fun _ => (0, 0)) 1 (rpt (o_qpos ex_axis 0)) sideways = None).
  { apply C91_dipole_near_the_axis; auto using rounded_math_ok; try lia; try lra. fold d. unfold axis2, height2. rewrite Z1, Z2. assert (P := pow2_ge_0 (cz d)). rewrite pow_i by lia. lra. }
  assert (Q := normder_some_iff rounded_math (Exp 4 (fblock_center rounded_math (octree ex_axis) 6) true (fun _ => (0, 0))) 1 (rpt (o_qpos ex_axis 0)) sideways rounded_math_ok). cbn [e_p e_center e_coeffs] in Q.
  destruct (proj2 (Q ltac:(lia) Dc ltac:(lra)) (conj N0 (conj Sn F))) as (C' & X). rewrite D in X. discriminate.
Qed.
Example C93_spoilt_instance : wf_in ex_axis /\ good_sched ex_axis (octree ex_axis) ex_seq /\ In 6%nat (st_childless (octree ex_axis)) /\ In 0%nat (b_quads (getb (st_blocks (octree ex_axis)) 6)) /\ ~ sound_source rounded_math ex_axis (Double horizontal) (fblock_center rounded_math (octree ex_axis) 6) 0 /\ In (0%nat, 0%nat) (dof_list ex_axis (cell_of ex_axis 0)) /\ shp ex_kern 0 0 <> 0 /\ jxw ex_kern 0 <> 0 /\ local_of (octree ex_axis) 2 5 /\ In (M2L 3 4) (ways ex_axis (octree ex_axis) 2 0) /\ forall junk, @final_locals (@f_arith (fm_ops rounded_math)) (float_eops rounded_math re_pow_i ex_axis (octree ex_axis) 4 (Double horizontal) junk) ex_axis (octree ex_axis) ex_kern (fun _ => 1) (fun _ => true) ex_seq 5 = None.
Proof.
  assert (A1 : In 6%nat (st_childless (octree ex_axis))) by (vm_compute; auto). assert (A2 : In 0%nat (b_quads (getb (st_blocks (octree ex_axis)) 6))) by (vm_compute; auto).
  assert (A3 : In (0%nat, 0%nat) (dof_list ex_axis (cell_of ex_axis 0))) by (vm_compute; auto). assert (A4 : local_of (octree ex_axis) 2 5) by (split; vm_compute; auto).
  assert (A5 : In (M2L 3 4) (ways ex_axis (octree ex_axis) 2 0)) by (vm_compute; auto).
  split; [exact ex_axis_wf|]. split; [exact ex_seq_good|]. split; [exact A1|]. split; [exact A2|]. split; [exact q0_unsound|]. split; [exact A3|].
  split; [cbn; lra|]. split; [cbn; lra|]. split; [exact A4|]. split; [exact A5|]. intros junk.
  destruct (C93_spoilt_expansions rounded_math re_pow_i rounded_math_ok rounded_signs ex_axis 4 (Double horizontal) ex_axis_wf ltac:(lia) ex_seq ex_kern (fun _ => 1) (fun _ => true) junk 6 0 (0%nat, 0%nat)
    ex_seq_good A1 A2 q0_unsound A3 ltac:(cbn; lra) ltac:(cbn; lra) ltac:(cbn; lra)) as (_ & X & _).
  exact (X 2%nat 5%nat 3%nat 4%nat eq_refl A4 A5).
Qed.
(** the rows of the nodes at this end, which account for point 0 by direct integration, are not reached by the NaN *)
Lemma q1_sound : sound_source rounded_math ex_axis (Double horizontal) (fblock_center rounded_math (octree ex_axis) 5) 1.
Proof.
  unfold sound_source, call_of. cbn [harmless]. right. split; [apply q0_off|]. split; [unfold horizontal, sideways; intros G; injection G; lra|]. intros k Hk.
  destruct (ex_center 5) as (E & _). assert (C : cbk 5%nat = (616, 88, 88)%Z) by (vm_compute; reflexivity). rewrite C in E. cbn [fst snd] in E. rewrite E in Hk.
  assert (D : frelative rounded_math (rpt (o_qpos ex_axis 1)) (Pt (616 / 64) (88 / 64) (88 / 64)) = Pt (-8 * / 64) (-24 * / 64) (-56 * / 64)).
  { unfold frelative, rpt. rewrite !(e_add rounded_math rounded_math_ok), !(e_mul rounded_math rounded_math_ok). cbn [cx cy cz px py pz o_qpos ex_axis]. unfold Q2R. cbn [Qnum Qden].
    assert (D1 := double_IZR (-616) (-6) eq_refl). assert (D2 := double_IZR (-88) (-6) eq_refl). assert (D3 := double_IZR (-8) (-6) eq_refl). assert (D4 := double_IZR (-24) (-6) eq_refl).
    assert (D5 := double_IZR (-56) (-6) eq_refl). change (bpow radix2 (-6)) with (/ 64) in *.
    replace (-1 * (616 / 64)) with (-616 * / 64) by lra. replace (-1 * (88 / 64)) with (-88 * / 64) by lra. rewrite !(flx_id _ D1), !(flx_id _ D2).
    replace (19 * / 2 + -616 * / 64) with (-8 * / 64) by lra. replace (1 * / 1 + -88 * / 64) with (-24 * / 64) by lra. replace (1 * / 2 + -88 * / 64) with (-56 * / 64) by lra.
    rewrite (flx_id _ D3), (flx_id _ D4), (flx_id _ D5). reflexivity. }
  rewrite D in Hk. assert (Nz : nonzero (Pt (-8 * / 64) (-24 * / 64) (-56 * / 64))) by (intros G; apply (f_equal cx) in G; cbn [cx] in G; lra).
  assert (Bk := C91_off_the_axis rounded_math _ k rounded_math_ok Nz Hk). unfold axis2, height2 in Bk. cbn [cx cy cz] in Bk.
  replace (2 ^ 50) with 1125899906842624 in Bk by (simpl; lra). specialize (Bk ltac:(lra)). split; lra.
Qed.
Example C93_rows_instance :
  spoils rounded_math ex_axis (Double horizontal) ex_kern (fun _ => 1) 0 /\ In (Near 6) (ways ex_axis (octree ex_axis) 0 0) /\ In (M2L 4 3) (ways ex_axis (octree ex_axis) 0 1) /\
  clean_row rounded_math ex_axis (Double horizontal) ex_kern (fun _ => 1) 0 /\ ~ clean_row rounded_math ex_axis (Double horizontal) ex_kern (fun _ => 1) 2.
Proof.
  assert (S0 : spoils rounded_math ex_axis (Double horizontal) ex_kern (fun _ => 1) 0).
  { exists 6%nat, (0%nat, 0%nat). split; [vm_compute; auto|]. split; [vm_compute; auto|]. split; [exact q0_unsound|]. split; [vm_compute; auto|]. split; [cbn; lra|]. split; cbn; lra. }
  split; [exact S0|]. split; [vm_compute; auto|]. split; [vm_compute; auto|]. split.
  - split; [|split; [intros b c _; apply converted_apart|split; intros; apply node_off]].
    intros q w Hw. destruct (Nat.lt_ge_cases q 2) as [Lq|Lq].
    + assert (Hq : q = 0%nat \/ q = 1%nat) by lia. destruct Hq as [-> | ->].
      * assert (E : ways ex_axis (octree ex_axis) 0 0 = [Near 6]) by (vm_compute; reflexivity). rewrite E in Hw. destruct Hw as [<-|[]]. exact Logic.I.
      * assert (X : ~ spoils rounded_math ex_axis (Double horizontal) ex_kern (fun _ => 1) 1); [|destruct w; auto].
        intros (b & jd & Hb & Hq & N & _). assert (E : st_childless (octree ex_axis) = [5%nat; 6%nat]) by (vm_compute; reflexivity). rewrite E in Hb. destruct Hb as [<-|[<-|[]]].
        -- apply N, q1_sound.
        -- assert (E6 : b_quads (getb (st_blocks (octree ex_axis)) 6) = [0%nat]) by (vm_compute; reflexivity). rewrite E6 in Hq. destruct Hq as [F|[]]. discriminate F.
    + assert (X : ~ spoils rounded_math ex_axis (Double horizontal) ex_kern (fun _ => 1) q); [|destruct w; auto].
      intros (b & jd & Hb & Hq & _). apply (quad_bound ex_axis ex_axis_wf) in Hq; [|apply (F_cl ex_axis ex_axis_wf); auto]. unfold o_nq in Hq. cbn in Hq. lia.
  - intros (R1 & _). assert (Hw : In (M2L 3 4) (ways ex_axis (octree ex_axis) 2 0)) by (vm_compute; auto). exact (R1 0%nat _ Hw S0).
Qed.
