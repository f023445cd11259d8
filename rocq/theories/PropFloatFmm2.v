(** * C93: the centres of the expansions; the fast product without rounding *)
From Coq Require Import QArith Qreals ZArith Reals List Lia Lra FunctionalExtensionality.
From Verif Require Import SpecFloatFmm ModelLegendre ModelOctree ModelExp SpecExp ModelFmm SpecFmm ProofsFmmRel ModelFmmExp ModelFloat SpecFloat ProofsFloat ModelFloatExp ProofsFloatExp PropFloatExp3 ModelFloatExp2 PropFloatExp4 PropFloatExp5 SpecFloatTrans ProofsFloatTrans SpecFloatDip ModelFloatFmm PropFloatFmm.
Import ListNotations.
Local Open Scope R_scope.

(** the middle of an edge that starts at [x] and is [d] long *)
Definition middle (x d : Q) : R := Q2R x + Q2R d / 2.

Section Centres.
  Variable u : R.
  Variable M : fmath.
  Variable pow_i : Z -> R.
  Hypothesis HR : relative_math u M pow_i.
  Lemma middle_near x d : close u 2 (middle x d) (Rabs (Q2R x) + Rabs (Q2R d / 2)) (fcoordinate M x d).
  Proof.
    assert (P1 := ap_near u M pow_i HR _ _ _ (near_div u M pow_i HR 0 0 (Q2R d) 2 _ _ ltac:(lra) (near_0 u M pow_i HR (Q2R d)) (near_0 u M pow_i HR 2))).
    assert (P2 := ap_weak u M pow_i HR 0 1 _ _ _ ltac:(lia) (ap_exact u (Q2R x))).
    assert (P3 := ap_add u M pow_i HR 1 _ _ _ _ _ _ P2 P1). destruct P3 as (_ & P3). exact P3.
  Qed.
End Centres.

(** The centre of the expansions of a block is the middle of the block, each coordinate right up to two roundings. *)
Theorem C93_centres : forall u M pow_i st b, relative_math u M pow_i ->
  let B := getb (st_blocks st) b in
  let right y x := close u 2 (middle (y (b_min B)) (b_delta B)) (Rabs (Q2R (y (b_min B))) + Rabs (Q2R (b_delta B) / 2)) x in
  right px (cx (fblock_center M st b)) /\ right py (cy (fblock_center M st b)) /\ right pz (cz (fblock_center M st b)).
Proof. intros u M pow_i st b HR B right. unfold right, B. repeat split; exact (middle_near u M pow_i HR _ _). Qed.

(** ** The same routines without rounding are those of the exact product *)
Lemma same_eq o o' : same_result o o' -> o = o'.
Proof.
  destruct o as [[p c z a]|], o' as [[p' c' z' a']|]; cbn; try contradiction; [|reflexivity]. intros (P & C & Z & A). cbn in *. subst.
  do 2 f_equal. apply functional_extensionality. exact A.
Qed.

Section Exact.
  Variables (I : oin) (st : ost) (p : nat) (ly : layer) (junk : R) (K : kern) (phi : nat -> R) (owned : nat -> bool) (s : sched).
  Notation E := (float_eops exact_math re_pow_i I st p ly junk).
  Notation E' := (code_eops I st p ly junk).
  Hypothesis Gs : good_sched I st s.
  (** every element expansion that is added with the factor 0 is defined *)
  Hypothesis Hd : forall b c j d, In b (st_childless st) -> In c (cells_in I (b_quads (getb (st_blocks st) b))) -> In (j, d) (combine (seq 0 (length (o_cdofs I c))) (o_cdofs I c)) ->
    phi d = 0 -> exists e, elem_exp E' I st K b c j = Some e.
  Lemma x_mz b : mz E b = mz E' b. Proof. reflexivity. Qed.
  Lemma x_src m w q : msrc E m w q = msrc E' m w q.
  Proof.
    cbn. destruct m as [e|]; [|reflexivity]. cbn. unfold src_of. destruct ly; cbn; apply same_eq.
    - exact (C91_multipole_calls_without_rounding e (MCharge w (rpt (o_qpos I q)))).
    - exact (C91_multipole_calls_without_rounding e (MDipole w (rpt (o_qpos I q)) (normal q))).
  Qed.
  Lemma x_add m m' : madd E m m' = madd E' m m'.
  Proof. cbn. destruct m as [e|], m' as [e'|]; cbn; auto. apply same_eq. exact (C91_multipole_calls_without_rounding e (MTranslate e')). Qed.
  Lemma x_addc m m' a : (a = 0 -> exists e, m' = Some e) -> maddc E m m' a = maddc E' m m' a.
  Proof.
    intros Ha. cbn. unfold fadd_scaled_nan. destruct m as [e|]; [|reflexivity]. cbn. destruct m' as [e'|]; cbn.
    - apply same_eq. exact (C91_multipole_calls_without_rounding e (MScaled e' a)).
    - destruct (Req_EM_T a 0) as [Z|Z]; [|reflexivity]. destruct (Ha Z) as (? & X). discriminate X.
  Qed.
  Lemma x_laddl m m' : laddl E m m' = laddl E' m m'.
  Proof. cbn. destruct m as [e|], m' as [e'|]; cbn; auto. apply same_eq. exact (C91_local_calls_without_rounding e (LTranslate e')). Qed.
  Lemma x_laddm m m' : laddm E m m' = laddm E' m m'.
  Proof. cbn. destruct m as [e|], m' as [e'|]; cbn; auto. apply same_eq. exact (C91_local_calls_without_rounding e (LConvert e')). Qed.
  Lemma x_evM m i : evM E m i = evM E' m i.
  Proof. cbn. destruct m as [e|]; cbn; [|reflexivity]. rewrite (proj1 (C91_values_without_rounding e _)). reflexivity. Qed.
  Lemma x_evL m i : evL E m i = evL E' m i.
  Proof. cbn. destruct m as [e|]; cbn; [|reflexivity]. rewrite (proj2 (C91_values_without_rounding e _)). reflexivity. Qed.
  Lemma x_elem b c j : elem_exp E I st K b c j = elem_exp E' I st K b c j.
  Proof. unfold elem_exp. apply (fold_rel eq); [|reflexivity]. intros q x y _ ->. apply x_src. Qed.
  Lemma x_leaf b m : In b (st_childless st) -> leaf_exp E I st K phi b m = leaf_exp E' I st K phi b m.
  Proof.
    intros Hb. unfold leaf_exp. apply (fold_rel eq); [|reflexivity]. intros c x y Hc ->. apply (fold_rel eq); [|reflexivity]. intros [j d] x0 y0 Hj ->. cbn [fst snd].
    rewrite x_elem. apply x_addc. intros Z. eapply Hd; eauto.
  Qed.
  Notation rM := (fun (_ : nat) (x : ME E) (y : ME E') => x = y).
  Notation rL := (fun (_ : nat) (x : LE E) (y : LE E') => x = y).
  Theorem C93_without_rounding :
    (forall i, fmm_product E I st K phi owned s i = fmm_product E' I st K phi owned s i) /\
    (forall b, final_multipoles E I st K phi s b = final_multipoles E' I st K phi s b) /\
    (forall b, final_locals E I st K phi owned s b = final_locals E' I st K phi owned s b).
  Proof.
    assert (L : forall b m m', In b (st_childless st) -> m = m' -> leaf_exp E I st K phi b m = leaf_exp E' I st K phi b m') by (intros b m m' Hb ->; apply x_leaf; exact Hb).
    split; [intros i|split; intros b].
    - refine (rel_product E E' I st K phi owned s rM rL (fun _ => True) Gs _ _ L _ _ _ _ _ _ i Logic.I); intros; subst; rewrite ?x_add, ?x_laddl, ?x_laddm, ?x_evM, ?x_evL; reflexivity.
    - refine (rel_finals E E' I st K phi s rM Gs _ L _ b); intros; subst; rewrite ?x_add; reflexivity.
    - refine (rel_locals E E' I st K phi owned s rM rL (fun _ => True) Gs _ _ L _ _ _ _ _ b); intros; subst; rewrite ?x_add, ?x_laddl, ?x_laddm, ?x_evM, ?x_evL; reflexivity.
  Qed.
End Exact.

Example C93_without_rounding_met : good_sched ex_axis (octree ex_axis) ex_seq /\ (exists b c j d, In b (st_childless (octree ex_axis)) /\ In c (cells_in ex_axis (b_quads (getb (st_blocks (octree ex_axis)) b))) /\ In (j, d) (combine (seq 0 (length (o_cdofs ex_axis c))) (o_cdofs ex_axis c))) /\
  forall junk i, fmm_product (float_eops exact_math re_pow_i ex_axis (octree ex_axis) 4 Single junk) ex_axis (octree ex_axis) ex_kern (fun _ => 1) (fun _ => true) ex_seq i =
                 fmm_product (code_eops ex_axis (octree ex_axis) 4 Single junk) ex_axis (octree ex_axis) ex_kern (fun _ => 1) (fun _ => true) ex_seq i.
Proof.
  split; [exact ex_seq_good|]. split; [exists 6%nat, 0%nat, 0%nat, 0%nat; vm_compute; tauto|].
  intros junk i. apply (C93_without_rounding ex_axis (octree ex_axis) 4 Single junk ex_kern (fun _ => 1) (fun _ => true) ex_seq ex_seq_good). intros b c j d _ _ _ Z. exfalso. cbv beta in Z. lra.
Qed.
