(** * Finite parts of the singular integrals (C56). *)
From Coq Require Import ZArith List Reals Lia Lra Psatz Bool.
From Coquelicot Require Import Coquelicot.
From Verif Require Import ModelSing SpecSing ProofsSing2 ProofsSing3.
Local Open Scope R_scope.

(** ** limits *)
Lemma lim0_Ord1 f l : Ord 1 (fun r => f r - l) -> lim0 f l.
Proof.
  intros (d & M & D & HM & B) eps He. assert (P : 0 < eps / (M + 1)) by (apply Rdiv_lt_0_compat; lra).
  exists (Rmin d (eps / (M + 1))). split; [apply Rmin_pos; lra|]. intros r Hr.
  assert (K : r < d /\ r < eps / (M + 1)) by (split; eapply Rlt_le_trans; try apply Hr; [apply Rmin_l|apply Rmin_r]).
  eapply Rle_lt_trans; [apply B; lra|]. simpl. rewrite Rmult_1_r. apply Rle_lt_trans with ((M + 1) * r); [nra|].
  apply Rlt_le_trans with ((M + 1) * (eps / (M + 1))); [apply Rmult_lt_compat_l; lra|]. right. field. lra.
Qed.
Lemma lim0_ext_near f g l d : 0 < d -> (forall r, 0 < r < d -> f r = g r) -> lim0 f l -> lim0 g l.
Proof.
  intros Hd E L eps He. destruct (L eps He) as (d' & D & B). exists (Rmin d d'). split; [apply Rmin_pos; lra|]. intros r Hr.
  assert (K : r < d /\ r < d') by (split; eapply Rlt_le_trans; try apply Hr; [apply Rmin_l|apply Rmin_r]). rewrite <- E by lra. apply B. lra.
Qed.
Lemma lim0_plus f g l m : lim0 f l -> lim0 g m -> lim0 (fun r => f r + g r) (l + m).
Proof.
  intros A B eps He. destruct (A (eps / 2) ltac:(lra)) as (d & D & P). destruct (B (eps / 2) ltac:(lra)) as (d' & D' & P').
  exists (Rmin d d'). split; [apply Rmin_pos; lra|]. intros r Hr. assert (K : r < d /\ r < d') by (split; eapply Rlt_le_trans; try apply Hr; [apply Rmin_l|apply Rmin_r]).
  specialize (P r ltac:(lra)). specialize (P' r ltac:(lra)). replace (f r + g r - (l + m)) with ((f r - l) + (g r - m)) by ring.
  eapply Rle_lt_trans; [apply Rabs_triang|]. lra.
Qed.
Lemma lim0_const c : lim0 (fun _ => c) c.
Proof. intros eps He. exists 1. split; [lra|]. intros. rewrite Rminus_eq_0, Rabs_R0. auto. Qed.
Lemma lim0_scale c f l : lim0 f l -> lim0 (fun r => c * f r) (c * l).
Proof.
  intros A eps He. assert (0 <= Rabs c) by apply Rabs_pos. assert (P : 0 < eps / (Rabs c + 1)) by (apply Rdiv_lt_0_compat; lra). destruct (A _ P) as (d & D & B). exists d. split; auto.
  intros r Hr. specialize (B r Hr). replace (c * f r - c * l) with (c * (f r - l)) by ring. rewrite Rabs_mult.
  apply Rle_lt_trans with ((Rabs c + 1) * Rabs (f r - l)); [assert (0 <= Rabs (f r - l)) by apply Rabs_pos; nra|].
  apply Rlt_le_trans with ((Rabs c + 1) * (eps / (Rabs c + 1))); [apply Rmult_lt_compat_l; lra|]. right. field. lra.
Qed.
Lemma lim0_comp_cont f l g : lim0 f l -> continuity_pt g l -> lim0 (fun r => g (f r)) (g l).
Proof.
  intros A C eps He. destruct (C eps He) as (a & Ha & K). destruct (A a Ha) as (d & D & B). exists d. split; auto. intros r Hr. specialize (B r Hr).
  destruct (Req_dec (f r) l) as [->|Ne]; [rewrite Rminus_eq_0, Rabs_R0; auto|]. apply K. split; [split; [exact I|auto]|exact B].
Qed.
Lemma lim0_comp f l al : lim0 f l -> lim0 al 0 -> (exists e, 0 < e /\ forall x, 0 < x < e -> 0 < al x) -> lim0 (fun x => f (al x)) l.
Proof.
  intros A B (e & He & P) eps Heps. destruct (A eps Heps) as (d & D & K). destruct (B d D) as (d' & D' & K'). exists (Rmin e d'). split; [apply Rmin_pos; lra|].
  intros x Hx. assert (x < e /\ x < d') by (split; eapply Rlt_le_trans; try apply Hx; [apply Rmin_l|apply Rmin_r]).
  apply K. split; [apply P; lra|]. specialize (K' x ltac:(lra)). rewrite Rminus_0_r in K'. apply Rabs_def2 in K'. lra.
Qed.

(** ** the radius at which the distance is eps *)
Section Radius.
  Variables (q al : R -> R) (a b e0 : R).
  Hypothesis Ha : 0 < a.
  Hypothesis Jq : jet q a b.
  Hypothesis He0 : 0 < e0.
  Hypothesis Pal : forall x, 0 < x < e0 -> 0 < al x.
  Hypothesis Eal : forall x, 0 < x < e0 -> al x * q (al x) = x.
  Hypothesis Lal : lim0 al 0.
  Lemma al_near : forall d, 0 < d -> exists e, 0 < e /\ e <= e0 /\ forall x, 0 < x < e -> 0 < al x < d.
  Proof.
    intros d Hd. destruct (Lal d Hd) as (e & E & B). exists (Rmin e e0). split; [apply Rmin_pos; auto|]. split; [apply Rmin_r|]. intros x Hx.
    assert (K : x < e /\ x < e0) by (split; eapply Rlt_le_trans; try apply Hx; [apply Rmin_l|apply Rmin_r]).
    specialize (B x ltac:(lra)). rewrite Rminus_0_r in B. apply Rabs_def2 in B. split; [apply Pal; lra|lra].
  Qed.
  Lemma al_O1 : Ord 1 al.
  Proof.
    destruct (jet_away _ _ _ Jq ltac:(lra)) as (d & D & W). destruct (al_near d D) as (e & E & E0 & N).
    exists e, (2 / a). repeat split; auto. { apply Rlt_le, Rdiv_lt_0_compat; lra. } intros x Hx. destruct (N x Hx) as [P Q]. destruct (W (al x) ltac:(lra)) as [B S].
    assert (EQ := Eal x ltac:(lra)). assert (Pq : 0 < q (al x)) by nra. rewrite Rabs_pos_eq in B by lra. rewrite (Rabs_pos_eq (q _)) in B by lra.
    rewrite Rabs_pos_eq by lra. simpl. rewrite Rmult_1_r. apply Rmult_le_reg_r with (a / 2); [lra|]. replace (2 / a * x * (a / 2)) with x by (field; lra).
    rewrite <- EQ at 2. apply Rmult_le_compat_l; lra.
  Qed.
  Lemma Ord_comp k f : Ord k f -> Ord k (fun x => f (al x)).
  Proof.
    intros (d & M & D & HM & B). destruct (al_near d D) as (e & E & E0 & N). destruct al_O1 as (e' & M' & E' & HM' & B').
    exists (Rmin e e'), (M * M' ^ k). repeat split; [apply Rmin_pos; lra|apply Rmult_le_pos; [auto|apply pow_le; auto]|]. intros x Hx.
    assert (K : x < e /\ x < e') by (split; eapply Rlt_le_trans; try apply Hx; [apply Rmin_l|apply Rmin_r]).
    destruct (N x ltac:(lra)) as [P Q]. specialize (B' x ltac:(lra)). rewrite Rabs_pos_eq in B' by lra. simpl in B'. rewrite Rmult_1_r in B'.
    eapply Rle_trans; [apply B; lra|]. rewrite Rmult_assoc, <- Rpow_mult_distr. apply Rmult_le_compat_l; auto. apply pow_incr. lra.
  Qed.
  (** the reversion of the series: alpha = eps/a - b/a^3 eps^2 + O(eps^3) *)
  Lemma al_jet : jet (fun x => al x / x) (1 / a) (- b / a ^ 3).
  Proof.
    assert (JI := jet_inv _ _ _ (Rgt_not_eq _ _ Ha) Jq). destruct (jet_away _ _ _ Jq ltac:(lra)) as (d & D & W). destruct (al_near d D) as (e & E & E0 & N).
    assert (EQ : forall x, 0 < x < e -> al x / x = / q (al x)).
    { intros x Hx. destruct (N x Hx) as [P Q]. destruct (W (al x) ltac:(lra)) as [B S]. assert (K := Eal x ltac:(lra)). assert (q (al x) <> 0) by (intros Z; rewrite Z in S; lra).
      apply (Rmult_eq_reg_r (q (al x))); auto. rewrite Rinv_l by auto. unfold Rdiv. rewrite Rmult_assoc, (Rmult_comm (/ x)), <- Rmult_assoc, K. field. lra. }
    (* first order *)
    assert (O1 : Ord 1 (fun x => al x / x - 1 / a)).
    { apply (Ord_eq_near _ (fun x => / q (al x) - / a) _ e); auto. - intros x Hx. rewrite EQ by auto. unfold Rdiv. ring.
      - apply (Ord_comp 1 (fun r => / q r - / a)). apply (jet_O1 _ _ _ JI). }
    apply (Ord_eq_near _ (fun x => (/ q (al x) - (/ a + - b / a ^ 2 * al x)) + - b / a ^ 2 * (x * (al x / x - 1 / a))) _ e); auto.
    - intros x Hx. rewrite <- EQ by auto. field. lra.
    - apply Ord_plus.
      + apply (Ord_comp 2 (fun r => / q r - (/ a + - b / a ^ 2 * r))). exact JI.
      + apply Ord_scale. apply (Ord_mult 1 1); [apply Ord_id|exact O1].
  Qed.
End Radius.

(** ** The finite part of F2 / rho^2 + F1 / rho *)
Lemma RInt_pole (F2 F1 a b : R) : 0 < a -> 0 < b ->
  is_RInt (fun r : R => F2 / r ^ 2 + F1 / r) a b (F2 * (1 / a - 1 / b) + F1 * (ln b - ln a)).
Proof.
  intros Pa Pb. replace (F2 * (1 / a - 1 / b) + F1 * (ln b - ln a)) with (minus (- F2 / b + F1 * ln b) (- F2 / a + F1 * ln a)).
  2: { unfold minus, plus, opp; simpl. field. lra. }
  apply (is_RInt_derive (fun r : R => - F2 / r + F1 * ln r)).
  - intros x Hx. assert (0 < x). { apply Rlt_le_trans with (Rmin a b); [apply Rmin_pos; auto|tauto]. } auto_derive; [split; [lra|auto]|]. field. lra.
  - intros x Hx. assert (0 < x). { apply Rlt_le_trans with (Rmin a b); [apply Rmin_pos; auto|tauto]. }
    apply continuity_pt_filterlim. apply continuity_pt_plus; apply continuity_pt_mult;
      try (apply continuity_pt_const; intros ? ?; reflexivity); apply continuity_pt_inv; try lra.
    + apply derivable_continuous_pt. apply derivable_pt_pow.
    + apply pow_nonzero. lra.
    + apply derivable_continuous_pt, derivable_pt_id.
Qed.
Lemma finite_part (F2 F1 be ga rh : R) (al : R -> R) e0 : 0 < be -> 0 < rh -> 0 < e0 -> (forall x, 0 < x < e0 -> 0 < al x) ->
  jet (fun x => al x / x) be ga ->
  lim0 (fun x => RInt (fun r => F2 / r ^ 2 + F1 / r) (al x) rh - F2 / (be * x) + F1 * ln x)
       (- F2 * (ga / be ^ 2 + 1 / rh) + F1 * ln (Rabs (rh / be))).
Proof.
  intros Pb Pr He0 Pal J. assert (JI := jet_inv _ _ _ (Rgt_not_eq _ _ Pb) J).
  assert (L1 : lim0 (fun x => al x / x) be) by (apply lim0_Ord1, (jet_O1 _ _ _ J)).
  assert (L2 : lim0 (fun x => ln (al x / x)) (ln be)).
  { apply lim0_comp_cont; auto. apply derivable_continuous_pt. exists (/ be). apply derivable_pt_lim_ln. auto. }
  assert (L3 : lim0 (fun x => (/ (al x / x) - / be) / x) (- ga / be ^ 2)).
  { apply lim0_Ord1. apply (Ord_eq_near _ (fun x => (/ (al x / x) - (/ be + - ga / be ^ 2 * x)) / x ^ 1) _ e0); [lra| |].
    - intros x Hx. assert (P := Pal x Hx). field. lra.
    - apply (Ord_div 1 1). exact JI. }
  replace (- F2 * (ga / be ^ 2 + 1 / rh) + F1 * ln (Rabs (rh / be))) with ((F2 * (- ga / be ^ 2) + (- F1) * ln be) + (- F2 / rh + F1 * ln rh)).
  2: { rewrite Rabs_pos_eq by (apply Rlt_le, Rdiv_lt_0_compat; lra). rewrite ln_div by auto. field. lra. }
  eapply (lim0_ext_near _ _ _ e0 He0); [|apply lim0_plus; [apply lim0_plus; [apply (lim0_scale F2 _ _ L3)|apply (lim0_scale (- F1) _ _ L2)]|apply lim0_const]].
  intros x Hx. assert (P := Pal x Hx). cbv beta. rewrite (is_RInt_unique _ _ _ _ (RInt_pole F2 F1 (al x) rh P Pr)). rewrite ln_div by lra. field. lra.
Qed.

(** ** the remainder is integrable up to the singular point *)
Lemma RInt_lim_exists (g : R -> R) rh : 0 < rh -> Ord 0 g -> (forall a, 0 < a < rh -> ex_RInt g a rh) -> exists L, lim0 (fun a => RInt g a rh) L.
Proof.
  intros Pr (d & M & D & HM & B) EX.
  assert (SUB : forall a b, 0 < a -> a <= b -> b < rh -> ex_RInt g a b /\ RInt g a rh = RInt g a b + RInt g b rh).
  { intros a b Pa Hab Hb. assert (E1 : ex_RInt g a rh) by (apply EX; lra). assert (E2 : ex_RInt g b rh) by (apply EX; lra).
    assert (E3 : ex_RInt g a b) by (apply (ex_RInt_Chasles_1 g a b rh); [lra|exact E1]). split; auto.
    symmetry. apply (RInt_Chasles g a b rh E3 E2). }
  assert (CAU : forall a b, 0 < a -> a <= b -> b < d -> b < rh -> Rabs (RInt g a rh - RInt g b rh) <= M * (b - a)).
  { intros a b Pa Hab Hbd Hb. destruct (SUB a b Pa Hab Hb) as [E ->]. assert (RG : forall x y : R, x + y - y = x) by (intros; ring). rewrite RG.
    rewrite Rmult_comm. apply abs_RInt_le_const; auto. intros x Hx. specialize (B x ltac:(lra)). simpl in B. lra. }
  assert (K : exists y : R, filterlim (fun a => RInt g a rh) (at_right 0) (locally y)).
  { apply (filterlim_locally_cauchy (F := at_right 0) (fun a => RInt g a rh)). intros eps.
    set (m := Rmin (Rmin d rh) (eps / (M + 1))). assert (Pe : 0 < eps / (M + 1)) by (apply Rdiv_lt_0_compat; [apply cond_pos|lra]).
    assert (Pm : 0 < m) by (unfold m; repeat apply Rmin_pos; auto).
    assert (Lm : m <= d /\ m <= rh /\ m <= eps / (M + 1)).
    { unfold m. repeat split; [eapply Rle_trans; [apply Rmin_l|apply Rmin_l]|eapply Rle_trans; [apply Rmin_l|apply Rmin_r]|apply Rmin_r]. }
    exists (fun a => 0 < a < m). split.
    - exists (mkposreal m Pm). intros y Hy Py. unfold ball in Hy; simpl in Hy. unfold AbsRing_ball, abs, minus, plus, opp in Hy; simpl in Hy. rewrite Ropp_0, Rplus_0_r in Hy.
      apply Rabs_def2 in Hy. lra.
    - assert (Q : forall a b, 0 < a < m -> 0 < b < m -> a <= b -> Rabs (RInt g a rh - RInt g b rh) < eps).
      { intros a b Ha Hb Hab. eapply Rle_lt_trans; [apply CAU; lra|]. apply Rle_lt_trans with ((M + 1) * b); [nra|].
        apply Rlt_le_trans with ((M + 1) * (eps / (M + 1))); [apply Rmult_lt_compat_l; lra|]. right. field. lra. }
      intros a b Ha Hb. unfold ball; simpl. unfold AbsRing_ball, abs, minus, plus, opp; simpl. fold (RInt g b rh - RInt g a rh).
      change (Rabs (RInt g b rh - RInt g a rh) < eps). destruct (Rle_dec a b); [rewrite Rabs_minus_sym|]; apply Q; auto; lra. }
  destruct K as [y Hy]. exists y. intros eps He. destruct (proj1 (filterlim_locally _ _) Hy (mkposreal eps He)) as [dd DD].
  exists dd. split; [apply cond_pos|]. intros r Hr. apply DD; [|lra]. unfold ball; simpl. unfold AbsRing_ball, abs, minus, plus, opp; simpl.
  rewrite Ropp_0, Rplus_0_r, Rabs_pos_eq by lra. lra.
Qed.
(** an integrand F = g + F2/rho^2 + F1/rho with bounded g *)
Lemma finite_total (F g al : R -> R) (F2 F1 be ga rh e0 L : R) : 0 < be -> 0 < rh -> 0 < e0 -> (forall x, 0 < x < e0 -> 0 < al x) -> lim0 al 0 ->
  jet (fun x => al x / x) be ga -> (forall r, 0 < r -> g r = F r - F2 / r ^ 2 - F1 / r) -> (forall a, 0 < a < rh -> ex_RInt g a rh) ->
  lim0 (fun a => RInt g a rh) L ->
  lim0 (fun x => RInt F (al x) rh - F2 / (be * x) + F1 * ln x) (L + F1 * ln (Rabs (rh / be)) + - F2 * (ga / be ^ 2 + 1 / rh)).
Proof.
  intros Pb Pr He0 Pal Lal J E EX LL. assert (FP := finite_part F2 F1 be ga rh al e0 Pb Pr He0 Pal J).
  destruct (Lal rh Pr) as (e1 & He1 & B1). set (e := Rmin e0 e1). assert (Pe : 0 < e) by (apply Rmin_pos; auto).
  assert (LG : lim0 (fun x => RInt g (al x) rh) L). { apply (lim0_comp (fun a => RInt g a rh) L al LL Lal). exists e0. auto. }
  assert (T := lim0_plus _ _ _ _ LG FP).
  replace (L + F1 * ln (Rabs (rh / be)) + - F2 * (ga / be ^ 2 + 1 / rh)) with (L + (- F2 * (ga / be ^ 2 + 1 / rh) + F1 * ln (Rabs (rh / be)))) by ring.
  apply (lim0_ext_near _ _ _ e Pe) with (2 := T). intros x Hx.
  assert (K : x < e0 /\ x < e1) by (split; eapply Rlt_le_trans; try apply Hx; [apply Rmin_l|apply Rmin_r]).
  assert (P := Pal x ltac:(lra)). specialize (B1 x ltac:(lra)). rewrite Rminus_0_r in B1. apply Rabs_def2 in B1.
  assert (IP := RInt_pole F2 F1 (al x) rh P Pr). assert (EP : ex_RInt (fun r => F2 / r ^ 2 + F1 / r) (al x) rh) by (eexists; exact IP).
  assert (EQ : RInt F (al x) rh = RInt g (al x) rh + RInt (fun r => F2 / r ^ 2 + F1 / r) (al x) rh).
  { assert (PP := RInt_plus g (fun r => F2 / r ^ 2 + F1 / r) (al x) rh ltac:(apply EX; lra) EP). unfold plus in PP at 2; simpl in PP. etransitivity; [|exact PP].
    apply RInt_ext. intros r Hr. rewrite Rmin_left, Rmax_right in Hr by lra. rewrite E by lra. unfold plus; simpl. field. lra. }
  rewrite EQ. ring.
Qed.
