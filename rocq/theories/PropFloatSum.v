(** * C94: accuracy of an expansion after a whole history of calls *)
From Coq Require Import ZArith Reals List Lia Lra.
From Flocq Require Import Core.
From Verif Require LibSum.
From Verif Require Import ModelLegendre ModelLegTable ModelLegApi ModelExp SpecExp ModelFmm ModelFloat SpecFloat ProofsFloat ModelFloatExp ModelFloatExp2 SpecFloatExp ProofsFloatExp PropFloatExp2 PropFloatExp3 PropFloatExp4 PropFloatExp5 SpecFloatTrans ProofsFloatTrans ProofsFloatTrans2 PropFloatTrans SpecFloatDip PropFloatDip.
Import ListNotations.
Local Open Scope R_scope.

(** [value] and [size] are what one call adds to the coefficients of an expansion about [center], and the size of its terms, for the spherical coordinates
    and Legendre values that the program computes *)
Definition nothing_added (value size : nat -> nat -> R * R) : Prop := forall n m, value n m = (0, 0) /\ size n m = (0, 0).
Definition m_contribution (M : fmath) (center : pt) (k : m_call) (value size : nat -> nat -> R * R) : Prop :=
  match k with
  | MCharge q x => (q = 0 /\ nothing_added value size) \/
      (q <> 0 /\ exists rho c beta, fspher M (frelative M x center) = Some (rho, c, beta) /\ forall n m, let r := legendre M n m c * fpow M rho (Z.of_nat n) * q in
        value n m = cterm (wave M (- Z.of_nat m) beta) (1, 0) r /\ size n m = csize (wave M (- Z.of_nat m) beta) (1, 0) r)
  | MDipole q x v => (q = 0 /\ nothing_added value size) \/
      (q <> 0 /\ exists rho c s beta dRho dAlpha dBeta, slopes M (frelative M x center) v rho c s beta dRho dAlpha dBeta /\
        forall n m, value n m = dipole_value M n m rho c s beta dRho dAlpha dBeta q /\ size n m = dipole_size M n m rho c s beta dRho dAlpha dBeta q)
  | MScaled other sol => ((e_zero other = true \/ sol = 0) /\ nothing_added value size) \/
      (e_zero other = false /\ sol <> 0 /\ forall n m, value n m = cterm (coeff other n m) (1, 0) sol /\ size n m = csize (coeff other n m) (1, 0) sol)
  | MTranslate other => (e_zero other = true /\ nothing_added value size) \/
      (e_zero other = false /\ ffar M (e_center other) center = Some false /\ forall n m, value n m = coeff other n m /\ size n m = abs2 (coeff other n m)) \/
      (e_zero other = false /\ ffar M (e_center other) center = Some true /\ exists rho c beta, fspher M (frelative M (e_center other) center) = Some (rho, c, beta) /\
        forall n m, value n m = multipole_terms cterm M other rho c beta n m /\ size n m = multipole_terms csize M other rho c beta n m)
  end.
Definition l_contribution (M : fmath) (center : pt) (k : l_call) (value size : nat -> nat -> R * R) : Prop :=
  match k with
  | LTranslate other => (e_zero other = true /\ nothing_added value size) \/
      (e_zero other = false /\ ffar M (e_center other) center = Some false /\ forall n m, value n m = coeff other n m /\ size n m = abs2 (coeff other n m)) \/
      (e_zero other = false /\ ffar M (e_center other) center = Some true /\ exists rho c beta, fspher M (frelative M (e_center other) center) = Some (rho, c, beta) /\
        forall n m, value n m = local_terms cterm M other rho c beta n m /\ size n m = local_terms csize M other rho c beta n m)
  | LConvert other => (e_zero other = true /\ nothing_added value size) \/
      (e_zero other = false /\ exists rho c beta, fspher M (frelative M (e_center other) center) = Some (rho, c, beta) /\
        forall n m, value n m = conversion_terms cterm M other rho c beta n m /\ size n m = conversion_terms csize M other rho c beta n m)
  end.
(** roundings of one call on expansions of order p *)
Definition roundings (p : nat) : nat := (p + 1) ^ 2 + 8 * p + 21.

Lemma m_shape M pow_i e k e' : fm_apply M pow_i e k = Some e' -> e_p e' = e_p e /\ e_center e' = e_center e.
Proof.
  intros E. destruct k as [q x|q x v|o a|o]; cbn [fm_apply] in E.
  - unfold fm_charge in E. destruct (Req_EM_T q 0); [inversion E; auto|]. unfold fnonzero in E. destruct (fadd_charge _ _ _ _ _ _); cbn in E; [|discriminate E]. inversion E. cbn. auto.
  - unfold fm_dipole in E. destruct (Req_EM_T q 0); [inversion E; auto|]. unfold fnonzero in E. destruct (fadd_normder _ _ _ _ _ _ _); cbn in E; [|discriminate E]. inversion E. cbn. auto.
  - unfold fm_add_scaled in E. destruct (_ || _)%bool; [inversion E; auto|]. unfold fnonzero in E. destruct (fadd_loop _ _ _ _); cbn in E; [|discriminate E]. inversion E. cbn. auto.
  - unfold fm_translate in E. destruct (e_zero o); [inversion E; auto|]. unfold fnonzero in E. match type of E with lbind ?a _ = _ => destruct a end; cbn in E; [|discriminate E]. inversion E. cbn. auto.
Qed.
Lemma l_shape M pow_i e k e' : fl_apply M pow_i e k = Some e' -> e_p e' = e_p e /\ e_center e' = e_center e.
Proof.
  intros E. destruct k as [o|o]; cbn [fl_apply] in E.
  - unfold fl_translate in E. destruct (e_zero o); [inversion E; auto|]. unfold fnonzero in E. match type of E with lbind ?a _ = _ => destruct a end; cbn in E; [|discriminate E]. inversion E. cbn. auto.
  - unfold fl_convert in E. destruct (e_zero o); [inversion E; auto|]. unfold fnonzero in E. match type of E with lbind ?a _ = _ => destruct a end; cbn in E; [|discriminate E]. inversion E. cbn. auto.
Qed.

Section Sum.
  Variable u : R.
  Variable M : fmath.
  Variable pow_i : Z -> R.
  Hypothesis HR : relative_math u M pow_i.
  Lemma u_range : 0 <= u < 1. Proof. destruct HR as ((A & _) & _). exact A. Qed.
  Lemma gam_le j k : (j <= k)%nat -> gam u j <= gam u k.
  Proof. intros L. unfold gam. apply Rplus_le_compat_r. apply Rle_pow; [|exact L]. assert (Q := u_range). apply (Rmult_le_reg_l (1 - u)); [lra|]. rewrite Rinv_r by lra. lra. Qed.
  Lemma gam_pos k : 0 <= gam u k. Proof. eapply Rle_trans; [|apply (gam_le 0); lia]. unfold gam. simpl. lra. Qed.
  Lemma gam_add j k : gam u (j + k) = gam u j + gam u k * (1 + gam u j).
  Proof. unfold gam. rewrite pow_add. ring. Qed.
  (** one more addition: the error of what was there grows with it *)
  Lemma step_real j k x X xh d D y : Rabs x <= X -> 0 <= D -> Rabs (xh - x) <= gam u j * X -> Rabs (y - (xh + d)) <= gam u k * (Rabs xh + D) ->
    Rabs (y - (x + d)) <= gam u (j + k) * (X + D).
  Proof.
    intros Hx Hd H1 H2. assert (X0 : 0 <= X) by (eapply Rle_trans; [apply Rabs_pos|exact Hx]). assert (Gj := gam_pos j). assert (Gk := gam_pos k). assert (Gm := gam_le k (j + k) ltac:(lia)).
    assert (Hh : Rabs xh <= X + gam u j * X) by (replace xh with (x + (xh - x)) by ring; eapply Rle_trans; [apply Rabs_triang|lra]).
    replace (y - (x + d)) with ((y - (xh + d)) + (xh - x)) by ring. eapply Rle_trans; [apply Rabs_triang|].
    assert (Q1 : gam u k * (Rabs xh + D) <= gam u k * (X + gam u j * X) + gam u k * D) by (rewrite <- Rmult_plus_distr_l; apply Rmult_le_compat_l; lra).
    assert (Q2 : gam u k * D <= gam u (j + k) * D) by (apply Rmult_le_compat_r; lra).
    replace (gam u (j + k) * (X + D)) with (gam u j * X + gam u k * (X + gam u j * X) + gam u (j + k) * D) by (rewrite gam_add; ring). lra.
  Qed.
  Lemma cterm_size w a b s t r : Rabs a <= Rabs s -> Rabs b <= Rabs t ->
    (0 <= fst (csize w (s, t) r) /\ 0 <= snd (csize w (s, t) r)) /\ Rabs (fst (cterm w (a, b) r)) <= fst (csize w (s, t) r) /\ Rabs (snd (cterm w (a, b) r)) <= snd (csize w (s, t) r).
  Proof.
    intros Ha Hb. unfold csize, cterm. cbn [fst snd].
    assert (Q : forall c d d', Rabs d <= Rabs d' -> Rabs (c * d) <= Rabs (c * d')) by (intros c d d' L; rewrite !Rabs_mult; apply Rmult_le_compat_l; [apply Rabs_pos|exact L]).
    repeat split; try (apply Rmult_le_pos; [apply Rplus_le_le_0_compat; apply Rabs_pos|apply Rabs_pos]); rewrite Rabs_mult; apply Rmult_le_compat_r; try apply Rabs_pos.
    - unfold Rminus. eapply Rle_trans; [apply Rabs_triang|]. rewrite Rabs_Ropp. apply Rplus_le_compat; apply Q; assumption.
    - eapply Rle_trans; [apply Rabs_triang|]. apply Rplus_le_compat; apply Q; assumption.
  Qed.
  Definition fits (v z : R * R) : Prop := (0 <= fst z /\ 0 <= snd z) /\ Rabs (fst v) <= fst z /\ Rabs (snd v) <= snd z.
  Lemma within_weak j k x X y : (j <= k)%nat -> 0 <= fst X -> 0 <= snd X -> within u j x X y -> within u k x X y.
  Proof. intros L P Q (A & B). assert (G := gam_le j k L). split; (eapply Rle_trans; [eassumption|]; apply Rmult_le_compat_r; assumption). Qed.
  Lemma nothing N e n m : within u N (rplus2 (coeff e n m) (0, 0)) (rplus2 (abs2 (coeff e n m)) (0, 0)) (coeff e n m).
  Proof.
    assert (G := gam_pos N). unfold within, rplus2, abs2. cbn [fst snd]. rewrite !Rplus_0_r, !Rminus_diag_eq, Rabs_R0 by reflexivity. split; apply Rmult_le_pos; try exact G; apply Rabs_pos.
  Qed.
  Lemma fits0 : fits (0, 0) (0, 0). Proof. unfold fits. cbn [fst snd]. rewrite Rabs_R0. lra. Qed.
  Lemma fits_sum {T} (l : list T) f g : (forall a, fits (f a) (g a)) -> fits (csum l f) (csum l g).
  Proof.
    intros Hf. unfold csum. induction l as [|a l IH]; [apply fits0|]. unfold fits, LibSum.suml in *. cbn [fold_right fst snd] in *. destruct (Hf a) as ((F1 & F2) & F3 & F4). destruct IH as ((G1 & G2) & G3 & G4).
    repeat split; try lra; (eapply Rle_trans; [apply Rabs_triang|lra]).
  Qed.
  Lemma fits_term a w r : fits (cterm a w r) (csize a w r).
  Proof. destruct w as [w1 w2]. apply cterm_size; apply Rle_refl. Qed.
  Lemma fits_self a : fits a (abs2 a). Proof. unfold fits, abs2. cbn [fst snd]. split; [split; apply Rabs_pos|split; apply Rle_refl]. Qed.
  Definition good (N : nat) (e e' : expansion) (v z : nat -> nat -> R * R) : Prop := forall n m, (m <= n <= e_p e)%nat ->
    fits (v n m) (z n m) /\ within u N (rplus2 (coeff e n m) (v n m)) (rplus2 (abs2 (coeff e n m)) (z n m)) (coeff e' n m).
  Lemma good_nothing N e e' : (forall n m, coeff e' n m = coeff e n m) -> good N e e' (fun _ _ => (0, 0)) (fun _ _ => (0, 0)).
  Proof. intros Q n m _. split; [apply fits0|]. rewrite Q. apply nothing. Qed.
  Lemma good_weak N e e' j v z : (j <= N)%nat -> (forall n m, fits (v n m) (z n m)) ->
    (forall n m, (m <= n <= e_p e)%nat -> within u j (rplus2 (coeff e n m) (v n m)) (rplus2 (abs2 (coeff e n m)) (z n m)) (coeff e' n m)) -> good N e e' v z.
  Proof.
    intros L F W n m Q. assert (Ft := F n m). split; [exact Ft|]. apply (within_weak j); [exact L| | |exact (W n m Q)]; destruct Ft as ((F1 & F2) & _); unfold rplus2, abs2; cbn [fst snd]; apply Rplus_le_le_0_compat; auto; apply Rabs_pos.
  Qed.
  Lemma m_step e k e' : (e_p e <= 20)%nat -> of_order (e_p e) k -> fm_apply M pow_i e k = Some e' -> exists v z, m_contribution M (e_center e) k v z /\ good (roundings (e_p e)) e e' v z.
  Proof.
    intros L20 Ho E. assert (R8 : (21 <= roundings (e_p e))%nat) by (unfold roundings; lia). destruct k as [q x|q x w|o a|o]; cbn [fm_apply m_contribution of_order] in *.
    - destruct (Req_EM_T q 0) as [Z|Z].
      + exists (fun _ _ => (0, 0)), (fun _ _ => (0, 0)). split; [left; split; [exact Z|split; reflexivity]|]. apply good_nothing. intros n m. unfold fm_charge in E. destruct (Req_EM_T q 0); [|contradiction]. inversion E; subst. reflexivity.
      + destruct (fspher M (frelative M x (e_center e))) as [[[rho c] beta]|] eqn:Sp.
        2:{ exfalso. unfold fm_charge, fadd_charge in E. destruct (Req_EM_T q 0); [contradiction|]. rewrite Sp in E. discriminate E. }
        exists (fun n m => cterm (wave M (- Z.of_nat m) beta) (1, 0) (legendre M n m c * fpow M rho (Z.of_nat n) * q)), (fun n m => csize (wave M (- Z.of_nat m) beta) (1, 0) (legendre M n m c * fpow M rho (Z.of_nat n) * q)).
        split; [right; split; [exact Z|]; exists rho, c, beta; split; [reflexivity|]; intros; cbv zeta; split; reflexivity|].
        apply (good_weak _ _ _ 4); [lia|intros; apply fits_term|]. intros n m L. exact (C94_charge u M pow_i e q x e' rho c beta HR Z Sp E n m L).
    - destruct (Req_EM_T q 0) as [Z|Z].
      + exists (fun _ _ => (0, 0)), (fun _ _ => (0, 0)). split; [left; split; [exact Z|split; reflexivity]|]. apply good_nothing. intros n m. unfold fm_dipole in E. destruct (Req_EM_T q 0); [|contradiction]. inversion E; subst. reflexivity.
      + destruct (C94_dipole u M pow_i e q x w e' HR Z E) as (rho & c & s & beta & a & b & g & Sl & B).
        exists (fun n m => dipole_value M n m rho c s beta a b g q), (fun n m => dipole_size M n m rho c s beta a b g q).
        split; [right; split; [exact Z|]; exists rho, c, s, beta, a, b, g; split; [exact Sl|]; intros; split; reflexivity|]. apply (good_weak _ _ _ 8); [lia| |exact B]. intros n m.
        unfold dipole_value, dipole_size. cbv zeta. apply cterm_size; [|apply Rle_refl]. unfold Rminus. eapply Rle_trans; [apply Rabs_triang|]. rewrite Rabs_Ropp. apply Rle_abs.
    - destruct (e_zero o) eqn:Zo; [|destruct (Req_EM_T a 0) as [Z|Z]].
      + exists (fun _ _ => (0, 0)), (fun _ _ => (0, 0)). split; [left; split; [left; reflexivity|split; reflexivity]|]. apply good_nothing. intros n m. unfold fm_add_scaled in E. rewrite Zo in E. cbn [orb] in E. inversion E; subst. reflexivity.
      + exists (fun _ _ => (0, 0)), (fun _ _ => (0, 0)). split; [left; split; [right; exact Z|split; reflexivity]|]. apply good_nothing. intros n m. unfold fm_add_scaled in E. rewrite Zo in E. destruct (Req_EM_T a 0); [|contradiction]. cbn [orb] in E. inversion E; subst. reflexivity.
      + exists (fun n m => cterm (coeff o n m) (1, 0) a), (fun n m => csize (coeff o n m) (1, 0) a). split; [right; split; [reflexivity|]; split; [exact Z|]; intros; split; reflexivity|].
        apply (good_weak _ _ _ 2); [lia|intros; apply fits_term|]. intros n m L. exact (C94_scaled_sum u M pow_i e o a e' HR Ho Zo Z E n m L).
    - destruct (e_zero o) eqn:Zo.
      + exists (fun _ _ => (0, 0)), (fun _ _ => (0, 0)). split; [left; split; [reflexivity|split; reflexivity]|]. apply good_nothing. intros n m. unfold fm_translate in E. rewrite Zo in E. inversion E; subst. reflexivity.
      + assert (E0 := E). unfold fm_translate in E0. rewrite Zo in E0. unfold fnonzero in E0. destruct (ffar M (e_center o) (e_center e)) as [[|]|] eqn:Fa; cbn [lbind] in E0; [| |discriminate E0].
        * destruct (fspher M (frelative M (e_center o) (e_center e))) as [[[rho c] beta]|] eqn:Sp; cbn [lbind] in E0; [|discriminate E0]. clear E0.
          exists (fun n m => multipole_terms cterm M o rho c beta n m), (fun n m => multipole_terms csize M o rho c beta n m). split; [right; right; split; [reflexivity|]; split; [reflexivity|]; exists rho, c, beta; split; [reflexivity|]; intros; split; reflexivity|].
          apply (good_weak _ _ _ (roundings (e_p e))); [lia|intros; apply fits_sum; intros; apply fits_term|]. intros n m L. exact (C94_multipole_translation u M pow_i e o e' rho c beta HR Ho L20 Zo Sp Fa E n m L).
        * clear E0. exists (fun n m => coeff o n m), (fun n m => abs2 (coeff o n m)). split; [right; left; split; [reflexivity|]; split; [reflexivity|]; intros; split; reflexivity|].
          destruct (C94_near_translation u M pow_i e o HR Ho Zo Fa) as (em & el & Em & _ & B). rewrite E in Em. inversion Em; subst em. apply (good_weak _ _ _ 1); [lia|intros; apply fits_self|]. intros n m L. apply B, L.
  Qed.
  Lemma l_step e k e' : (e_p e <= 10)%nat -> l_of_order (e_p e) k -> fl_apply M pow_i e k = Some e' -> exists v z, l_contribution M (e_center e) k v z /\ good (roundings (e_p e)) e e' v z.
  Proof.
    intros L10 Ho E. assert (R8 : (21 <= roundings (e_p e))%nat) by (unfold roundings; lia). destruct k as [o|o]; cbn [fl_apply l_contribution l_of_order] in *.
    - destruct (e_zero o) eqn:Zo.
      + exists (fun _ _ => (0, 0)), (fun _ _ => (0, 0)). split; [left; split; [reflexivity|split; reflexivity]|]. apply good_nothing. intros n m. unfold fl_translate in E. rewrite Zo in E. inversion E; subst. reflexivity.
      + assert (E0 := E). unfold fl_translate in E0. rewrite Zo in E0. unfold fnonzero in E0. destruct (ffar M (e_center o) (e_center e)) as [[|]|] eqn:Fa; cbn [lbind] in E0; [| |discriminate E0].
        * destruct (fspher M (frelative M (e_center o) (e_center e))) as [[[rho c] beta]|] eqn:Sp; cbn [lbind] in E0; [|discriminate E0]. clear E0.
          exists (fun n m => local_terms cterm M o rho c beta n m), (fun n m => local_terms csize M o rho c beta n m). split; [right; right; split; [reflexivity|]; split; [reflexivity|]; exists rho, c, beta; split; [reflexivity|]; intros; split; reflexivity|].
          apply (good_weak _ _ _ (roundings (e_p e))); [lia|intros; apply fits_sum; intros; apply fits_term|]. intros n m L. exact (C94_local_translation u M pow_i e o e' rho c beta HR Ho L10 Zo Sp Fa E n m L).
        * clear E0. exists (fun n m => coeff o n m), (fun n m => abs2 (coeff o n m)). split; [right; left; split; [reflexivity|]; split; [reflexivity|]; intros; split; reflexivity|].
          destruct (C94_near_translation u M pow_i e o HR Ho Zo Fa) as (em & el & _ & El & B). rewrite E in El. inversion El; subst el. apply (good_weak _ _ _ 1); [lia|intros; apply fits_self|]. intros n m L. destruct (B n m L) as (B1 & B2). rewrite B2. exact B1.
    - destruct (e_zero o) eqn:Zo.
      + exists (fun _ _ => (0, 0)), (fun _ _ => (0, 0)). split; [left; split; [reflexivity|split; reflexivity]|]. apply good_nothing. intros n m. unfold fl_convert in E. rewrite Zo in E. inversion E; subst. reflexivity.
      + assert (E0 := E). unfold fl_convert in E0. rewrite Zo in E0. unfold fnonzero in E0. destruct (fspher M (frelative M (e_center o) (e_center e))) as [[[rho c] beta]|] eqn:Sp; cbn [lbind] in E0; [|discriminate E0]. clear E0.
        exists (fun n m => conversion_terms cterm M o rho c beta n m), (fun n m => conversion_terms csize M o rho c beta n m). split; [right; split; [reflexivity|]; exists rho, c, beta; split; [reflexivity|]; intros; split; reflexivity|].
        apply (good_weak _ _ _ (roundings (e_p e))); [lia|intros; apply fits_sum; intros; apply fits_term|]. intros n m L. exact (C94_conversion u M pow_i e o e' rho c beta HR Ho L10 Zo Sp E n m L).
  Qed.
  Section Hist.
    Context {K : Type} (apply : expansion -> K -> option expansion) (part : pt -> K -> (nat -> nat -> R * R) -> (nat -> nat -> R * R) -> Prop) (ok : K -> Prop) (p : nat) (c : pt).
    Hypothesis shape : forall e k e', apply e k = Some e' -> e_p e' = e_p e /\ e_center e' = e_center e.
    Hypothesis one : forall e k e', e_p e = p -> ok k -> apply e k = Some e' -> exists v z, part (e_center e) k v z /\ good (roundings p) e e' v z.
    Lemma history e l e' : e_p e = p -> Forall ok l -> run apply e l = Some e' ->
      exists parts, Forall2 (fun k P => part (e_center e) k (fst P) (snd P)) l parts /\ forall n m, (m <= n <= p)%nat ->
      within u (length l * roundings p) (rplus2 (coeff e n m) (csum parts (fun P => fst P n m))) (rplus2 (abs2 (coeff e n m)) (csum parts (fun P => snd P n m))) (coeff e' n m).
    Proof.
      intros Hp Hl E.
      assert (X : e_p e' = e_p e /\ e_center e' = e_center e /\ exists parts, Forall2 (fun k P => part (e_center e) k (fst P) (snd P)) l parts /\
        forall n m, (m <= n <= p)%nat -> fits (csum parts (fun P => fst P n m)) (csum parts (fun P => snd P n m)) /\
        within u (length l * roundings p) (rplus2 (coeff e n m) (csum parts (fun P => fst P n m))) (rplus2 (abs2 (coeff e n m)) (csum parts (fun P => snd P n m))) (coeff e' n m)).
      2:{ destruct X as (_ & _ & parts & F & W). exists parts. split; [exact F|]. intros n m L. apply W, L. }
      revert e' E. induction l as [|s l IH] using rev_ind; intros e' E.
      - inversion E; subst e'. split; [reflexivity|]. split; [reflexivity|]. exists []. split; [constructor|]. intros n m _. unfold csum, LibSum.suml. cbn [fold_right fst snd length].
        split; [apply fits0|]. apply nothing.
      - apply Forall_app in Hl. destruct Hl as (Hl & Hs). inversion Hs; subst. unfold run in E. rewrite fold_left_app in E. cbn [fold_left] in E. fold (run apply e l) in E. destruct (run apply e l) as [e1|] eqn:E1; cbn [lbind] in E; [|discriminate E].
        destruct (IH Hl e1 eq_refl) as (P1 & C1 & parts & F & W). destruct (shape e1 s e' E) as (P2 & C2). destruct (one e1 s e' P1 ltac:(assumption) E) as (v & z & Cn & St).
        split; [congruence|]. split; [congruence|]. exists (parts ++ [(v, z)]). split; [apply Forall2_app; [exact F|]; constructor; [cbn [fst snd]; rewrite <- C1; exact Cn|constructor]|].
        intros n m L. destruct (W n m L) as (Ft & (W1 & W2)). destruct (St n m ltac:(rewrite P1; exact L)) as (((z1 & z2) & v1 & v2) & S1 & S2).
        assert (Cs : forall f : ((nat -> nat -> R * R) * (nat -> nat -> R * R)) -> R * R, csum (parts ++ [(v, z)]) f = rplus2 (csum parts f) (f (v, z))).
        { intros f. unfold csum, rplus2. rewrite !LibSum.suml_app. unfold LibSum.suml at 2 4. cbn [fold_right fst snd]. f_equal; ring. }
        rewrite !Cs. cbn [fst snd]. destruct Ft as ((f1 & f2) & g1 & g2). unfold fits, within, rplus2, abs2 in *. cbn [fst snd] in *.
        split; [repeat split; try lra; eapply Rle_trans; try apply Rabs_triang; lra|]. rewrite app_length. cbn [length]. replace ((length l + 1) * roundings (e_p e))%nat with (length l * roundings (e_p e) + roundings (e_p e))%nat by lia.
        split; rewrite <- !Rplus_assoc.
        + eapply step_real; [|exact z1|exact W1|exact S1]. eapply Rle_trans; [apply Rabs_triang|lra].
        + eapply step_real; [|exact z2|exact W2|exact S2]. eapply Rle_trans; [apply Rabs_triang|lra].
    Qed.
  End Hist.
End Sum.

(** After any history of calls that stays finite each coefficient is right up to the roundings of one call per call, relative to the size of all terms; the
    other expansions, and the spherical coordinates and Legendre values the program computes, are taken as they are. *)
Theorem C94_multipole_histories : forall u M pow_i calls e e', relative_math u M pow_i -> (e_p e <= 20)%nat -> Forall (of_order (e_p e)) calls -> run (fm_apply M pow_i) e calls = Some e' ->
  exists parts, Forall2 (fun k P => m_contribution M (e_center e) k (fst P) (snd P)) calls parts /\ forall n m, (m <= n <= e_p e)%nat ->
    within u (length calls * roundings (e_p e)) (rplus2 (coeff e n m) (csum parts (fun P => fst P n m))) (rplus2 (abs2 (coeff e n m)) (csum parts (fun P => snd P n m))) (coeff e' n m).
Proof.
  intros u M pow_i calls e e' HR L Ho E. apply (history u M pow_i HR (fm_apply M pow_i) (m_contribution M) (of_order (e_p e)) (e_p e) (m_shape M pow_i)); auto.
  intros e0 k e1 Hp Hk H1. rewrite <- Hp. apply (m_step u M pow_i HR); [rewrite Hp; exact L|rewrite Hp; exact Hk|exact H1].
Qed.
Theorem C94_local_histories : forall u M pow_i calls e e', relative_math u M pow_i -> (e_p e <= 10)%nat -> Forall (l_of_order (e_p e)) calls -> run (fl_apply M pow_i) e calls = Some e' ->
  exists parts, Forall2 (fun k P => l_contribution M (e_center e) k (fst P) (snd P)) calls parts /\ forall n m, (m <= n <= e_p e)%nat ->
    within u (length calls * roundings (e_p e)) (rplus2 (coeff e n m) (csum parts (fun P => fst P n m))) (rplus2 (abs2 (coeff e n m)) (csum parts (fun P => snd P n m))) (coeff e' n m).
Proof.
  intros u M pow_i calls e e' HR L Ho E. apply (history u M pow_i HR (fl_apply M pow_i) (l_contribution M) (l_of_order (e_p e)) (e_p e) (l_shape M pow_i)); auto.
  intros e0 k e1 Hp Hk H1. rewrite <- Hp. apply (l_step u M pow_i HR); [rewrite Hp; exact L|rewrite Hp; exact Hk|exact H1].
Qed.

Example C94_histories_met : let u := bpow radix2 (-53) in let other := Exp 4 (Pt 0 0 3) false (fun _ => (1, 1)) in
  let calls := [MCharge 1 off_point; MCharge 2 off_point; MTranslate other; MScaled other 3] in let lcalls := [LConvert other; LTranslate other] in
  relative_math u rounded_math re_pow_i /\ (exists e', run (fm_apply rounded_math re_pow_i) (fresh 4 origin) calls = Some e' /\ Forall (of_order 4) calls) /\
  (exists e', run (fl_apply rounded_math re_pow_i) (fresh 4 origin) lcalls = Some e' /\ Forall (l_of_order 4) lcalls).
Proof.
  intros u other calls lcalls. split.
  { apply (C94_in_double_precision rounded_math re_pow_i 0 rounded_math_ok rounded_signs). intros k _. rewrite Rminus_diag_eq, Rabs_R0 by reflexivity. apply Rmult_le_pos; [apply bpow_ge_0|apply Rabs_pos]. }
  assert (On : off_point <> origin) by (unfold off_point, origin; intros F; injection F; lra).
  assert (Fm : Forall (of_order 4) calls) by (repeat constructor). assert (Fl : Forall (l_of_order 4) lcalls) by (repeat constructor). split.
  - assert (Q := C91_which_histories_stay_finite rounded_math re_pow_i 4 origin calls rounded_math_ok rounded_signs ltac:(lia) origin_double Fm).
    destruct Q as (_ & Q). destruct Q as (e' & E); [|eauto]. apply Forall_cons; [right; exact On|]. apply Forall_cons; [right; exact On|]. repeat constructor.
  - assert (Q := C91_which_local_histories_stay_finite rounded_math re_pow_i 4 origin lcalls rounded_math_ok rounded_signs ltac:(lia) origin_double Fl).
    destruct Q as (_ & Q). destruct Q as (e' & E); [|eauto]. apply Forall_cons; [right; unfold origin; cbn [e_center other]; intros F; injection F; lra|]. repeat constructor.
Qed.
