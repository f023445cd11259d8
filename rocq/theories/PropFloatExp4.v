(** * C91: translations, conversion, local expansions and whole histories in double precision *)
From Coq Require Import ZArith Reals List Lia Lra Bool.
From Flocq Require Import Core.
From Coquelicot Require Import Complex.
From Verif Require Import ModelLegendre ModelLegTable ModelLegApi ModelExp SpecExp SpecLegendre ProofsHarm2 ProofsHarm3 ProofsExp ProofsExp3 PropLegendre.
From Verif Require Import ModelFmm ModelFloat SpecFloat ProofsFloat LibFlx ModelFloatExp SpecFloatExp ProofsFloatExp ProofsFloatLeg PropFloatExp PropFloatExp3 ModelFloatExp2.
Import ListNotations.
Local Open Scope R_scope.

(** the C library knows the powers of -1 *)
Definition signs (M : fmath) : Prop := forall n, fpow M (-1) (Z.of_nat n) = (-1) ^ n.
Lemma sign_nz n : (-1) ^ n <> 0. Proof. apply pow_nonzero. lra. Qed.

Section Finite.
  Variable M : fmath.
  Variable pow_i : Z -> R.
  Hypothesis HM : double_math M.
  Hypothesis HS : signs M.
  Lemma fdown_pos k : forall f, 0 < f -> 0 < fdown M f k.
  Proof.
    induction k as [|k IH]; intros f F; [exact F|]. cbn [fdown]. apply IH. rewrite (e_mul M HM). apply flx_pos, Rmult_lt_0_compat; [exact F|].
    rewrite S_INR. assert (G := pos_INR k). lra.
  Qed.
  Lemma fA_some n m : (n <= 20)%nat -> (m <= 20)%nat -> exists v, fA_n_m M n m = Some v /\ ((m <= n)%nat -> v <> 0).
  Proof.
    intros Ln Lm. unfold fA_n_m. rewrite (proj2 (Nat.ltb_lt n 21)), (proj2 (Nat.ltb_lt m 21)) by lia. cbn [andb].
    destruct (Nat.leb_spec m n) as [L|L]; [|exists 0; split; [reflexivity|lia]].
    assert (P : 0 < flx (fdown M 1 (n - m) * fdown M 1 (n + m))) by (apply flx_pos, Rmult_lt_0_compat; apply fdown_pos; lra).
    rewrite (e_mul M HM), (froot_some M HM) by lra. cbn [lbind]. assert (Q := flx_pos _ (sqrt_lt_R0 _ P)).
    rewrite (fdiv_some M HM) by lra. eexists. split; [reflexivity|]. intros _ F. apply (proj1 (flx_zero_iff _)) in F. rewrite HS in F.
    unfold Rdiv in F. apply Rmult_integral in F. destruct F as [F|F]; [exact (sign_nz n F)|]. apply Rinv_neq_0_compat in F; [exact F|lra].
  Qed.
  Lemma fget_some e n m : (m <= n <= e_p e)%nat -> fget e n m = Some (e_coeffs e (tri n m)).
  Proof. intros L. unfold fget. destruct (Nat.ltb_spec (tri n m) (size (e_p e))) as [_|B]; [reflexivity|]. assert (Q := tri_size n m _ L). lia. Qed.
  Lemma fsum_some {A : Type} (l : list A) g : (forall a, In a l -> exists t, g a = Some t) -> forall z, exists z', fsum M l g (Some z) = Some z'.
  Proof.
    unfold fsum. induction l as [|a l IH]; intros F z; cbn [fold_left]; [eauto|]. destruct (F a (or_introl eq_refl)) as (t & E). cbn [lbind]. rewrite E. cbn [lbind].
    apply IH. intros b I. apply F. right; auto.
  Qed.
  Lemma fsum2_some l inner g : (forall nn mm, In nn l -> In mm (inner nn) -> exists t, g nn mm = Some t) -> exists z, fsum2 M l inner g = Some z.
  Proof.
    unfold fsum2. generalize ((0, 0) : R * R). induction l as [|nn l IH]; intros z F; cbn [fold_left]; [eauto|].
    destruct (fsum_some (inner nn) (g nn) (fun mm I => F nn mm (or_introl eq_refl) I) z) as (z' & E). rewrite E. apply IH. intros nn' mm I J. apply F; [right|]; auto.
  Qed.
  Lemma sym_in k mm : In mm (sym_range k) -> (absn mm <= k)%nat.
  Proof. unfold sym_range, zrange, absn. rewrite in_map_iff. intros (i & <- & I). apply in_seq in I. lia. Qed.
  Lemma loop_ok p f C : (forall n m, (m <= n <= p)%nat -> exists a, f n m = Some a) -> exists C', fadd_loop M p f C = Some C'.
  Proof.
    intros F. unfold fadd_loop. apply (loop_some (nm_pairs p) (fun C nm => lbind (f (fst nm) (snd nm)) (fun a =>
      Some (fun i => if Nat.eqb i (tri (fst nm) (snd nm)) then fcadd M (C i) a else C i)))). intros a [n m] I. apply pairs_in in I. cbn [fst snd].
    destruct (F n m I) as (b & ->). cbn [lbind]. eauto.
  Qed.
  Lemma pow_nz n : fpow M (-1) (Z.of_nat n) <> 0. Proof. rewrite HS. apply sign_nz. Qed.
  (** the terms *)
  Lemma m2m_ok other rho c beta n m : -1 <= c <= 1 -> (m <= n <= e_p other)%nat -> (e_p other <= 20)%nat -> exists z, fm2m_coeff M pow_i other rho c beta n m = Some z.
  Proof.
    intros Hc L Lp. apply fsum2_some. intros nn mm I J. apply in_seq in I. apply sym_in in J. unfold fm2m_term.
    destruct (Nat.ltb_spec (n - nn) (absn (Z.of_nat m - mm))) as [_|B]; [eauto|]. rewrite fget_some by lia. cbn [lbind].
    destruct (leg_finite M c nn (absn mm) HM Hc ltac:(lia) ltac:(lia)) as (P & EP). rewrite EP. cbn [lbind].
    destruct (fA_some nn (absn mm) ltac:(lia) ltac:(lia)) as (A1 & E1 & _). rewrite E1. cbn [lbind].
    destruct (fA_some (n - nn) (absn (Z.of_nat m - mm)) ltac:(lia) ltac:(lia)) as (A2 & E2 & _). rewrite E2. cbn [lbind].
    destruct (fA_some n m ltac:(lia) ltac:(lia)) as (A3 & E3 & N3). rewrite E3. cbn [lbind]. rewrite (fdiv_some M HM) by (apply N3; lia). cbn [lbind]. eauto.
  Qed.
  Lemma l2l_ok other rho c beta p n m : -1 <= c <= 1 -> (m <= n <= p)%nat -> (p = e_p other)%nat -> (p <= 10)%nat -> exists z, fl2l_coeff M pow_i other rho c beta p n m = Some z.
  Proof.
    intros Hc L Ep Lp. apply fsum2_some. intros nn mm I J. apply in_seq in I. apply sym_in in J. unfold fl2l_term.
    destruct (Nat.ltb_spec (nn - n) (absn (mm - Z.of_nat m))) as [_|B]; [eauto|]. rewrite fget_some by lia. cbn [lbind].
    destruct (leg_finite M c (nn - n) (absn (mm - Z.of_nat m)) HM Hc ltac:(lia) ltac:(lia)) as (P & EP). rewrite EP. cbn [lbind]. unfold fl2l_table.
    rewrite (proj2 (Nat.ltb_lt n 11)), (proj2 (Nat.ltb_lt m (n + 1))), (proj2 (Nat.leb_le n nn)), (proj2 (Nat.ltb_lt nn 11)), (proj2 (Nat.leb_le (absn mm) nn)) by lia. cbn [andb].
    destruct (fA_some (nn - n) (absn (mm - Z.of_nat m)) ltac:(lia) ltac:(lia)) as (A1 & E1 & _). rewrite E1. cbn [lbind].
    destruct (fA_some nn (absn mm) ltac:(lia) ltac:(lia)) as (A2 & E2 & N2). rewrite E2. cbn [lbind].
    destruct (fA_some n m ltac:(lia) ltac:(lia)) as (A3 & E3 & _). rewrite E3. cbn [lbind]. rewrite (fdiv_some M HM) by (apply N2; lia). cbn [lbind]. eauto.
  Qed.
  Lemma m2l_ok other rho c beta p n m : -1 <= c <= 1 -> (m <= n <= p)%nat -> (p = e_p other)%nat -> (p <= 10)%nat -> exists z, fm2l_coeff M pow_i other rho c beta p n m = Some z.
  Proof.
    intros Hc L Ep Lp. apply fsum2_some. intros nn mm I J. apply in_seq in I. apply sym_in in J. unfold fm2l_term.
    rewrite fget_some by lia. cbn [lbind].
    destruct (leg_finite M c (nn + n) (absn (mm - Z.of_nat m)) HM Hc ltac:(lia) ltac:(unfold absn in *; lia)) as (P & EP). rewrite EP. cbn [lbind]. unfold fm2l_table.
    rewrite (proj2 (Nat.ltb_lt n 11)), (proj2 (Nat.ltb_lt m (n + 1))), (proj2 (Nat.ltb_lt nn 11)), (proj2 (Nat.leb_le (absn mm) nn)) by lia. cbn [andb].
    destruct (fA_some nn (absn mm) ltac:(lia) ltac:(lia)) as (A1 & E1 & _). rewrite E1. cbn [lbind].
    destruct (fA_some (n + nn) (absn (Z.of_nat m - mm)) ltac:(lia) ltac:(unfold absn in *; lia)) as (A2 & E2 & N2). rewrite E2. cbn [lbind].
    destruct (fA_some n m ltac:(lia) ltac:(lia)) as (A3 & E3 & _). rewrite E3. cbn [lbind]. rewrite (fdiv_some M HM) by (apply N2; unfold absn in *; lia). cbn [lbind].
    rewrite (fdiv_some M HM) by apply pow_nz. cbn [lbind]. eauto.
  Qed.
  Lemma fsq_nn d : 0 <= fsquare3 M d.
  Proof. unfold fsquare3. rewrite !(e_add M HM), !(e_mul M HM). repeat apply flx_nonneg || apply Rplus_le_le_0_compat; apply sq_nn. Qed.
  Lemma far_some a b : exists f, ffar M a b = Some f /\ (f = true -> nonzero (frelative M a b)).
  Proof.
    unfold ffar, fdistance. rewrite (froot_some M HM) by apply fsq_nn. cbn [lbind]. eexists. split; [reflexivity|]. rewrite (e_div M HM).
    destruct (Rlt_dec _ _) as [L|]; [|discriminate]. intros _ Z. rewrite Z in L. unfold fsquare3 in L. cbn [cx cy cz] in L.
    rewrite !(e_add M HM), !(e_mul M HM) in L. repeat (rewrite ?Rmult_0_l, ?Rplus_0_r, ?sqrt_0 in L; rewrite flx_0 in L).
    assert (P := flx_pos (1 / 10000000) ltac:(lra)). lra.
  Qed.
  (** Add(multipole, sol), Add(other), Add(multipole) of local expansions *)
  Theorem C91_scaled_is_finite : forall e other sol, e_p other = e_p e -> exists e', fm_add_scaled M e other sol = Some e' /\ e_p e' = e_p e /\ e_center e' = e_center e.
  Proof.
    intros e other sol Ep. unfold fm_add_scaled. destruct (_ || _)%bool; [eauto|].
    destruct (loop_ok (e_p e) (fun n m => lbind (fget other n m) (fun a => Some (fcmulr M a sol))) (e_coeffs e)) as (C' & E); [|unfold fnonzero; rewrite E; cbn; eauto].
    intros n m L. rewrite fget_some by lia. cbn [lbind]. eauto.
  Qed.
  Theorem C91_translation_is_finite : forall e other, e_p other = e_p e -> (e_p e <= 20)%nat ->
    exists e', fm_translate M pow_i e other = Some e' /\ e_p e' = e_p e /\ e_center e' = e_center e.
  Proof.
    intros e other Ep Lp. unfold fm_translate. destruct (e_zero other); [eauto|]. destruct (far_some (e_center other) (e_center e)) as (f & Ef & Nf). rewrite Ef. cbn [lbind]. unfold fnonzero.
    destruct f.
    - assert (Nz := Nf eq_refl). assert (Rd := rel_double M (e_center other) (e_center e) HM). set (d := frelative M (e_center other) (e_center e)) in *.
      rewrite (fspher_some M d HM Nz). cbn [lbind].
      destruct (loop_ok (e_p e) (fm2m_coeff M pow_i other (flx (sqrt (sq3 d))) (cosd d) (fatan2 M (cy d) (cx d))) (e_coeffs e)) as (C' & E); [|rewrite E; cbn; eauto].
      intros n m L. apply m2m_ok; [apply ProofsFloatExp.cos_range; [exact Nz|apply Rd]|lia|lia].
    - destruct (loop_ok (e_p e) (fget other) (e_coeffs e)) as (C' & E); [|rewrite E; cbn; eauto]. intros n m L. rewrite fget_some by lia. eauto.
  Qed.
  Theorem C91_local_translation_is_finite : forall e other, e_p other = e_p e -> (e_p e <= 10)%nat ->
    exists e', fl_translate M pow_i e other = Some e' /\ e_p e' = e_p e /\ e_center e' = e_center e.
  Proof.
    intros e other Ep Lp. unfold fl_translate. destruct (e_zero other); [eauto|]. destruct (far_some (e_center other) (e_center e)) as (f & Ef & Nf). rewrite Ef. cbn [lbind]. unfold fnonzero.
    destruct f.
    - assert (Nz := Nf eq_refl). assert (Rd := rel_double M (e_center other) (e_center e) HM). set (d := frelative M (e_center other) (e_center e)) in *.
      rewrite (fspher_some M d HM Nz). cbn [lbind].
      destruct (loop_ok (e_p e) (fl2l_coeff M pow_i other (flx (sqrt (sq3 d))) (cosd d) (fatan2 M (cy d) (cx d)) (e_p e)) (e_coeffs e)) as (C' & E); [|rewrite E; cbn; eauto].
      intros n m L. apply l2l_ok; [apply ProofsFloatExp.cos_range; [exact Nz|apply Rd]|lia|lia|lia].
    - destruct (loop_ok (e_p e) (fget other) (e_coeffs e)) as (C' & E); [|rewrite E; cbn; eauto]. intros n m L. rewrite fget_some by lia. eauto.
  Qed.
  Theorem C91_conversion_is_finite : forall e other, e_p other = e_p e -> (e_p e <= 10)%nat -> double_point (e_center e) -> e_center other <> e_center e ->
    exists e', fl_convert M pow_i e other = Some e' /\ e_p e' = e_p e /\ e_center e' = e_center e.
  Proof.
    intros e other Ep Lp D N. unfold fl_convert. destruct (e_zero other); [eauto|]. unfold fnonzero.
    assert (Nz := proj2 (rel_nonzero M (e_center other) (e_center e) HM D) N). assert (Rd := rel_double M (e_center other) (e_center e) HM). set (d := frelative M (e_center other) (e_center e)) in *.
    rewrite (fspher_some M d HM Nz). cbn [lbind].
    destruct (loop_ok (e_p e) (fm2l_coeff M pow_i other (flx (sqrt (sq3 d))) (cosd d) (fatan2 M (cy d) (cx d)) (e_p e)) (e_coeffs e)) as (C' & E); [|rewrite E; cbn; eauto].
    intros n m L. apply m2l_ok; [apply ProofsFloatExp.cos_range; [exact Nz|apply Rd]|lia|lia|lia].
  Qed.
  Theorem C91_local_evaluation_is_finite : forall e x, (e_p e <= 20)%nat -> double_point (e_center e) -> e_zero e = true \/ x <> e_center e -> exists v, fl_evaluate M e x = Some v.
  Proof.
    intros e x Lp D N. unfold fl_evaluate. destruct (e_zero e); [eauto|]. destruct N as [|N]; [discriminate|].
    assert (Nz := proj2 (rel_nonzero M x (e_center e) HM D) N). assert (Rd := rel_double M x (e_center e) HM). set (d := frelative M x (e_center e)) in *.
    rewrite (fspher_some M d HM Nz). cbn [lbind].
    destruct (fsum_some (nm_pairs (e_p e)) (fl_eval_term M e (flx (sqrt (sq3 d))) (cosd d) (fatan2 M (cy d) (cx d)))) with (z := (0, 0)) as (z & E); [|rewrite E; cbn; eauto].
    intros [n m] I. apply pairs_in in I. unfold fl_eval_term.
    destruct (leg_finite M (cosd d) n m HM (ProofsFloatExp.cos_range d Nz (proj2 (proj2 Rd))) ltac:(lia) ltac:(lia)) as (P & EP). rewrite EP. cbn [lbind].
    rewrite fget_some by lia. cbn [lbind]. eauto.
  Qed.
End Finite.
