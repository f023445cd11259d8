(** * C91: multipole expansions in double precision *)
From Coq Require Import ZArith Reals List Lia Lra Bool.
From Flocq Require Import Core.
From Verif Require Import ModelLegendre ModelLegTable ModelLegApi ModelFmm ModelFloat SpecFloat ProofsFloat LibFlx ModelFloatExp SpecFloatExp ProofsFloatExp ProofsFloatLeg.
From Verif Require ModelExp.
Import ListNotations.
Local Open Scope R_scope.
Import ModelExp(pt(..), cx, cy, cz, tri, nm_pairs).

(** ** Lemmas *)
Lemma rel_double M a c : double_math M -> double_point (frelative M a c).
Proof. intros HM. unfold frelative, double_point. cbn. rewrite !(e_add M HM). repeat split; apply flx_double. Qed.
Lemma rel_zero M a c : double_math M -> is_double c -> (flx (a + flx (-1 * c)) = 0 <-> a = c).
Proof. intros HM D. rewrite flx_zero_iff. replace (-1 * c) with (- c) by ring. rewrite flx_opp, (flx_id c D). split; lra. Qed.
Lemma rel_nonzero M a c : double_math M -> double_point c -> (nonzero (frelative M a c) <-> a <> c).
Proof.
  intros HM (Dx & Dy & Dz). unfold nonzero, frelative. rewrite !(e_add M HM), !(e_mul M HM). destruct a as [ax ay az], c as [bx by_ bz]. cbn in *.
  split; intros N E; apply N.
  - injection E as -> -> ->. f_equal; apply (rel_zero M _ _ HM); auto.
  - injection E as E1 E2 E3. apply (proj1 (rel_zero M _ _ HM Dx)) in E1. apply (proj1 (rel_zero M _ _ HM Dy)) in E2. apply (proj1 (rel_zero M _ _ HM Dz)) in E3. subst. reflexivity.
Qed.
Lemma pairs_in p n m : In (n, m) (nm_pairs p) -> (n <= p)%nat /\ (m <= n)%nat.
Proof. unfold nm_pairs. rewrite in_flat_map. intros (k & K & I). apply in_map_iff in I. destruct I as (j & E & J). injection E as <- <-. apply in_seq in K, J. lia. Qed.
Lemma loop_some {A : Type} (l : list (nat * nat)) (f : A -> nat * nat -> option A) : (forall a nm, In nm l -> exists b, f a nm = Some b) ->
  forall a, exists b, fold_left (fun o nm => bind o (fun a => f a nm)) l (Some a) = Some b.
Proof.
  induction l as [|nm l IH]; intros F a; cbn; [eauto|]. destruct (F a nm ltac:(left; auto)) as (b & E). rewrite E. apply IH. intros a' nm' I. apply F. right; auto.
Qed.
Lemma loop_none {A : Type} (l : list (nat * nat)) (f : A -> nat * nat -> option A) : fold_left (fun o nm => bind o (fun a => f a nm)) l None = None.
Proof. induction l; auto. Qed.
Lemma loop_fails {A : Type} (l : list (nat * nat)) (f : A -> nat * nat -> option A) nm : In nm l -> (forall a, f a nm = None) ->
  forall a, fold_left (fun o nm => bind o (fun a => f a nm)) l (Some a) = None.
Proof.
  induction l as [|x l IH]; intros I F a; [destruct I|]. cbn. destruct I as [->|I]; [rewrite F; apply loop_none|].
  destruct (f a x); [apply IH; auto|apply loop_none].
Qed.
Lemma fadd_fails M p f C : (1 <= p)%nat -> f 1%nat 1%nat = None -> fadd_loop M p f C = None.
Proof.
  intros Hp E. unfold fadd_loop. apply (loop_fails (nm_pairs p) (fun C nm => bind (f (fst nm) (snd nm)) (fun a =>
    Some (fun i => if Nat.eqb i (tri (fst nm) (snd nm)) then fcadd M (C i) a else C i))) (1%nat, 1%nat)).
  - unfold nm_pairs. apply in_flat_map. exists 1%nat. split; [apply in_seq; lia|]. apply in_map. apply in_seq. lia.
  - intros a. cbn [fst snd]. rewrite E. reflexivity.
Qed.
Lemma fspher_some M d : double_math M -> nonzero d -> fspher M d = Some (flx (sqrt (sq3 d)), cosd d, fatan2 M (cy d) (cx d)).
Proof.
  intros HM N. unfold fspher. rewrite (frho_eq M HM d N). cbn [bind]. rewrite (fdiv_some M HM) by (assert (P := rho_pos d N); lra). reflexivity.
Qed.
Lemma fscale_some M a r : double_math M -> r <> 0 -> exists b, fscale M a r = Some b.
Proof. intros HM N. unfold fscale. rewrite !(fdiv_some M HM) by exact N. cbn. eauto. Qed.
Lemma root_om M c : double_math M -> -1 <= c <= 1 -> exists s, froot M (@fsub (fm_ops M) 1 (@amul (@f_arith (fm_ops M)) c c)) = Some s.
Proof. intros HM Hc. rewrite (e_sub M HM), (e_mul M HM). rewrite (froot_some M HM) by (apply (om_nonneg c Hc)). eauto. Qed.

(** ** Theorems *)
(** the cosine handed to the tables is never outside [-1, 1]: the square roots 1 - x^2 are defined *)
Theorem C91_cosine_stays_in_range : forall M d, double_math M -> double_point d -> nonzero d ->
  exists c, computed_cosine M d c /\ (forall c', computed_cosine M d c' -> c' = c) /\ -1 <= c <= 1.
Proof.
  intros M d HM (_ & _ & D) N. exists (cosd d). split; [apply (cos_eq M HM d N); reflexivity|].
  split; [intros c'; apply (cos_eq M HM d N)|]. apply (cos_range d N D).
Qed.
(** a point (source or target) whose angle with the vertical through the centre is below 2^-27.5 counts as lying on it ... *)
Theorem C91_near_the_axis : forall M d c, double_math M -> double_point d -> cz d <> 0 -> computed_cosine M d c ->
  2 ^ 55 * axis2 d <= height2 d -> c = 1 \/ c = -1.
Proof.
  intros M d c HM (_ & _ & D) N Hc L. assert (Nz : nonzero d) by (intros ->; apply N; reflexivity). apply (cos_eq M HM d Nz) in Hc. subst c.
  apply (cos_near d D N). replace (2 ^ 55) with 36028797018963968 in L by (simpl; lra). exact L.
Qed.
(** ... and one whose angle is above 2^-25 does not *)
Theorem C91_off_the_axis : forall M d c, double_math M -> nonzero d -> computed_cosine M d c ->
  height2 d <= 2 ^ 50 * axis2 d -> -1 < c < 1.
Proof.
  intros M d c HM N Hc L. apply (cos_eq M HM d N) in Hc. subst c. apply (cos_off d N).
  replace (2 ^ 50) with 1125899906842624 in L by (simpl; lra). exact L.
Qed.
(** charges: every coefficient stays finite, for any point but the centre *)
Theorem C91_charge_is_finite : forall M p center C strength point, double_math M -> (p <= 20)%nat -> double_point center -> point <> center ->
  exists C', fadd_charge M p center C strength point = Some C'.
Proof.
  intros M p center C q y HM Hp D N. unfold fadd_charge. destruct (Req_EM_T q 0) as [Q0|Q0]; [eauto|].
  assert (Nz := proj2 (rel_nonzero M y center HM D) N). assert (Rd := rel_double M y center HM). set (d := frelative M y center) in *.
  rewrite (fspher_some M d HM Nz). cbn [bind]. apply loop_some. intros a [n m] I. apply pairs_in in I. cbn [fst snd].
  destruct (leg_finite M (cosd d) n m HM (cos_range d Nz (proj2 (proj2 Rd))) ltac:(lia) ltac:(lia)) as (v & E).
  unfold fcharge_term. rewrite E. cbn [bind]. eauto.
Qed.
(** evaluation: finite at every point but the centre *)
Theorem C91_evaluation_is_finite : forall M p center C x, double_math M -> (p <= 20)%nat -> double_point center -> x <> center ->
  exists v, fevaluate M p center C x = Some v.
Proof.
  intros M p center C x HM Hp D N. unfold fevaluate.
  assert (Nz := proj2 (rel_nonzero M x center HM D) N). assert (Rd := rel_double M x center HM). set (d := frelative M x center) in *.
  rewrite (fspher_some M d HM Nz). cbn [bind].
  destruct (loop_some (nm_pairs p) (fun z nm => feval_term M C (flx (sqrt (sq3 d))) (cosd d) (fatan2 M (cy d) (cx d)) z nm)) with (a := (0, 0)) as (z & E).
  - intros a [n m] I. apply pairs_in in I. unfold feval_term.
    destruct (leg_finite M (cosd d) n m HM (cos_range d Nz (proj2 (proj2 Rd))) ltac:(lia) ltac:(lia)) as (v & E). rewrite E. cbn [bind]. eauto.
  - rewrite E. cbn. eauto.
Qed.
(** dipoles: all coefficients are finite exactly when the computed cosine is not 1 or -1 *)
Theorem C91_dipole_is_finite_iff : forall M p center C strength point normal c, double_math M -> (1 <= p <= 20)%nat -> double_point center ->
  point <> center -> nonzero normal -> strength <> 0 -> computed_cosine M (frelative M point center) c ->
  ((exists C', fadd_normder M p center C strength point normal = Some C') <-> c <> 1 /\ c <> -1).
Proof.
  intros M p center C q y nv c HM Hp D N Nn Hq Hc.
  assert (Nz := proj2 (rel_nonzero M y center HM D) N). assert (Rd := rel_double M y center HM). apply (cos_eq M HM _ Nz) in Hc. subst c.
  set (d := frelative M y center) in *. assert (Rg := cos_range d Nz (proj2 (proj2 Rd))).
  unfold fadd_normder. destruct (Req_EM_T q 0) as [Q0|Q0]; [contradiction|]. fold d.
  assert (L0 : froot M (fdot3 M nv nv) = Some (flx (sqrt (sq3 nv)))).
  { change (fdot3 M nv nv) with (fsquare3 M nv). exact (frho_eq M HM nv Nn). }
  rewrite L0. cbn [bind]. destruct (fscale_some M nv (flx (sqrt (sq3 nv))) HM) as (nu & E1); [assert (P := rho_pos nv Nn); lra|]. rewrite E1. cbn [bind].
  rewrite (frho_eq M HM d Nz). cbn [bind]. assert (Rp := rho_pos d Nz). destruct (fscale_some M d (flx (sqrt (sq3 d))) HM ltac:(lra)) as (dr & E2). rewrite E2. cbn [bind].
  rewrite (fdiv_some M HM (cz d)) by lra. fold (cosd d).
  destruct (root_om M (cosd d) HM Rg) as (s & E3).
  split.
  - intros (C' & E).
    assert (K : forall e, (cosd d = 1 \/ cosd d = -1) -> fGetAssLegFunSphDeriv M 1 1 (cosd d) = Some e -> False).
    { intros e H1. assert (S : flx (cosd d * cosd d) = 1) by (destruct H1 as [-> | ->]; replace (_ * _) with 1 by lra; apply flx_1).
      unfold fGetAssLegFunSphDeriv. change (table leg_der_pointers_assignments 1 1) with (Some P_1_1_Deriv). cbn [bind].
      unfold frun, P_1_1_Deriv. cbn [fst snd fexec feval]. rewrite !(proj2 HM). cbn [bind].
      rewrite (froot_some M HM (flx 2)) by (apply flx_nonneg; lra). cbn [bind get Pos.eqb]. rewrite (e_mul M HM), S. cbn [bind get Pos.eqb].
      rewrite (e_sub M HM), flx_1. replace (1 - 1) with 0 by ring. rewrite flx_0, (froot_some M HM 0) by lra. cbn [bind get Pos.eqb].
      rewrite sqrt_0, flx_0. unfold fdiv. destruct (Req_EM_T 0 0); [|lra]. cbn [bind]. discriminate. }
    assert (Z : cosd d = 1 \/ cosd d = -1 -> False).
    { intros Z. destruct (fscale M (Pt (- cy d) (cx d) 0) _) as [db|]; [|discriminate]. cbn [bind] in E. rewrite E3 in E. cbn [bind] in E.
      destruct (fscale M (Pt _ _ (- s)) _) as [da|]; [|discriminate]. cbn [bind] in E. rewrite fadd_fails in E; [discriminate|lia|].
      unfold fdipole_term. destruct (fGetAssLegFunSph M 1 1 (cosd d)); [|reflexivity]. cbn [bind].
      destruct (fGetAssLegFunSphDeriv M 1 1 (cosd d)) as [e|] eqn:Ed; [exfalso; exact (K e Z eq_refl)|reflexivity]. }
    split; intros F; apply Z; auto.
  - intros (N1 & N2). assert (St : -1 < cosd d < 1) by (split; destruct Rg as [[] []]; auto; exfalso; auto).
    assert (Dn : @aadd (@f_arith (fm_ops M)) (@amul (@f_arith (fm_ops M)) (cx d) (cx d)) (@amul (@f_arith (fm_ops M)) (cy d) (cy d)) <> 0).
    { rewrite (e_add M HM), !(e_mul M HM). intros F. apply (proj1 (flx_zero_iff _)) in F. assert (A := fsq (cx d)). assert (B := fsq (cy d)).
      assert (A0 : flx (cx d * cx d) = 0) by lra. assert (B0 : flx (cy d * cy d) = 0) by lra. apply (proj1 (flx_zero_iff _)) in A0. apply (proj1 (flx_zero_iff _)) in B0.
      assert (Zd : cz d <> 0).
      { intros Zd. apply Nz. apply Rmult_integral in A0, B0. destruct d as [dx dy dz]. cbn in *. subst dz. destruct A0, B0; subst; reflexivity. }
      destruct (cos_near d (proj2 (proj2 Rd)) Zd) as [F1|F1]; auto; unfold axis2, height2; cbn [pow]; assert (Q := sq_nn (cz d)); lra. }
    destruct (fscale_some M (Pt (- cy d) (cx d) 0) _ HM Dn) as (db & E4). rewrite E4. cbn [bind]. rewrite E3. cbn [bind].
    destruct (fscale_some M (Pt (@amul (@f_arith (fm_ops M)) (cosd d) (fcos M (fatan2 M (cy d) (cx d)))) (@amul (@f_arith (fm_ops M)) (cosd d) (fsin M (fatan2 M (cy d) (cx d)))) (- s)) (flx (sqrt (sq3 d))) HM ltac:(lra)) as (da & E5).
    rewrite E5. cbn [bind]. apply loop_some. intros a [n m] I. apply pairs_in in I. cbn [fst snd]. unfold fdipole_term.
    destruct (leg_finite M (cosd d) n m HM Rg ltac:(lia) ltac:(lia)) as (v & Ev). rewrite Ev. cbn [bind].
    destruct (leg_der_finite M (cosd d) n m HM (flx_double _) St ltac:(lia) ltac:(lia)) as (w & Ew). rewrite Ew. cbn [bind]. rewrite E3. cbn [bind]. eauto.
Qed.
(** hence dipoles closer to the vertical axis than 2^-27.5 times their height above or below the centre make the expansion NaN ... *)
Theorem C91_dipole_near_the_axis : forall M p center C strength point normal, double_math M -> (1 <= p <= 20)%nat -> double_point center ->
  point <> center -> nonzero normal -> strength <> 0 -> let d := frelative M point center in
  cz d <> 0 -> 2 ^ 55 * axis2 d <= height2 d -> fadd_normder M p center C strength point normal = None.
Proof.
  intros M p center C q y nv HM Hp D N Nn Hq d Zd L. assert (Nz := proj2 (rel_nonzero M y center HM D) N).
  assert (Hc := proj2 (cos_eq M HM d Nz (cosd d)) eq_refl).
  assert (I := C91_dipole_is_finite_iff M p center C q y nv _ HM Hp D N Nn Hq Hc).
  assert (A := C91_near_the_axis M d _ HM (rel_double M y center HM) Zd Hc L).
  destruct (fadd_normder M p center C q y nv) as [C'|]; [|reflexivity]. destruct (proj1 I ltac:(eauto)). tauto.
Qed.
(** ... and dipoles at a larger angle than 2^-25 do not *)
Theorem C91_dipole_off_the_axis : forall M p center C strength point normal, double_math M -> (1 <= p <= 20)%nat -> double_point center ->
  point <> center -> nonzero normal -> let d := frelative M point center in
  height2 d <= 2 ^ 50 * axis2 d -> exists C', fadd_normder M p center C strength point normal = Some C'.
Proof.
  intros M p center C q y nv HM Hp D N Nn d L. destruct (Req_EM_T q 0) as [Q|Q].
  { exists C. unfold fadd_normder. destruct (Req_EM_T q 0); [reflexivity|contradiction]. }
  assert (Nz := proj2 (rel_nonzero M y center HM D) N). assert (Hc := proj2 (cos_eq M HM d Nz (cosd d)) eq_refl).
  apply (C91_dipole_is_finite_iff M p center C q y nv _ HM Hp D N Nn Q Hc).
  assert (A := C91_off_the_axis M d _ HM Nz Hc L). split; lra.
Qed.
