(** * C91: what the rounding of the polar angle costs, and instances *)
From Coq Require Import ZArith Reals List Lia Lra Bool.
From Flocq Require Import Core.
From Coquelicot Require Import Complex.
From Verif Require Import ModelLegendre ModelLegTable ModelLegApi ModelExp SpecExp SpecLegendre ProofsHarm2 ProofsHarm3 ProofsExp ProofsExp3 PropLegendre.
From Verif Require Import ModelFmm ModelFloat SpecFloat ProofsFloat LibFlx ModelFloatExp SpecFloatExp ProofsFloatExp ProofsFloatLeg PropFloatExp.
Import ListNotations.
Local Open Scope R_scope.

Lemma tri_two n m : (m <= n)%nat -> tri n m = tri 1 1 -> n = 1%nat /\ m = 1%nat.
Proof. intros L E. apply tri_inj in E; auto. Qed.
Lemma leg_1_1_zero M c v : double_math M -> c = 1 \/ c = -1 -> fGetAssLegFunSph M 1 1 c = Some v -> v = 0.
Proof.
  intros HM H1 E. assert (S : flx (c * c) = 1) by (destruct H1 as [-> | ->]; replace (_ * _) with 1 by lra; apply flx_1).
  unfold fGetAssLegFunSph in E. change (table leg_pointers_assignments 1 1) with (Some P_1_1) in E. cbn [bind] in E.
  unfold frun, P_1_1 in E. cbn [fst snd fexec feval] in E. rewrite !(proj2 HM) in E. cbn [bind] in E.
  rewrite (froot_some M HM (flx 2)) in E by (apply flx_nonneg; lra). cbn [bind get Pos.eqb] in E. rewrite (e_mul M HM), S in E. cbn [bind get Pos.eqb] in E.
  rewrite (e_sub M HM), flx_1 in E. replace (1 - 1) with 0 in E by ring. rewrite flx_0, (froot_some M HM 0) in E by lra. cbn [bind get Pos.eqb] in E.
  rewrite sqrt_0, flx_0, (e_mul M HM), Rmult_0_r, flx_0 in E. cbn [bind] in E. rewrite (fdiv_some M HM) in E by (assert (P := flx_pos 2 ltac:(lra)); lra).
  unfold Rdiv in E. rewrite Rmult_0_l, flx_0 in E. congruence.
Qed.
Lemma loop_keeps M f (P : nat * nat -> Prop) l : (forall n m, In (n, m) l -> P (n, m)) ->
  (forall n m a, P (n, m) -> f n m = Some a -> tri n m = tri 1 1 -> a = (0, 0)) -> double_math M -> forall C C',
  C (tri 1 1) = (0, 0) -> fold_left (fun o nm => bind o (fun C => bind (f (fst nm) (snd nm)) (fun a =>
    Some (fun i => if Nat.eqb i (tri (fst nm) (snd nm)) then fcadd M (C i) a else C i)))) l (Some C) = Some C' -> C' (tri 1 1) = (0, 0).
Proof.
  intros HP Hf HM. induction l as [|[n m] l IH]; intros C C' HC E; cbn [fold_left] in E; [injection E as <-; exact HC|].
  cbn [bind fst snd] in E. destruct (f n m) as [a|] eqn:Ef; cbn [bind] in E.
  - refine (IH _ _ _ _ E); [intros; apply HP; right; auto|]. cbn beta. destruct (Nat.eqb_spec (tri 1 1) (tri n m)) as [Q|Q]; [|exact HC].
    rewrite (Hf n m a (HP n m (or_introl eq_refl)) Ef (eq_sym Q)), HC. unfold fcadd. cbn [fst snd]. rewrite !(e_add M HM), Rplus_0_l, flx_0. reflexivity.
  - rewrite (loop_none l) in E. discriminate.
Qed.
(** a charge that close to the axis leaves the moment of order (1,1) unchanged at zero, while it is really |q| a / sqrt 2 with a the
    distance from the axis (a may be 2^-28 of the distance from the centre: far above the rounding unit 2^-53) *)
Theorem C91_charge_near_the_axis_is_moved_onto_it : forall M p center strength point C', double_math M -> (1 <= p <= 20)%nat ->
  double_point center -> let d := frelative M point center in cz d <> 0 -> 2 ^ 55 * axis2 d <= height2 d ->
  fadd_charge M p center (fun _ => (0, 0)) strength point = Some C' -> C' (tri 1 1) = (0, 0).
Proof.
  intros M p center q y C' HM Hp D d Zd L E. unfold fadd_charge in E. destruct (Req_EM_T q 0) as [Q|Q]; [injection E as <-; reflexivity|].
  assert (Nz : nonzero d) by (intros F; apply Zd; rewrite F; reflexivity). fold d in E. rewrite (fspher_some M d HM Nz) in E. cbn [bind] in E.
  assert (A := C91_near_the_axis M d (cosd d) HM (rel_double M y center HM) Zd (proj2 (cos_eq M HM d Nz _) eq_refl) L).
  refine (loop_keeps M _ (fun nm => (snd nm <= fst nm)%nat) (nm_pairs p) _ _ HM _ _ _ E).
  - intros n m I. apply pairs_in in I. cbn. lia.
  - intros n m a Lnm Ef T. cbn in Lnm. destruct (tri_two n m Lnm T) as [-> ->]. unfold fcharge_term in Ef.
    destruct (fGetAssLegFunSph M 1 1 (cosd d)) as [P|] eqn:EP; [|discriminate]. cbn [bind] in Ef. apply (leg_1_1_zero M _ _ HM A) in EP. subst P.
    injection Ef as <-. unfold fcmulr. rewrite !(e_mul M HM). rewrite !Rmult_0_l, !flx_0, !Rmult_0_l, !flx_0, !Rmult_0_r, !flx_0. reflexivity.
  - reflexivity.
Qed.

(** in exact arithmetic that moment is |q| a / sqrt 2 *)
Lemma leg_1_1 c : -1 <= c <= 1 -> GetAssLegFunSph 1 1 c = Some (- sqrt 2 * sqrt (1 - c * c) / 2).
Proof.
  intros Hc. unfold GetAssLegFunSph. change (table leg_pointers_assignments 1 1) with (Some P_1_1).
  unfold ModelLegendre.run, P_1_1. cbn.
  repeat match goal with
    | |- context [Rlt_dec ?a ?b] => destruct (Rlt_dec a b) as [F|_]; [exfalso; nra|]; cbn
    | |- context [Req_EM_T ?a ?b] => destruct (Req_EM_T a b) as [F|_]; [exfalso; lra|]; cbn
    end. reflexivity.
Qed.
Theorem C91_exact_moment : forall p center strength point e, (1 <= p <= 20)%nat -> point <> center ->
  m_add_charge (fresh p center) strength point = Some e ->
  Cmod (coeff e 1 1) = Rabs strength * sqrt (axis2 (psub point center) / 2).
Proof.
  intros p center q y e Hp N E. set (d := psub y center).
  destruct (Req_EM_T q 0) as [Q|Q].
  { unfold m_add_charge in E. destruct (Req_EM_T q 0); [|contradiction]. injection E as <-. unfold coeff. cbn. rewrite Cmod_0, Q, Rabs_R0, Rmult_0_l. reflexivity. }
  assert (Rn : rho_ d <> 0) by (apply rho_sub; auto).
  destruct (charge_ok (fresh p center) q y Q Rn ltac:(cbn; lia)) as (e' & E' & _ & _ & _ & Co & _). rewrite E in E'. injection E' as <-.
  specialize (Co 1%nat 1%nat ltac:(cbn; lia)). unfold at_ in Co. unfold coeff. rewrite Co. cbn [fresh e_coeffs e_center]. fold d. unfold K.
  assert (Hc := ProofsHarm3.cos_range d Rn).
  assert (P : Plm 1 1 (cos_ d) = - sqrt 2 * sqrt (1 - cos_ d * cos_ d) / 2).
  { assert (A := C11_table_values 1 1 (cos_ d) ltac:(lia) Hc). rewrite leg_1_1 in A by exact Hc. injection A as A. symmetry. exact A. }
  rewrite P, Cplus_0_l, !Cmod_mult. rewrite !Cmod_R, pow_1. f_equal.
  replace (Cmod (cis (- INR 1 * beta_ d))) with 1.
  2:{ unfold cis, Cmod. cbn [fst snd]. rewrite <- sqrt_1 at 1. f_equal. rewrite <- (sin2_cos2 (- INR 1 * beta_ d)). unfold Rsqr. ring. }
  rewrite Rmult_1_l. assert (Rp : 0 < rho_ d) by (assert (G := sqrt_pos (square d)); fold (rho_ d) in G; lra).
  apply Rsqr_inj; [apply Rabs_pos|apply sqrt_pos|]. rewrite <- Rsqr_abs. rewrite Rsqr_sqrt.
  2:{ unfold axis2. assert (A := pow2_ge_0 (cx d)). assert (B := pow2_ge_0 (cy d)). lra. }
  unfold Rsqr. replace (- sqrt 2 * sqrt (1 - cos_ d * cos_ d) / 2 * rho_ d * (- sqrt 2 * sqrt (1 - cos_ d * cos_ d) / 2 * rho_ d))
    with ((sqrt 2 * sqrt 2) * (sqrt (1 - cos_ d * cos_ d) * sqrt (1 - cos_ d * cos_ d)) * (rho_ d * rho_ d) / 4) by field.
  rewrite !sqrt_sqrt by nra. unfold cos_. replace (2 * (1 - cz d / rho_ d * (cz d / rho_ d)) * (rho_ d * rho_ d) / 4) with ((rho_ d * rho_ d - cz d * cz d) / 2) by (field; lra).
  unfold rho_. rewrite sqrt_sqrt by (apply square_nonneg). unfold square, axis2. field.
Qed.
(** dipoles near the axis are no trouble in exact arithmetic *)
Theorem C91_exact_dipole : forall p center strength point normal, (p <= 20)%nat -> axis2 (psub point center) <> 0 -> nonzero normal ->
  exists e, m_add_normder (fresh p center) strength point normal = Some e.
Proof.
  intros p center q y nv Hp A Nn. destruct (Req_EM_T q 0) as [Q|Q].
  { unfold m_add_normder. destruct (Req_EM_T q 0); [|contradiction]. eauto. }
  assert (A' : ProofsExp2.r2 (psub y (e_center (fresh p center))) <> 0).
  { intros F. apply A. rewrite <- F. unfold axis2, ProofsExp2.r2. cbn [fresh e_center]. ring. }
  destruct (normder_ok (fresh p center) q y nv Q (proj2 (square_nz nv) Nn) A' Hp) as (e & E & _). eauto.
Qed.

(** ** Instances *)
(** rounded arithmetic with the exact cosine, sine, arc tangent and power of the rounded arguments, rounded *)
Definition rounded_math : fmath := {| fm_ops := unlimited_double; fnum := fun z => flx (IZR z); fcos := fun t => flx (cos t); fsin := fun t => flx (sin t);
  fatan2 := fun y x => flx (atan2 y x); fpow := fun r k => flx (powerRZ r k) |}.
Lemma rounded_math_ok : double_math rounded_math. Proof. split; reflexivity. Qed.
Lemma double_IZR z k : (Z.abs z < 2 ^ 53)%Z -> double (IZR z * bpow radix2 k).
Proof.
  intros B. apply generic_format_FLX. exists (Float radix2 z k); [reflexivity|exact B].
Qed.
Definition near_point : pt := Pt (bpow radix2 (-28)) 0 1.
Definition off_point : pt := Pt 1 0 1.
Definition origin : pt := Pt 0 0 0.
Definition sideways : pt := Pt 1 0 0.
Lemma origin_double : double_point origin. Proof. unfold double_point, origin. cbn [cx cy cz]. assert (D := flx_double 0). rewrite flx_0 in D. auto. Qed.
Lemma near_relative : frelative rounded_math near_point origin = near_point.
Proof.
  unfold frelative, near_point, origin. rewrite !(e_add rounded_math rounded_math_ok), !(e_mul rounded_math rounded_math_ok). cbn [cx cy cz].
  rewrite Rmult_0_r, flx_0, !Rplus_0_r, flx_0, flx_1. f_equal. apply flx_id. generalize (double_IZR 1 (-28) eq_refl). rewrite Rmult_1_l. auto.
Qed.
Lemma off_relative : frelative rounded_math off_point origin = off_point.
Proof.
  unfold frelative, off_point, origin. rewrite !(e_add rounded_math rounded_math_ok), !(e_mul rounded_math rounded_math_ok). cbn [cx cy cz].
  rewrite Rmult_0_r, flx_0, !Rplus_0_r, flx_0, flx_1. reflexivity.
Qed.
(** a dipole 2^-28 beside the axis at height 1: the exact expansion exists, the computed one is NaN, for every order *)
Theorem C91_exact_but_not_computed : forall p, (1 <= p <= 20)%nat ->
  (exists e, m_add_normder (fresh p origin) 1 near_point sideways = Some e) /\
  (forall C, fadd_normder rounded_math p origin C 1 near_point sideways = None).
Proof.
  intros p Hp. assert (Sn : nonzero sideways) by (unfold sideways; intros F; injection F; lra). split.
  - apply C91_exact_dipole; [lia| |exact Sn]. unfold axis2, near_point, origin. cbn [psub cx cy cz]. rewrite !Rminus_0_r.
    assert (P := bpow_gt_0 radix2 (-28)). nra.
  - intros C. apply C91_dipole_near_the_axis; try exact Sn; auto using rounded_math_ok, origin_double.
    + unfold near_point, origin. intros F. injection F. intros. lra.
    + rewrite near_relative. unfold near_point. cbn [cz]. lra.
    + rewrite near_relative. unfold axis2, height2, near_point. cbn [cx cy cz bpow]. change (Z.pow_pos radix2 28) with 268435456%Z.
      replace (2 ^ 55) with 36028797018963968 by (simpl; lra). lra.
Qed.
(** non-vacuity: a dipole and a charge off the axis are finite, a charge near it loses a moment that is not zero *)
Example C91_nonvacuous : double_math rounded_math /\ double_point origin /\ off_point <> origin /\
  (exists C, fadd_normder rounded_math 4 origin (fun _ => (0, 0)) 1 off_point sideways = Some C) /\
  (exists C e, fadd_charge rounded_math 4 origin (fun _ => (0, 0)) 1 near_point = Some C /\ C (tri 1 1) = (0, 0) /\
     m_add_charge (fresh 4 origin) 1 near_point = Some e /\ coeff e 1 1 <> (0, 0)).
Proof.
  assert (Nn : near_point <> origin) by (unfold near_point, origin; intros F; injection F; intros; lra).
  assert (On : off_point <> origin) by (unfold off_point, origin; intros F; injection F; intros; lra).
  split; [exact rounded_math_ok|]. split; [exact origin_double|]. split; [exact On|]. split.
  - apply (C91_dipole_off_the_axis rounded_math 4 origin _ 1 off_point sideways rounded_math_ok ltac:(lia) origin_double On).
    + unfold sideways. intros F. injection F. lra.
    + rewrite off_relative. unfold axis2, height2, off_point. cbn [cx cy cz]. replace (2 ^ 50) with 1125899906842624 by (simpl; lra). lra.
  - destruct (C91_charge_is_finite rounded_math 4 origin (fun _ => (0, 0)) 1 near_point rounded_math_ok ltac:(lia) origin_double Nn) as (C' & E).
    destruct (charge_ok (fresh 4 origin) 1 near_point ltac:(lra) (proj2 (rho_sub _ _) Nn) ltac:(cbn; lia)) as (e & E' & _).
    exists C', e. split; [exact E|]. split; [|split; [exact E'|]].
    + apply (C91_charge_near_the_axis_is_moved_onto_it rounded_math 4 origin 1 near_point C' rounded_math_ok ltac:(lia) origin_double); [| |exact E]; rewrite near_relative.
      * unfold near_point. cbn [cz]. lra.
      * unfold axis2, height2, near_point. cbn [cx cy cz bpow]. change (Z.pow_pos radix2 28) with 268435456%Z.
        replace (2 ^ 55) with 36028797018963968 by (simpl; lra). lra.
    + intros F. assert (Mo := C91_exact_moment 4 origin 1 near_point e ltac:(lia) Nn E'). rewrite F in Mo. change (0, 0) with (RtoC 0) in Mo. rewrite Cmod_0, Rabs_R1, Rmult_1_l in Mo.
      symmetry in Mo. apply sqrt_eq_0 in Mo; [|]; revert Mo || idtac; unfold axis2, near_point, origin; cbn [psub cx cy cz]; rewrite !Rminus_0_r; assert (P := bpow_gt_0 radix2 (-28)); try nra; intros; nra.
Qed.
