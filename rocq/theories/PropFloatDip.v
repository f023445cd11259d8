(** * C94: accuracy of dipoles *)
From Coq Require Import ZArith Reals List Lia Lra Bool Arith.
From Flocq Require Import Core.
From Verif Require Import ModelLegendre ModelLegTable ModelLegApi ModelExp SpecExp ProofsExp ModelFmm ModelFloat SpecFloat ProofsFloat ModelFloatExp SpecFloatExp LibFlx ProofsFloatExp PropFloat PropFloatExp PropFloatExp2 PropFloatExp3 ModelFloatExp2 PropFloatExp4 PropFloatExp5 SpecFloatTrans ProofsFloatTrans ProofsFloatTrans2 PropFloatTrans SpecFloatDip.
Import ListNotations.
Local Open Scope R_scope.

Section Dip.
  Variable u : R.
  Variable M : fmath.
  Variable pow_i : Z -> R.
  Hypothesis HR : relative_math u M pow_i.
  Notation ap := (ap u).
  Notation A := (@f_arith (fm_ops M)).
  Notation near := (near u).
  Lemma mul4 a b c d : near 3 (a * b * c * d) (@amul A (@amul A (@amul A a b) c) d).
  Proof.
    assert (P1 := near_mul u M pow_i HR 0 0 _ _ _ _ (near_0 u M pow_i HR a) (near_0 u M pow_i HR b)). assert (P2 := near_mul u M pow_i HR _ 0 _ _ _ _ P1 (near_0 u M pow_i HR c)).
    exact (near_mul u M pow_i HR _ 0 _ _ _ _ P2 (near_0 u M pow_i HR d)).
  Qed.
  Lemma mul22 a b c d : near 3 (a * (b * c) * d) (@amul A (@amul A a (@amul A b c)) d).
  Proof.
    assert (P1 := near_mul u M pow_i HR 0 0 _ _ _ _ (near_0 u M pow_i HR b) (near_0 u M pow_i HR c)). assert (P2 := near_mul u M pow_i HR 0 _ _ _ _ _ (near_0 u M pow_i HR a) P1).
    exact (near_mul u M pow_i HR _ 0 _ _ _ _ P2 (near_0 u M pow_i HR d)).
  Qed.
  Lemma dipole_term_near q rho c s beta dRho dAlpha dBeta n m t : froot M (@fsub (fm_ops M) 1 (@amul A c c)) = Some s -> fdipole_term M q rho c beta dRho dAlpha dBeta n m = Some t ->
    ap2 u 7 (dipole_size M n m rho c s beta dRho dAlpha dBeta q) (dipole_value M n m rho c s beta dRho dAlpha dBeta q) t.
  Proof.
    intros Es E. unfold fdipole_term in E. unfold dipole_size, dipole_value, legendre, legendre_slope.
    destruct (fGetAssLegFunSph M n m c) as [P|]; cbn [lbind] in E; [|discriminate]. destruct (fGetAssLegFunSphDeriv M n m c) as [dP|]; cbn [lbind] in E; [|discriminate].
    rewrite Es in E. cbn [lbind] in E. cbn [entry_of]. apply (f_equal (fun x => match x with Some y => y | None => t end)) in E. cbv beta iota zeta in E. subst t. cbv zeta.
    unfold wave. rewrite opp_IZR, <- INR_IZR_INZ. set (w := fcis M _).
    assert (R1 := ap_near u M pow_i HR _ _ _ (mul4 (INR n) (fpow M rho (Z.of_nat n - 1)) P dRho)). assert (R2 := ap_near u M pow_i HR _ _ _ (mul22 (fpow M rho (Z.of_nat n)) dP s dAlpha)).
    assert (R3 := ap_near u M pow_i HR _ _ _ (near_up u M pow_i HR 3 4 _ _ ltac:(lia) (mul4 (- INR m) (fpow M rho (Z.of_nat n)) P dBeta))). assert (R4 := ap_sub u M pow_i HR _ _ _ _ _ _ _ R1 R2).
    set (radial := INR n * _ * _ * _) in *. set (polar := fpow M rho (Z.of_nat n) * _ * _) in *. set (around := - INR m * _ * _ * _) in *.
    assert (X0 : forall a, ap 0 (Rabs a) a a) by (intros a; apply (ap_exact u)).
    assert (Z0 := fun a => ap_mul u M pow_i HR 0 _ _ _ _ _ _ _ (X0 a) R4). assert (Z1 := fun a => ap_mul u M pow_i HR 0 _ _ _ _ _ _ _ (X0 a) R3).
    assert (Rs : Rabs (Rabs radial + Rabs polar) = Rabs radial + Rabs polar) by (apply Rabs_pos_eq; assert (V := Rabs_pos radial); assert (V' := Rabs_pos polar); lra).
    split; cbn [fst snd fcmulr fcmul csize cterm].
    - eapply ap_eq; [| |exact (ap_mul u M pow_i HR _ 0 _ _ _ _ _ _ (ap_sub u M pow_i HR _ _ _ _ _ _ _ (Z0 (fst w)) (Z1 (snd w))) (X0 q))]; [rewrite !Rabs_mult, Rs; reflexivity|reflexivity].
    - eapply ap_eq; [| |exact (ap_mul u M pow_i HR _ 0 _ _ _ _ _ _ (ap_add u M pow_i HR _ _ _ _ _ _ _ (Z1 (fst w)) (Z0 (snd w))) (X0 q))]; [rewrite !Rabs_mult, Rs; reflexivity|reflexivity].
  Qed.
End Dip.

(** Each coefficient after adding a dipole is right up to 8 roundings of the size of its terms; the spherical coordinates, their derivatives along the normal,
    the Legendre values and derivatives, powers and exponentials are those the program computes. *)
Theorem C94_dipole : forall u M pow_i e q x v e', relative_math u M pow_i -> q <> 0 -> fm_dipole M e q x v = Some e' ->
  exists rho c s beta dRho dAlpha dBeta, slopes M (frelative M x (e_center e)) v rho c s beta dRho dAlpha dBeta /\
  forall n m, (m <= n <= e_p e)%nat ->
  within u 8 (rplus2 (coeff e n m) (dipole_value M n m rho c s beta dRho dAlpha dBeta q)) (rplus2 (abs2 (coeff e n m)) (dipole_size M n m rho c s beta dRho dAlpha dBeta q)) (coeff e' n m).
Proof.
  intros u M pow_i e q x v e' HR Nq E. unfold fm_dipole, fadd_normder in E. destruct (Req_EM_T q 0); [contradiction|]. set (d := frelative M x (e_center e)) in *.
  destruct (froot M (fdot3 M v v)) as [l|] eqn:E1; cbn [lbind fnonzero] in E; [|discriminate]. destruct (fscale M v l) as [nv|] eqn:E2; cbn [lbind fnonzero] in E; [|discriminate].
  destruct (frho M d) as [rho|] eqn:E3; cbn [lbind fnonzero] in E; [|discriminate]. destruct (fscale M d rho) as [dr|] eqn:E4; cbn [lbind fnonzero] in E; [|discriminate].
  match type of E with context [fscale M ?a ?b] => destruct (fscale M a b) as [db|] eqn:E5; cbn [lbind fnonzero] in E; [|discriminate] end.
  destruct (fdiv M (cz d) rho) as [c|] eqn:E6; cbn [lbind fnonzero] in E; [|discriminate].
  match type of E with context [froot M ?a] => destruct (froot M a) as [s|] eqn:E7; cbn [lbind fnonzero] in E; [|discriminate] end.
  match type of E with context [fscale M ?a ?b] => destruct (fscale M a b) as [da|] eqn:E8; cbn [lbind fnonzero] in E; [|discriminate] end.
  set (beta := fatan2 M (cy d) (cx d)) in *.
  exists rho, c, s, beta, (fdot3 M dr nv), (fdot3 M da nv), (fdot3 M db nv). split.
  { exists l, nv, dr, db, da. repeat split; assumption. }
  intros n0 m0 L. unfold fnonzero in E.
  match type of E with context [fadd_loop M _ ?f _] => destruct (fadd_loop M (e_p e) f (e_coeffs e)) as [C'|] eqn:El; [|discriminate];
    destruct (loop_ap u M pow_i HR (e_p e) f (e_coeffs e) 7 (fun n m => dipole_size M n m rho c s beta (fdot3 M dr nv) (fdot3 M da nv) (fdot3 M db nv) q) (fun n m => dipole_value M n m rho c s beta (fdot3 M dr nv) (fdot3 M da nv) (fdot3 M db nv) q)) as (C2 & E9 & Q) end.
  - intros n' m' L'. destruct (floop_terms M _ _ _ _ n' m' El L') as (t & Et). exists t. split; [exact Et|]. exact (dipole_term_near u M pow_i HR q rho c s beta _ _ _ n' m' t E7 Et).
  - cbn [lbind] in E. inversion E; subst e'. rewrite El in E9. inversion E9; subst C2. exact (Q n0 m0 L).
Qed.
(** With exact arithmetic the formula is the one of the exact program. *)
Theorem C94_dipole_of_the_exact_program : forall e q x v e', q <> 0 -> m_apply e (MDipole q x v) = Some e' ->
  exists rho c s beta dRho dAlpha dBeta, slopes exact_math (psub x (e_center e)) v rho c s beta dRho dAlpha dBeta /\
  forall n m, (m <= n <= e_p e)%nat -> coeff e' n m = rplus2 (coeff e n m) (dipole_value exact_math n m rho c s beta dRho dAlpha dBeta q).
Proof.
  intros e q x v e' Nq E. assert (S := C91_multipole_calls_without_rounding e (MDipole q x v)). rewrite E in S. apply same_coeff in S. destruct S as (e1 & E1 & S). cbn [fm_apply] in E1.
  destruct (C94_dipole 0 exact_math re_pow_i e q x v e1 exact_relative Nq E1) as (rho & c & s & beta & a & b & g & Sl & B). rewrite rel_exact in Sl.
  exists rho, c, s, beta, a, b, g. split; [exact Sl|]. intros n m L. rewrite <- S. eapply within_0. exact (B n m L).
Qed.
(** ** The spherical coordinates and their derivatives along the normal *)
Section Slopes.
  Variable u : R.
  Variable M : fmath.
  Variable pow_i : Z -> R.
  Hypothesis HR : relative_math u M pow_i.
  Notation ap := (ap u).
  Notation A := (@f_arith (fm_ops M)).
  Notation near := (near u).
  Notation near0 := (near_0 u M pow_i HR).
  Lemma near_add k x y xh yh : 0 <= x -> 0 <= y -> near k x xh -> near k y yh -> near (S k) (x + y) (@aadd A xh yh).
  Proof. intros Px Py P Q. apply (near_step u (fm_ops M) (HF u M pow_i HR) k _ (xh + yh)); [apply (near_plus u (fm_ops M) (HF u M pow_i HR)); auto|apply HR]. Qed.
  Lemma square_pos x : 0 <= x * x. Proof. assert (W := pow2_ge_0 x). lra. Qed.
  Lemma squares2 x y : near 2 (x * x + y * y) (@aadd A (@amul A x x) (@amul A y y)).
  Proof. apply near_add; auto using square_pos; apply (near_mul u M pow_i HR 0 0); apply near0. Qed.
  Lemma squares3 x y z : near 3 (x * x + y * y + z * z) (@aadd A (@aadd A (@amul A x x) (@amul A y y)) (@amul A z z)).
  Proof.
    apply near_add; [assert (W := square_pos x); assert (W' := square_pos y); lra|apply square_pos|apply squares2|]. apply (near_up u M pow_i HR 1); [lia|]. apply (near_mul u M pow_i HR 0 0); apply near0.
  Qed.
  Lemma root_near x xh r k : 0 <= x -> near k x xh -> froot M xh = Some r -> near (S k) (sqrt x) r.
  Proof.
    intros P N E. unfold froot in E. destruct (Rlt_dec xh 0); [discriminate|]. injection E as <-. apply (near_sq u M pow_i HR); auto.
  Qed.
  Lemma length_near d r : froot M (fdot3 M d d) = Some r -> near 4 (length3 d) r.
  Proof.
    intros E. unfold length3. eapply root_near; [|apply squares3|exact E]. assert (W := square_pos (cx d)); assert (W' := square_pos (cy d)); assert (W'' := square_pos (cz d)); lra.
  Qed.
  Lemma div_near k l x y xh yh r : near k x xh -> near l y yh -> fdiv M xh yh = Some r -> y <> 0 /\ near (S (k + l)) (x / y) r.
  Proof.
    intros P Q E. unfold fdiv in E. destruct (Req_EM_T yh 0) as [|Nz]; [discriminate|]. injection E as <-. assert (Ny : y <> 0) by (intros Z; apply Nz; destruct Q as (t & -> & _); rewrite Z; ring).
    split; [exact Ny|]. apply (near_div u M pow_i HR); auto.
  Qed.
  Definition near3 k (a ah : pt) : Prop := near k (cx a) (cx ah) /\ near k (cy a) (cy ah) /\ near k (cz a) (cz ah).
  Definition over (a : pt) (r : R) : pt := Pt (cx a / r) (cy a / r) (cz a / r).
  Lemma scale_near k l a ah r rh b : near3 k a ah -> near l r rh -> fscale M ah rh = Some b -> r <> 0 /\ near3 (S (k + l)) (over a r) b.
  Proof.
    intros (P1 & P2 & P3) Q E. unfold fscale in E. destruct (fdiv M (cx ah) rh) as [x|] eqn:E1; cbn [lbind] in E; [|discriminate]. destruct (fdiv M (cy ah) rh) as [y|] eqn:E2; cbn [lbind] in E; [|discriminate].
    destruct (fdiv M (cz ah) rh) as [z|] eqn:E3; cbn [lbind] in E; [|discriminate]. injection E as <-.
    destruct (div_near _ _ _ _ _ _ _ P1 Q E1) as (N & Q1). destruct (div_near _ _ _ _ _ _ _ P2 Q E2) as (_ & Q2). destruct (div_near _ _ _ _ _ _ _ P3 Q E3) as (_ & Q3). split; [exact N|]. repeat split; assumption.
  Qed.
  Lemma near3_0 a : near3 0 a a. Proof. repeat split; apply near0. Qed.
  Lemma dot_ap k l a ah b bh : near3 k a ah -> near3 l b bh -> ap (S (S (S (k + l)))) (dot_size a b) (dot a b) (fdot3 M ah bh).
  Proof.
    intros (P1 & P2 & P3) (Q1 & Q2 & Q3). unfold dot, dot_size, fdot3.
    assert (T : forall x y xh yh, near k x xh -> near l y yh -> ap (S (k + l)) (Rabs (x * y)) (x * y) (@amul A xh yh)) by (intros; apply (ap_near u M pow_i HR), (near_mul u M pow_i HR); auto).
    apply (ap_add u M pow_i HR); [apply (ap_add u M pow_i HR); apply T; auto|]. apply (ap_weak u M pow_i HR (S (k + l))); [lia|]. apply T; auto.
  Qed.
  Lemma ap_close k X x xh : ap k X x xh -> close u k x X xh. Proof. intros (_ & P). exact P. Qed.
  Lemma near_close k x xh : near k x xh -> close u k x (Rabs x) xh. Proof. intros N. apply ap_close, (ap_near u M pow_i HR), N. Qed.
End Slopes.
(** For the computed difference d of the point and the centre and any normal: the radius is right up to 4 roundings, the cosine up to 5, the derivative of the radius up to 13,
    of the azimuth up to 11, and of the polar angle (with the cosine, sine of the polar angle and the azimuth as computed) up to 14 roundings of the size of the terms. *)
Theorem C94_slopes : forall u M pow_i d normal rho c s beta dRho dAlpha dBeta, relative_math u M pow_i -> slopes M d normal rho c s beta dRho dAlpha dBeta ->
  let unit := Pt (cx normal / length3 normal) (cy normal / length3 normal) (cz normal / length3 normal) in
  length3 normal <> 0 /\ length3 d <> 0 /\ cx d * cx d + cy d * cy d <> 0 /\
  close u 4 (length3 d) (length3 d) rho /\ close u 5 (cz d / length3 d) (Rabs (cz d / length3 d)) c /\
  (let e := Pt (cx d / length3 d) (cy d / length3 d) (cz d / length3 d) in close u 13 (dot e unit) (dot_size e unit) dRho) /\
  (let h := cx d * cx d + cy d * cy d in let e := Pt (- cy d / h) (cx d / h) 0 in close u 11 (dot e unit) (dot_size e unit) dBeta) /\
  (let e := Pt (c * fcos M beta / length3 d) (c * fsin M beta / length3 d) (- s / length3 d) in close u 14 (dot e unit) (dot_size e unit) dAlpha).
Proof.
  intros u M pow_i d v rho c s beta dRho dAlpha dBeta HR (l & nv & dr & db & da & E1 & E2 & E3 & E4 & -> & _ & E5 & -> & E6 & E7 & E8 & ->). cbv zeta.
  assert (N1 := length_near u M pow_i HR _ _ E1). destruct (scale_near u M pow_i HR 0 4 v v _ _ _ (near3_0 u M pow_i HR v) N1 E2) as (Zv & Nv). cbn [Nat.add] in Nv.
  assert (N3 := length_near u M pow_i HR d rho E3). destruct (scale_near u M pow_i HR 0 4 d d _ _ _ (near3_0 u M pow_i HR d) N3 E4) as (Zd & Nd). cbn [Nat.add] in Nd.
  assert (Nh := squares2 u M pow_i HR (cx d) (cy d)). destruct (scale_near u M pow_i HR 0 2 _ _ _ _ _ (near3_0 u M pow_i HR (Pt (- cy d) (cx d) 0)) Nh E5) as (Zh & Nb). cbn [Nat.add] in Nb.
  destruct (div_near u M pow_i HR 0 4 _ _ _ _ _ (near_0 u M pow_i HR (cz d)) N3 E6) as (_ & Nc).
  set (t := Pt (c * fcos M beta) (c * fsin M beta) (- s)).
  assert (Nt : near3 u 1 t (Pt (@amul (@f_arith (fm_ops M)) c (fcos M beta)) (@amul (@f_arith (fm_ops M)) c (fsin M beta)) (- s))).
  { repeat split; cbn [t cx cy cz]; [apply (near_mul u M pow_i HR 0 0); apply (near_0 u M pow_i HR)|apply (near_mul u M pow_i HR 0 0); apply (near_0 u M pow_i HR)|apply (near_up u M pow_i HR 0 1); [lia|apply (near_0 u M pow_i HR)]]. }
  destruct (scale_near u M pow_i HR 1 4 _ _ _ _ _ Nt N3 E8) as (_ & Na). cbn [Nat.add] in Na.
  split; [exact Zv|]. split; [exact Zd|]. split; [exact Zh|]. split; [|split; [|split; [|split]]].
  - assert (Q := near_close u M pow_i HR _ _ _ N3). rewrite (Rabs_pos_eq (length3 d)) in Q by apply sqrt_pos. exact Q.
  - exact (near_close u M pow_i HR _ _ _ Nc).
  - exact (ap_close u _ _ _ _ (dot_ap u M pow_i HR 5 5 _ _ _ _ Nd Nv)).
  - assert (Q := ap_close u _ _ _ _ (dot_ap u M pow_i HR 3 5 _ _ _ _ Nb Nv)). unfold over at 1 3 in Q. cbn [cx cy cz] in Q. replace (0 / (cx d * cx d + cy d * cy d)) with 0 in Q by (unfold Rdiv; ring). exact Q.
  - exact (ap_close u _ _ _ _ (dot_ap u M pow_i HR 6 5 _ _ _ _ Na Nv)).
Qed.
(** The difference itself: two roundings of the sum of the sizes of the coordinates. *)
Theorem C94_difference : forall u M pow_i x center, relative_math u M pow_i -> let d := frelative M x center in
  close u 2 (cx x - cx center) (Rabs (cx x) + Rabs (cx center)) (cx d) /\ close u 2 (cy x - cy center) (Rabs (cy x) + Rabs (cy center)) (cy d) /\ close u 2 (cz x - cz center) (Rabs (cz x) + Rabs (cz center)) (cz d).
Proof.
  intros u M pow_i x ce HR. cbv zeta. assert (T : forall a b, close u 2 (a - b) (Rabs a + Rabs b) (@aadd (@f_arith (fm_ops M)) a (@amul (@f_arith (fm_ops M)) (-1) b))).
  { intros a b. apply ap_close. assert (P := ap_near u M pow_i HR _ _ _ (near_mul u M pow_i HR 0 0 _ _ _ _ (near_0 u M pow_i HR (-1)) (near_0 u M pow_i HR b))).
    assert (P0 : ap u 1 (Rabs a) a a) by (apply (ap_weak u M pow_i HR 0); [lia|apply (ap_exact u)]).
    eapply ap_eq; [| |exact (ap_add u M pow_i HR _ _ _ _ _ _ _ P0 P)]; [rewrite Rabs_mult, (Rabs_left (-1)) by lra; ring|ring]. }
  unfold frelative. cbn [cx cy cz]. split; [|split]; apply T.
Qed.
Example C94_dipole_instance : let u := bpow radix2 (-53) in let e := fresh 4 origin in relative_math u rounded_math re_pow_i /\
  exists e' rho c s beta dRho dAlpha dBeta, fm_dipole rounded_math e 1 off_point sideways = Some e' /\ slopes rounded_math (frelative rounded_math off_point origin) sideways rho c s beta dRho dAlpha dBeta /\
  forall n m, (m <= n <= 4)%nat -> Rabs (fst (coeff e' n m) - fst (dipole_value rounded_math n m rho c s beta dRho dAlpha dBeta 1)) <= 25 / 10 ^ 15 * fst (dipole_size rounded_math n m rho c s beta dRho dAlpha dBeta 1).
Proof.
  intros u e. assert (HR : relative_math u rounded_math re_pow_i).
  { apply (C94_in_double_precision rounded_math re_pow_i 0 rounded_math_ok rounded_signs). intros k _. rewrite Rminus_diag_eq, Rabs_R0 by reflexivity. apply Rmult_le_pos; [apply bpow_ge_0|apply Rabs_pos]. }
  split; [exact HR|]. destruct C91_nonvacuous as (_ & _ & _ & (C & E) & _).
  assert (E' : fm_dipole rounded_math e 1 off_point sideways = Some (Exp 4 origin false C)).
  { unfold fm_dipole. destruct (Req_EM_T 1 0); [lra|]. assert (E2 : fadd_normder rounded_math (e_p e) (e_center e) (e_coeffs e) 1 off_point sideways = Some C) by exact E. rewrite E2. reflexivity. }
  destruct (C94_dipole u rounded_math re_pow_i e 1 off_point sideways _ HR ltac:(lra) E') as (rho & c & s & beta & a & b & g & Sl & B).
  exists (Exp 4 origin false C), rho, c, s, beta, a, b, g. split; [exact E'|]. split; [exact Sl|]. intros n m L. destruct (B n m L) as (Q & _).
  change (coeff e n m) with (0, 0) in Q. cbn [rplus2 abs2 fst snd] in Q. rewrite Rabs_R0, !Rplus_0_l in Q.
  eapply Rle_trans; [exact Q|]. apply Rmult_le_compat_r; [|apply (C94_in_double_precision rounded_math re_pow_i 8 rounded_math_ok rounded_signs); [intros k _; rewrite Rminus_diag_eq, Rabs_R0 by reflexivity; apply Rmult_le_pos; [apply bpow_ge_0|apply Rabs_pos]|lia]].
  unfold dipole_size, csize. cbn [fst snd]. apply Rmult_le_pos; [|apply Rabs_pos]. apply Rplus_le_le_0_compat; apply Rabs_pos.
Qed.
