(** * C95: accuracy of the Legendre tables in rounded arithmetic *)
From Coq Require Import ZArith Reals List Lia Lra Bool Arith QArith Qreals.
From Coquelicot Require Import Coquelicot.
From Flocq Require Import Core.
From Verif Require Import ModelLegendre ModelLegTable ModelLegApi SpecLegendre ProofsLegendre PropLegendre ModelFmm ModelFloat SpecFloat ProofsFloat PropFloat ModelFloatExp SpecFloatExp PropFloatExp2 ModelFloatExp2 SpecFloatTrans ProofsFloatTrans PropFloatTrans ProofsLegAcc SpecLegAcc.
From Verif Require Import ModelExp LibFlx ProofsFloatLeg PropFloatExp5.
Import ListNotations.
Local Open Scope R_scope.

Definition fits (l : list (nat * Z * Z)) (n m : nat) (p : prog) : bool :=
  match prog_bound p with
  | Some t => let '(k, s, w) := bound_of l n in Nat.leb (a_k t) k && Qle_bool (a_M t) (inject_Z s) && (if Nat.even m then Qeq_bool (a_E t) 0 else Qle_bool (a_E t) (inject_Z w))
  | None => false
  end.
Lemma all_value_bounds : forallb (on leg_pointers_assignments (fits value_bounds)) entries = true.
Proof. vm_compute. reflexivity. Qed.
Lemma all_derivative_bounds : forallb (on leg_der_pointers_assignments (fun n m p => Nat.eqb m 1 || fits derivative_bounds n m p)) entries = true.
Proof. vm_compute. reflexivity. Qed.
Lemma Qle_bool_R a b : Qle_bool a b = true -> Q2R a <= Q2R b. Proof. intros E. apply Qle_Rle, Qle_bool_iff, E. Qed.
Lemma fits_error u M pow_i l n m p x eta v vh : relative_math u M pow_i -> constants_within u M -> -1 <= x <= 1 -> root_error_bound u eta x ->
  fits l n m p = true -> run p x = Some v -> frun M p x = Some vh -> Rabs (vh - v) <= legendre_error u eta l n m.
Proof.
  intros HR HC Hx (He & Hs) F E Eh. unfold fits in F. destruct (prog_bound p) as [t|] eqn:T; [|discriminate].
  destruct (prog_sound u M pow_i HR HC x Hx eta He Hs p t v vh T E Eh) as ((P0 & P1 & _ & P3) & _).
  unfold legendre_error. destruct (bound_of l n) as [[k s] w]. apply andb_prop in F as (F & F3). apply andb_prop in F as (F1 & F2). apply Nat.leb_le in F1. apply Qle_bool_R in F2. rewrite Q2R_Z in F2.
  assert (Gk := Gge u M pow_i HR (a_k t)). assert (Gm : ProofsFloatTrans.G u (a_k t) <= ProofsFloatTrans.G u k) by (exact (G_le u M pow_i HR _ _ F1)).
  replace (gam u k) with (ProofsFloatTrans.G u k - 1) by reflexivity. set (g := ProofsFloatTrans.G u (a_k t)) in *. set (g' := ProofsFloatTrans.G u k) in *.
  eapply Rle_trans; [exact P3|]. apply Rplus_le_compat; [apply Rmult_le_compat; lra|].
  destruct (Nat.even m).
  - apply Qeq_bool_R in F3. rewrite F3. replace (Q2R 0) with 0 by (unfold Q2R; cbn; ring). lra.
  - apply Qle_bool_R in F3. rewrite Q2R_Z in F3. replace (1 + (g' - 1)) with g' by ring. rewrite Rmult_assoc. apply Rmult_le_compat; [lra|apply Rmult_le_pos; lra|lra|apply Rmult_le_compat_r; lra].
Qed.

(** ** The theorems *)
(** The value computed for the argument x differs from the associated Legendre function by at most the bound of its degree. *)
Theorem C95_values : forall u M pow_i eta n m x v, relative_math u M pow_i -> constants_within u M -> (m <= n <= 20)%nat -> -1 <= x <= 1 -> root_error_bound u eta x ->
  fGetAssLegFunSph M n m x = Some v -> Rabs (v - Plm n m x) <= legendre_error u eta value_bounds n m.
Proof.
  intros u M pow_i eta n m x v HR HC H Hx He E. assert (A := proj1 (forallb_forall _ _) all_value_bounds _ (entries_in n m H)). apply on_ok in A as (p & T & F).
  assert (V := C11_table_values n m x H Hx). unfold GetAssLegFunSph in V. unfold fGetAssLegFunSph in E. rewrite T in E, V. cbn [lbind] in E, V. cbn [ModelLegendre.bind] in E, V.
  exact (fits_error u M pow_i _ n m p x eta _ _ HR HC Hx He F V E).
Qed.
(** The same for the derivatives; for order 1 the program divides by sqrt(1 - x^2), and there is no such bound. *)
Theorem C95_derivatives : forall u M pow_i eta n m x v, relative_math u M pow_i -> constants_within u M -> (m <= n <= 20)%nat -> m <> 1%nat -> -1 < x < 1 -> root_error_bound u eta x ->
  fGetAssLegFunSphDeriv M n m x = Some v -> Rabs (v - Derive (Plm n m) x) <= legendre_error u eta derivative_bounds n m.
Proof.
  intros u M pow_i eta n m x v HR HC H N Hx He E. assert (A := proj1 (forallb_forall _ _) all_derivative_bounds _ (entries_in n m H)). apply on_ok in A as (p & T & F).
  apply orb_prop in F as [F|F]; [apply Nat.eqb_eq in F; contradiction|].
  destruct (C12_table_derivatives n m x H Hx) as (d & V & D). rewrite (is_derive_unique _ _ _ D). unfold GetAssLegFunSphDeriv in V. unfold fGetAssLegFunSphDeriv in E. rewrite T in E, V. cbn [ModelLegendre.bind] in E, V.
  exact (fits_error u M pow_i _ n m p x eta _ _ HR HC ltac:(lra) He F V E).
Qed.
(** The error of the root: the square root of four roundings everywhere, four roundings divided by sqrt(1 - x^2) away from the poles. *)
Theorem C95_root_error : forall u M pow_i x, relative_math u M pow_i -> gam u 4 <= 1 -> -1 <= x <= 1 ->
  root_error_bound u (sqrt (gam u 4)) x /\ (gam u 4 <= sqrt (1 - x ^ 2) -> 0 < sqrt (1 - x ^ 2) -> root_error_bound u (gam u 4 / sqrt (1 - x ^ 2)) x).
Proof.
  intros u M pow_i x HR G1 Hx. assert (G0 : 0 <= gam u 4) by (assert (W := Gge u M pow_i HR 4); unfold gam; unfold ProofsFloatTrans.G in W; lra). split.
  - split; [split; [apply sqrt_pos|rewrite <- sqrt_1; apply sqrt_le_1_alt; exact G1]|]. left. replace (sqrt (gam u 4) ^ 2) with (sqrt (gam u 4) * sqrt (gam u 4)) by ring. rewrite sqrt_sqrt by exact G0. lra.
  - intros G2 P. split; [split|].
    + apply Rmult_le_pos; [exact G0|left; apply Rinv_0_lt_compat, P].
    + apply Rmult_le_reg_r with (sqrt (1 - x ^ 2)); [exact P|]. unfold Rdiv. rewrite Rmult_assoc, Rinv_l by lra. lra.
    + right. unfold Rdiv. rewrite Rmult_assoc, Rinv_l by lra. lra.
Qed.
(** With exact arithmetic the error is 0: the bound is not vacuous in the constants. *)
Theorem C95_without_rounding : forall n m, legendre_error 0 0 value_bounds n m = 0 /\ legendre_error 0 0 derivative_bounds n m = 0.
Proof.
  intros n m. unfold legendre_error. split; destruct (bound_of _ n) as [[k s] w]; rewrite gam_0; destruct (Nat.even m); ring.
Qed.

(** ** Double precision *)
Lemma u53 : bpow radix2 (-53) = / 9007199254740992.
Proof. cbn [bpow]. change (Z.pow_pos radix2 53) with 9007199254740992%Z. reflexivity. Qed.
Lemma gam_double n : (n <= 57)%nat -> 0 <= gam (bpow radix2 (-53)) n <= INR n * (112 / 10 ^ 18).
Proof.
  intros L. rewrite u53. assert (Ln : 0 <= INR n <= 57) by (split; [apply pos_INR|apply le_INR in L; replace (INR 57) with 57 in L by (rewrite INR_IZR_INZ; reflexivity); exact L]).
  destruct (C80_rounding_factor (/ 9007199254740992) n ltac:(lra) ltac:(lra)) as (A & B). split; [exact A|]. eapply Rle_trans; [exact B|].
  assert (P : 0 < 1 - INR n * / 9007199254740992) by lra. apply Rmult_le_reg_r with (1 - INR n * / 9007199254740992); [exact P|]. unfold Rdiv at 1. rewrite Rmult_assoc, Rinv_l by lra. rewrite Rmult_1_r.
  rewrite Rmult_assoc. apply Rmult_le_compat_l; [lra|]. lra.
Qed.
Lemma double_constants M : double_math M -> constants_within (bpow radix2 (-53)) M.
Proof. intros HM z. rewrite (proj2 HM). apply flx_error. Qed.
(** Order 10 (the highest whose translations the program tabulates): the values of even order are right to 4e-12, those of odd order to 4e-12 plus 181 times the error of the root, which is at most 2.2e-8 and, away from the poles, of the order of the rounding. *)
Theorem C95_in_double_precision : forall M n m x, double_math M -> (forall k, fpow M (-1) (Z.of_nat k) = (-1) ^ k) -> (m <= n <= 10)%nat -> -1 <= x <= 1 -> exists v, fGetAssLegFunSph M n m x = Some v /\
  (Nat.even m = true -> Rabs (v - Plm n m x) <= 4 / 10 ^ 12) /\
  (Rabs (v - Plm n m x) <= 41 / 10 ^ 7) /\
  (1 / 2 <= sqrt (1 - x ^ 2) -> Rabs (v - Plm n m x) <= 5 / 10 ^ 12).
Proof.
  intros M n m x HM HS H Hx. destruct (leg_finite M x n m HM Hx ltac:(lia) ltac:(lia)) as (v & E). exists v. split; [exact E|]. set (u := bpow radix2 (-53)).
  assert (HR : relative_math u M re_pow_i).
  { apply (C94_in_double_precision M re_pow_i 0 HM HS). intros k _. rewrite Rminus_diag_eq, Rabs_R0 by reflexivity. apply Rmult_le_pos; [apply bpow_ge_0|apply Rabs_pos]. }
  assert (HC := double_constants M HM). assert (G4 := gam_double 4 ltac:(lia)). replace (INR 4) with 4 in G4 by (cbn; lra). fold u in G4, HC.
  destruct (C95_root_error u M re_pow_i x HR ltac:(lra) Hx) as (R1 & R2).
  assert (B : exists k s w, bound_of value_bounds n = (k, s, w) /\ (k <= 32)%nat /\ (0 <= s <= 1091)%Z /\ (0 <= w <= 181)%Z).
  { assert (F : forallb (fun n => let '(k, s, w) := bound_of value_bounds n in Nat.leb k 32 && Z.leb 0 s && Z.leb s 1091 && Z.leb 0 w && Z.leb w 181) (seq 0 11) = true) by (vm_compute; reflexivity).
    rewrite forallb_forall in F. specialize (F n ltac:(apply in_seq; lia)). destruct (bound_of value_bounds n) as [[k s] w]. exists k, s, w. rewrite !andb_true_iff, Nat.leb_le, !Z.leb_le in F. destruct F as ((((F1 & F2) & F3) & F4) & F5). auto. }
  destruct B as (k & s & w & B & Lk & Ls & Lw). assert (Gk := gam_double k ltac:(lia)). fold u in Gk. assert (Lk' : INR k <= 32) by (apply le_INR in Lk; replace (INR 32) with 32 in Lk by (rewrite INR_IZR_INZ; reflexivity); exact Lk).
  assert (S1 : 0 <= IZR s <= 1091) by (split; [apply IZR_le|apply IZR_le]; lia). assert (W1 : 0 <= IZR w <= 181) by (split; [apply IZR_le|apply IZR_le]; lia).
  assert (Gk' : 0 <= gam u k <= 3584 / 10 ^ 18) by lra. assert (T1 : gam u k * IZR s <= 3584 / 10 ^ 18 * 1091) by (apply Rmult_le_compat; lra).
  assert (T2 : forall eta e', 0 <= eta <= e' -> (1 + gam u k) * IZR w * eta <= 2 * 181 * e' /\ (1 + gam u k) * IZR w * eta <= (1 + 3584 / 10 ^ 18) * 181 * e').
  { intros eta e' L. split; (apply Rmult_le_compat; [apply Rmult_le_pos; lra|lra|apply Rmult_le_compat; lra|lra]). }
  assert (Bd := fun eta He => C95_values u M re_pow_i eta n m x v HR HC ltac:(lia) Hx He E). unfold legendre_error in Bd. rewrite B in Bd.
  assert (Rt : 0 <= sqrt (gam u 4) <= 212 / 10 ^ 10).
  { split; [apply sqrt_pos|]. rewrite <- (sqrt_Rsqr (212 / 10 ^ 10)) by lra. apply sqrt_le_1_alt. unfold Rsqr. lra. }
  split; [|split].
  - intros Ev. specialize (Bd _ R1). rewrite Ev in Bd. lra.
  - specialize (Bd _ R1). destruct (T2 _ _ Rt) as (_ & T). destruct (Nat.even m); lra.
  - intros P. specialize (R2 ltac:(lra) ltac:(lra)). specialize (Bd _ R2).
    assert (Q : 0 <= gam u 4 / sqrt (1 - x ^ 2) <= 9 / 10 ^ 16).
    { split; [apply R2|]. apply Rmult_le_reg_r with (sqrt (1 - x ^ 2)); [lra|]. unfold Rdiv at 1. rewrite Rmult_assoc, Rinv_l by lra. lra. }
    destruct (T2 _ _ Q) as (T & _). destruct (Nat.even m); lra.
Qed.

Example C95_nonvacuous : let u := bpow radix2 (-53) in relative_math u rounded_math re_pow_i /\ constants_within u rounded_math /\ root_error_bound u (sqrt (gam u 4)) (1 / 3) /\
  exists v d, fGetAssLegFunSph rounded_math 10 3 (1 / 3) = Some v /\ Rabs (v - Plm 10 3 (1 / 3)) <= 5 / 10 ^ 12 /\
  fGetAssLegFunSphDeriv rounded_math 10 2 (1 / 2) = Some d /\ Rabs (d - Derive (Plm 10 2) (1 / 2)) <= 3 / 10 ^ 11.
Proof.
  intros u. assert (HR : relative_math u rounded_math re_pow_i).
  { apply (C94_in_double_precision rounded_math re_pow_i 0 rounded_math_ok rounded_signs). intros k _. rewrite Rminus_diag_eq, Rabs_R0 by reflexivity. apply Rmult_le_pos; [apply bpow_ge_0|apply Rabs_pos]. }
  assert (HC := double_constants rounded_math rounded_math_ok). assert (G4 := gam_double 4 ltac:(lia)). replace (INR 4) with 4 in G4 by (cbn; lra). fold u in G4, HC.
  assert (R1 := fun x Hx => proj1 (C95_root_error u rounded_math re_pow_i x HR ltac:(lra) Hx)).
  split; [exact HR|]. split; [exact HC|]. split; [apply R1; lra|].
  assert (D2 : LibFlx.double (1 / 2)) by (generalize (double_IZR 1 (-1) eq_refl); cbn [bpow]; change (Z.pow_pos radix2 1) with 2%Z; unfold Rdiv; auto).
  destruct (C95_in_double_precision rounded_math 10 3 (1 / 3) rounded_math_ok rounded_signs ltac:(lia) ltac:(lra)) as (v & E & _ & _ & B).
  destruct (leg_der_finite rounded_math (1 / 2) 10 2 rounded_math_ok D2 ltac:(lra) ltac:(lia) ltac:(lia)) as (d & Ed).
  exists v, d. split; [exact E|]. split; [|split; [exact Ed|]].
  - apply B. rewrite <- (sqrt_Rsqr (1 / 2)) by lra. apply sqrt_le_1_alt. unfold Rsqr. lra.
  - eapply Rle_trans; [exact (C95_derivatives u rounded_math re_pow_i _ 10 2 (1 / 2) d HR HC ltac:(lia) ltac:(lia) ltac:(lra) (R1 (1 / 2) ltac:(lra)) Ed)|].
    unfold legendre_error. change (bound_of derivative_bounds 10) with (30%nat, 7831%Z, 1187%Z). cbv beta iota. change (Nat.even 2) with true. cbv iota.
    assert (G30 := gam_double 30 ltac:(lia)). replace (INR 30) with 30 in G30 by (rewrite INR_IZR_INZ; reflexivity). fold u in G30. lra.
Qed.
