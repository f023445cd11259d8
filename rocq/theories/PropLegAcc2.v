(** * C95: values of expansions against the exact Legendre functions *)
From Coq Require Import ZArith Reals List Lia Lra Bool Arith.
From Coquelicot Require Import Coquelicot.
From Flocq Require Import Core.
From Verif Require Import ModelLegendre ModelLegTable ModelLegApi SpecLegendre PropLegendre ModelExp ProofsExp LibSum ModelFmm ModelFloat SpecFloat ProofsFloat PropFloat ModelFloatExp SpecFloatExp LibFlx ProofsFloatExp PropFloatExp PropFloatExp2 PropFloatExp5 ModelFloatExp2 SpecFloatTrans ProofsFloatTrans ProofsFloatTrans2 PropFloatTrans ProofsFloatLeg SpecLegAcc PropLegAcc.
Import ListNotations.
Local Open Scope R_scope.

(** the sum of [value_terms] with the exact associated Legendre functions *)
Definition true_value (M : fmath) (e : expansion) (r : nat -> R) (c beta : R) : R :=
  suml (nm_pairs (e_p e)) (fun nm => let n := fst nm in let m := snd nm in
    fst (cterm (e_coeffs e (tri n m)) (match m with O => (1, 0) | _ => wave M (Z.of_nat m) beta end) ((match m with O => 1 | _ => 2 end) * (Plm n m c * r n)))).
(** the error of each tabulated value times the size of what multiplies it *)
Definition legendre_part (M : fmath) (u eta : R) (e : expansion) (r : nat -> R) (beta : R) : R :=
  suml (nm_pairs (e_p e)) (fun nm => let n := fst nm in let m := snd nm in
    fst (csize (e_coeffs e (tri n m)) (match m with O => (1, 0) | _ => wave M (Z.of_nat m) beta end) ((match m with O => 1 | _ => 2 end) * r n)) * legendre_error u eta value_bounds n m).
Lemma suml_close {T} (l : list T) f g h : (forall x, In x l -> Rabs (f x - g x) <= h x) -> Rabs (suml l f - suml l g) <= suml l h.
Proof.
  induction l as [|x l IH]; intros B; cbn [suml fold_right]; [rewrite Rminus_diag_eq, Rabs_R0 by reflexivity; lra|].
  fold (suml l f) (suml l g) (suml l h). replace (f x + suml l f - (g x + suml l g)) with ((f x - g x) + (suml l f - suml l g)) by ring. eapply Rle_trans; [apply Rabs_triang|].
  apply Rplus_le_compat; [apply B; left; reflexivity|apply IH; intros; apply B; right; assumption].
Qed.
Lemma legendre_close u M pow_i eta e r c beta : relative_math u M pow_i -> constants_within u M -> (e_p e <= 20)%nat -> -1 <= c <= 1 -> root_error_bound u eta c ->
  (forall n m, (m <= n <= e_p e)%nat -> fGetAssLegFunSph M n m c <> None) ->
  Rabs (value_terms cterm M e r c beta - true_value M e r c beta) <= legendre_part M u eta e r beta.
Proof.
  intros HR HC L Hc He D. unfold value_terms, true_value, legendre_part, csum. cbn [fst]. apply suml_close. intros [n m] I. apply nm_in in I. cbn [fst snd].
  assert (P : Rabs (legendre M n m c - Plm n m c) <= legendre_error u eta value_bounds n m).
  { specialize (D n m I). unfold legendre. destruct (fGetAssLegFunSph M n m c) as [v|] eqn:E; [|contradiction]. cbn [entry_of]. exact (C95_values u M pow_i eta n m c v HR HC ltac:(lia) Hc He E). }
  set (w := match m with O => (1, 0) | _ => _ end). set (k := match m with O => 1 | _ => 2 end). set (a := e_coeffs e (tri n m)). cbn [fst cterm csize].
  replace ((fst a * fst w - snd a * snd w) * (k * (legendre M n m c * r n)) - (fst a * fst w - snd a * snd w) * (k * (Plm n m c * r n))) with ((fst a * fst w - snd a * snd w) * (k * r n) * (legendre M n m c - Plm n m c)) by ring.
  rewrite Rabs_mult. apply Rmult_le_compat; [apply Rabs_pos|apply Rabs_pos| |exact P]. rewrite Rabs_mult. apply Rmult_le_compat_r; [apply Rabs_pos|].
  eapply Rle_trans; [apply Rabs_triang|]. rewrite Rabs_Ropp. lra.
Qed.
(** The value of an expansion against the series with the exact Legendre functions, at the coordinates the program computes: the roundings of C94 and the error of each Legendre value. *)
Theorem C95_values_of_expansions : forall u M pow_i eta e x rho c beta v, relative_math u M pow_i -> constants_within u M -> (e_p e <= 20)%nat -> e_zero e = false ->
  fspher M (frelative M x (e_center e)) = Some (rho, c, beta) -> -1 <= c <= 1 -> root_error_bound u eta c -> (forall n m, (m <= n <= e_p e)%nat -> fGetAssLegFunSph M n m c <> None) ->
  let roundings := (6 + (e_p e + 1) * (e_p e + 2) / 2)%nat in
  (fl_evaluate M e x = Some v -> let r := fun n => fpow M rho (Z.of_nat n) in
     Rabs (v - true_value M e r c beta) <= gam u roundings * value_terms csize M e r c beta + legendre_part M u eta e r beta) /\
  (fm_evaluate M e x = Some v -> let r := fun n => fpow M rho (- Z.of_nat n - 1) in
     Rabs (v - true_value M e r c beta) <= gam u roundings * value_terms csize M e r c beta + legendre_part M u eta e r beta).
Proof.
  intros u M pow_i eta e x rho c beta v HR HC L Z Sp Hc He D. cbv zeta. destruct (C94_values u M pow_i e x rho c beta v HR Z Sp) as (A & B). cbv zeta in A, B.
  assert (Q := fun r => legendre_close u M pow_i eta e r c beta HR HC L Hc He D).
  assert (T : forall a b d p q, Rabs (a - b) <= p -> Rabs (b - d) <= q -> Rabs (a - d) <= p + q) by (intros a b d p q P1 P2; replace (a - d) with ((a - b) + (b - d)) by ring; eapply Rle_trans; [apply Rabs_triang|lra]).
  split; intros E; (eapply T; [|apply Q]); auto.
Qed.
(** In double precision every Legendre value is defined and the cosine is between -1 and 1, for every point other than the centre. *)
Theorem C95_defined_in_double_precision : forall M e x, double_math M -> (e_p e <= 20)%nat -> double_point (e_center e) -> x <> e_center e ->
  exists rho c beta, fspher M (frelative M x (e_center e)) = Some (rho, c, beta) /\ -1 <= c <= 1 /\ forall n m, (m <= n <= e_p e)%nat -> fGetAssLegFunSph M n m c <> None.
Proof.
  intros M e x HM L D N. assert (Nz := proj2 (rel_nonzero M x (e_center e) HM D) N). assert (Rd := rel_double M x (e_center e) HM). set (d := frelative M x (e_center e)) in *.
  rewrite (fspher_some M d HM Nz). assert (Rc := cos_range d Nz (proj2 (proj2 Rd))). eexists _, _, _. split; [reflexivity|]. split; [exact Rc|]. intros n m I.
  destruct (leg_finite M (cosd d) n m HM Rc ltac:(lia) ltac:(lia)) as (v & ->). discriminate.
Qed.

(** an expansion, a point where it is evaluated in double precision, and the bound with the constants of the program *)
Example C95_values_instance : let u := bpow radix2 (-53) in let e := Exp 4 origin false (fun _ => (1, 1)) in exists rho c beta v, fm_evaluate rounded_math e off_point = Some v /\
  fspher rounded_math (frelative rounded_math off_point (e_center e)) = Some (rho, c, beta) /\
  Rabs (v - true_value rounded_math e (fun n => fpow rounded_math rho (- Z.of_nat n - 1)) c beta) <=
  gam u 21 * value_terms csize rounded_math e (fun n => fpow rounded_math rho (- Z.of_nat n - 1)) c beta + legendre_part rounded_math u (sqrt (gam u 4)) e (fun n => fpow rounded_math rho (- Z.of_nat n - 1)) beta.
Proof.
  intros u e. assert (On : off_point <> origin) by (unfold off_point, origin; intros F; injection F; lra).
  destruct (C95_nonvacuous) as (HR & HC & _). fold u in HR, HC.
  destruct (C95_defined_in_double_precision rounded_math e off_point rounded_math_ok ltac:(cbn; lia) origin_double On) as (rho & c & beta & Sp & Hc & D).
  destruct (C91_evaluation_is_finite rounded_math 4 origin (fun _ => (1, 1)) off_point rounded_math_ok ltac:(lia) origin_double On) as (v & E). exists rho, c, beta, v.
  assert (E' : fm_evaluate rounded_math e off_point = Some v) by exact E. split; [exact E'|]. split; [exact Sp|].
  assert (G4 := gam_double 4 ltac:(lia)). replace (INR 4) with 4 in G4 by (cbn; lra). fold u in G4.
  exact (proj2 (C95_values_of_expansions u rounded_math re_pow_i _ e off_point rho c beta v HR HC ltac:(cbn; lia) eq_refl Sp Hc (proj1 (C95_root_error u rounded_math re_pow_i c HR ltac:(lra) Hc)) D) E').
Qed.
