(** * The harmonics in spherical coordinates are the tabulated Legendre functions. *)
From Coq Require Import ZArith List Reals Lia Lra Bool.
From Coquelicot Require Import Coquelicot.
From Verif Require Import ModelLegendre ModelLegApi ModelExp SpecLegendre ProofsLegendre ProofsLegCheck ProofsHarm.
Import ListNotations.
Local Open Scope R_scope.

(** ** Derivatives of polynomials, up to evaluation *)
Definition peq (p q : poly) : Prop := forall x, peval p x = peval q x.
Lemma pder_ext p q : peq p q -> peq (pder p) (pder q).
Proof.
  intros H x. assert (A := pder_ok p x). assert (B := pder_ok q x).
  rewrite <- (is_derive_unique _ _ _ A), <- (is_derive_unique _ _ _ B). apply Derive_ext. exact H.
Qed.
Lemma pder_add p q x : peval (pder (padd p q)) x = peval (pder p) x + peval (pder q) x.
Proof.
  assert (A := pder_ok p x). assert (B := pder_ok q x). assert (C := pder_ok (padd p q) x).
  rewrite <- (is_derive_unique _ _ _ C). apply is_derive_unique.
  apply (is_derive_ext (fun t => peval p t + peval q t)); [intros; symmetry; apply peval_add|]. apply (is_derive_plus (K:=R_AbsRing) (V:=R_NormedModule)); auto.
Qed.
Lemma pder_scale k p x : peval (pder (pscale k p)) x = IZR k * peval (pder p) x.
Proof.
  assert (A := pder_ok p x). assert (C := pder_ok (pscale k p) x).
  rewrite <- (is_derive_unique _ _ _ C). apply is_derive_unique.
  apply (is_derive_ext (fun t => IZR k * peval p t)); [intros; symmetry; apply peval_scale|]. apply is_derive_scal. auto.
Qed.
Lemma pder_mul p q x : peval (pder (pmul p q)) x = peval (pder p) x * peval q x + peval p x * peval (pder q) x.
Proof.
  assert (A := pder_ok p x). assert (B := pder_ok q x). assert (C := pder_ok (pmul p q) x).
  rewrite <- (is_derive_unique _ _ _ C). apply is_derive_unique.
  apply (is_derive_ext (fun t => peval p t * peval q t)); [intros; symmetry; apply peval_mul|].
  apply (is_derive_mult (K:=R_AbsRing) (peval p) (peval q)); auto. intros; apply Rmult_comm.
Qed.
Lemma pdern_ext n p q : peq p q -> peq (pdern n p) (pdern n q).
Proof. intros H. induction n as [|n IH]; [exact H|]. cbn [pdern]. apply pder_ext, IH. Qed.
Lemma pdern_pder n p : pdern n (pder p) = pdern (S n) p.
Proof. induction n as [|n IH]; [reflexivity|]. cbn [pdern] in *. rewrite IH. reflexivity. Qed.
Definition W : poly := [(-1)%Z; 0%Z; 1%Z].
Lemma peval_W x : peval W x = x * x - 1. Proof. unfold W. cbn [peval]. ring. Qed.
Lemma pder_W x : peval (pder W) x = 2 * x. Proof. unfold W. cbn [pder pder_aux peval Z.mul Z.add Pos.mul Pos.add]. ring. Qed.
Lemma peval_px x : peval px x = x. Proof. unfold px. cbn [peval]. ring. Qed.
Lemma pder_px x : peval (pder px) x = 1. Proof. unfold px. cbn [pder pder_aux peval Z.mul Z.add Pos.mul Pos.add]. ring. Qed.
Lemma leib_x q k x : peval (pdern (S k) (pmul px q)) x = x * peval (pdern (S k) q) x + INR (S k) * peval (pdern k q) x.
Proof.
  revert x. induction k as [|k IH]; intros x.
  - cbn [pdern INR]. rewrite pder_mul, peval_px, pder_px. ring.
  - change (pdern (S (S k)) (pmul px q)) with (pder (pdern (S k) (pmul px q))).
    rewrite (pder_ext _ (padd (pmul px (pdern (S k) q)) (pscale (Z.of_nat (S k)) (pdern k q)))).
    2: { intros t. rewrite IH, peval_add, peval_mul, peval_scale, peval_px, <- INR_IZR_INZ. reflexivity. }
    rewrite pder_add, pder_mul, pder_scale, peval_px, pder_px, <- INR_IZR_INZ. rewrite (S_INR (S k)).
    change (pder (pdern (S k) q)) with (pdern (S (S k)) q). change (pder (pdern k q)) with (pdern (S k) q). ring.
Qed.
Lemma leib_W1 q x : peval (pdern 1 (pmul W q)) x = (x * x - 1) * peval (pdern 1 q) x + 2 * x * peval q x.
Proof. cbn [pdern]. rewrite pder_mul, peval_W, pder_W. ring. Qed.
Lemma leib_W q k x :
  peval (pdern (S (S k)) (pmul W q)) x =
  (x * x - 1) * peval (pdern (S (S k)) q) x + 2 * INR (S (S k)) * x * peval (pdern (S k) q) x + INR (S (S k)) * INR (S k) * peval (pdern k q) x.
Proof.
  revert x. induction k as [|k IH]; intros x.
  - change (pdern 2 (pmul W q)) with (pder (pdern 1 (pmul W q))).
    rewrite (pder_ext _ (padd (pmul W (pdern 1 q)) (pscale 2 (pmul px q)))).
    2: { intros t. rewrite leib_W1, peval_add, peval_scale, !peval_mul, peval_W, peval_px. ring. }
    rewrite pder_add, pder_scale, !pder_mul, peval_W, pder_W, peval_px, pder_px.
    cbn [INR]. change (pder (pdern 1 q)) with (pdern 2 q). change (pder q) with (pdern 1 q). cbn [pdern]. ring.
  - change (pdern (S (S (S k))) (pmul W q)) with (pder (pdern (S (S k)) (pmul W q))).
    rewrite (pder_ext _ (padd (pmul W (pdern (S (S k)) q)) (padd (pscale (2 * Z.of_nat (S (S k))) (pmul px (pdern (S k) q))) (pscale (Z.of_nat (S (S k)) * Z.of_nat (S k)) (pdern k q))))).
    2: { intros t. rewrite IH, !peval_add, !peval_scale, !peval_mul, peval_W, peval_px, !mult_IZR, <- !INR_IZR_INZ. ring. }
    rewrite !pder_add, !pder_scale, !pder_mul, peval_W, pder_W, peval_px, pder_px, !mult_IZR, <- !INR_IZR_INZ.
    change (pder (pdern (S (S k)) q)) with (pdern (S (S (S k))) q). change (pder (pdern (S k) q)) with (pdern (S (S k)) q). change (pder (pdern k q)) with (pdern (S k) q).
    rewrite (S_INR (S (S k))), (S_INR (S k)), (S_INR k). ring.
Qed.
Lemma rod_S n m : (1 <= n + m)%nat -> (1 <= m)%nat -> forall x,
  peval (rod (S n) m) x = (x * x - 1) * peval (rod n (m + 1)) x + 2 * INR (n + m + 1) * x * peval (rod n m) x + INR (n + m + 1) * INR (n + m) * peval (rod n (m - 1)) x.
Proof.
  intros H Hm x. unfold rod. change (ppow [(-1)%Z; 0%Z; 1%Z] (S n)) with (pmul W (ppow W n)). fold W.
  replace (S n + m)%nat with (S (S (n + m - 1))) by lia. rewrite leib_W.
  replace (S (S (n + m - 1)))%nat with (n + m + 1)%nat by lia. replace (S (n + m - 1))%nat with (n + m)%nat by lia.
  replace (n + (m + 1))%nat with (n + m + 1)%nat by lia. replace (n + (m - 1))%nat with (n + m - 1)%nat by lia. reflexivity.
Qed.
(** (x^2-1) d^(n+1) F = n (n+1) d^(n-1) F for F = (x^2-1)^n *)
Lemma ode n x : peval (pmul W (pder (ppow W n))) x = 2 * INR n * x * peval (ppow W n) x.
Proof.
  induction n as [|n IH].
  - cbn [ppow pder pder_aux INR]. rewrite peval_mul. cbn [peval]. ring.
  - cbn [ppow]. rewrite peval_mul, pder_mul, peval_mul, pder_W in *. rewrite S_INR.
    transitivity (peval W x * (2 * x * peval (ppow W n) x) + peval W x * (peval W x * peval (pder (ppow W n)) x)); [ring|]. rewrite IH. ring.
Qed.
Lemma rod_sym n x : (1 <= n)%nat -> INR (n + 1) * INR n * peval (pdern (n - 1) (ppow W n)) x = (x * x - 1) * peval (rod n 1) x.
Proof.
  intros H. unfold rod. fold W. set (F := ppow W n).
  assert (E : peq (pdern n (pmul W (pder F))) (pdern n (pscale (2 * Z.of_nat n) (pmul px F)))).
  { apply pdern_ext. intros t. unfold F. rewrite ode, peval_scale, peval_mul, peval_px, mult_IZR, <- INR_IZR_INZ. ring. }
  specialize (E x).
  assert (S1 : forall k j, peval (pdern j (pscale k (pmul px F))) x = IZR k * peval (pdern j (pmul px F)) x).
  { clear. intros k j. revert x. induction j as [|j IH]; intros x; cbn [pdern]; [apply peval_scale|].
    rewrite (pder_ext _ (pscale k (pdern j (pmul px F)))) by (intros t; rewrite IH, peval_scale; reflexivity). apply pder_scale. }
  rewrite S1, mult_IZR, <- INR_IZR_INZ in E. destruct n as [|[|n]]; [lia| |].
  - rewrite leib_W1, leib_x in E. cbn [pdern INR Nat.add Nat.sub] in *. lra.
  - rewrite leib_W, leib_x, !pdern_pder in E. replace (S (S n) - 1)%nat with (S n) by lia. replace (S (S n) + 1)%nat with (S (S (S n))) by lia.
    rewrite (S_INR (S (S n))), (S_INR (S n)), (S_INR n) in *. lra.
Qed.
Lemma rod_S0 n x : peval (rod (S n) 0) x = 2 * (x * x - 1) * peval (rod n 1) x + 2 * INR (n + 1) * x * peval (rod n 0) x.
Proof.
  destruct n as [|n].
  - unfold rod. cbn. ring.
  - assert (Y := rod_sym (S n) x ltac:(lia)). revert Y. unfold rod. fold W. change (ppow W (S (S n))) with (pmul W (ppow W (S n))).
    replace (S (S n) + 0)%nat with (S (S n)) by lia. rewrite leib_W. replace (S n - 1)%nat with n by lia. replace (S n + 1)%nat with (S (S n)) by lia.
    replace (S n + 0)%nat with (S n) by lia. intros Y. rewrite Y. ring.
Qed.

(** ** The real recurrence on the sphere *)
Fixpoint tt (c s : R) (n : nat) (m : Z) : R :=
  match n with
  | O => if Z.eqb m 0 then 1 else 0
  | S k => (s / 2 * tt c s k (m - 1) + c * tt c s k m - s / 2 * tt c s k (m + 1)) / INR (S k)
  end.
Definition sgz (m : Z) : R := (-1) ^ Z.abs_nat m.
Lemma sgz_step m : sgz (m + 1) = - sgz m /\ sgz (m - 1) = - sgz m.
Proof.
  assert (K : forall a b, (Z.abs_nat b = S (Z.abs_nat a) \/ Z.abs_nat a = S (Z.abs_nat b)) -> sgz b = - sgz a).
  { intros a b [E|E]; unfold sgz; rewrite E; simpl; ring. }
  split; apply K; lia.
Qed.
Lemma tt_sym c s n m : tt c s n (- m) = sgz m * tt c s n m.
Proof.
  revert m. induction n as [|n IH]; intros m; cbn [tt].
  - destruct (Z.eqb_spec (- m) 0), (Z.eqb_spec m 0); try lia; subst; unfold sgz; simpl; ring.
  - replace (- m - 1)%Z with (- (m + 1))%Z by lia. replace (- m + 1)%Z with (- (m - 1))%Z by lia. rewrite !IH.
    destruct (sgz_step m) as [-> ->]. field. apply not_0_INR. lia.
Qed.
Lemma factS n : INR (fact (S n)) = INR (S n) * INR (fact n).
Proof. change (fact (S n)) with (S n * fact n)%nat. apply mult_INR. Qed.
Lemma fact_nz n : INR (fact n) <> 0.
Proof. apply not_0_INR. apply fact_neq_0. Qed.
Lemma tt_rod c s n m : s * s = 1 - c * c ->
  tt c s n (Z.of_nat m) = s ^ m * peval (rod n m) c / (2 ^ n * INR (fact n) * INR (fact (n + m))).
Proof.
  intros Hs. revert m. induction n as [|n IH]; intros m.
  - cbn [tt]. destruct m as [|m].
    + unfold rod. cbn. field.
    + replace (peval (rod 0 (S m)) c) with 0.
      2: { unfold rod. cbn [ppow Nat.add]. assert (Z0 : forall k, pdern (S k) [1%Z] = []) by (induction k as [|k IHk]; [reflexivity|]; change (pdern (S (S k)) [1%Z]) with (pder (pdern (S k) [1%Z])); rewrite IHk; reflexivity).
           rewrite Z0. reflexivity. }
      unfold Rdiv. rewrite Rmult_0_r, Rmult_0_l. destruct (Z.eqb_spec (Z.of_nat (S m)) 0); [lia|reflexivity].
  - assert (N1 : INR (S n) <> 0) by (apply not_0_INR; lia). assert (P2 : 2 ^ n <> 0) by (apply pow_nonzero; lra). assert (F1 := fact_nz n).
    cbn [tt]. destruct m as [|m].
    + change (Z.of_nat 0 - 1)%Z with (- Z.of_nat 1)%Z. change (Z.of_nat 0 + 1)%Z with (Z.of_nat 1).
      rewrite tt_sym. unfold sgz. change (Z.abs_nat (Z.of_nat 1)) with 1%nat.
      rewrite !IH. rewrite rod_S0. rewrite !Nat.add_0_r. replace (n + 1)%nat with (S n) by lia. rewrite !factS. simpl (2 ^ S n). simpl (s ^ 1). simpl (s ^ 0).
      replace (2 * (c * c - 1)) with (- 2 * (s * s)) by (rewrite Hs; ring). field; repeat split; auto.
    + replace (Z.of_nat (S m) - 1)%Z with (Z.of_nat m) by lia. replace (Z.of_nat (S m) + 1)%Z with (Z.of_nat (S (S m))) by lia.
      rewrite !IH. rewrite rod_S by lia. replace (S m - 1)%nat with m by lia. replace (S m + 1)%nat with (S (S m)) by lia.
      replace (n + S m + 1)%nat with (S (S (n + m))) by lia. replace (n + S m)%nat with (S (n + m)) by lia. replace (n + S (S m))%nat with (S (S (n + m))) by lia. replace (S n + S m)%nat with (S (S (n + m))) by lia.
      rewrite !factS. simpl (2 ^ S n). cbn [pow].
      replace (c * c - 1) with (- (s * s)) by (rewrite Hs; ring).
      assert (F2 := fact_nz (n + m)). assert (N2 : INR (S (n + m)) <> 0) by (apply not_0_INR; lia). assert (N3 : INR (S (S (n + m))) <> 0) by (apply not_0_INR; lia).
      field; repeat split; auto.
Qed.
