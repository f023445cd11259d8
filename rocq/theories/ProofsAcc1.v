(** * Three-term relations of the solid harmonics, Bonnet's recurrence, and the norm of a solid harmonic. *)
From Coq Require Import ZArith List Reals Lia Lra Bool.
From Coquelicot Require Import Coquelicot.
From Verif Require Import ModelLegendre ModelLegApi ModelExp SpecLegendre ProofsLegendre ProofsLegCheck ProofsHarm ProofsHarm2 ProofsHarm3.
Import ListNotations.
Local Open Scope C_scope.

Definition zC (m : Z) : C := RtoC (IZR m).
Lemma zC_add a b : zC (a + b) = zC a + zC b.
Proof. unfold zC. rewrite plus_IZR, RtoC_plus. reflexivity. Qed.
Lemma zC_opp a : zC (- a) = - zC a.
Proof. unfold zC. rewrite opp_IZR, RtoC_opp. reflexivity. Qed.
Lemma zC_sub a b : zC (a - b) = zC a - zC b.
Proof. unfold Z.sub. rewrite zC_add, zC_opp. reflexivity. Qed.
Lemma zC_nat n : zC (Z.of_nat n) = nC n.
Proof. unfold zC, nC. rewrite INR_IZR_INZ. reflexivity. Qed.
Lemma Csub0 (a b : C) : a - b = 0 -> a = b.
Proof. intros E. transitivity (a - b + b); [ring|]. rewrite E. ring. Qed.

Ltac ff := change (nC (2 * 0 + 1)) with (RtoC 1); change (nC 1) with (RtoC 1); change (nC 0) with (RtoC 0); rewrite ?zC_opp; change (zC 1) with (RtoC 1); change (zC 0) with (RtoC 0); ring.
Lemma C1_nz : (1 : C) <> 0. Proof. intros Q. apply RtoC_inj in Q. lra. Qed.
Notation c2 := (RtoC 1 + RtoC 1).
Section Rel.
Variables u z w : C.
Notation T := (T u z w).
Definition rr : C := z * z - c2 * c2 * u * w.
Lemma T_m n : forall m, zC m * T (S n) m = u * T n (m - 1) - w * T n (m + 1).
Proof.
  induction n as [|n IH]; intros m.
  - cbn [ProofsHarm.T]. change (nC 1) with (RtoC 1). destruct (Z.eqb_spec (m - 1) 0) as [E1|E1], (Z.eqb_spec m 0) as [E2|E2], (Z.eqb_spec (m + 1) 0) as [E3|E3]; try lia.
    + replace m with 1%Z by lia. change (zC 1) with (RtoC 1). field. apply C1_nz.
    + replace m with 0%Z by lia. change (zC 0) with (RtoC 0). field. apply C1_nz.
    + replace m with (- (1))%Z by lia. rewrite zC_opp. change (zC 1) with (RtoC 1). field. apply C1_nz.
    + field. apply C1_nz.
  - apply (Ceq_reg_l (nC (S (S n)))); [apply nC_nz|].
    assert (A1 := IH (m - 1)%Z). assert (A2 := IH m). assert (A3 := IH (m + 1)%Z).
    assert (B1 := T_S u z w (S n) m). assert (B2 := T_S u z w n (m - 1)). assert (B3 := T_S u z w n (m + 1)).
    replace (m - 1 - 1)%Z with (m - 2)%Z in * by lia. replace (m - 1 + 1)%Z with m in * by lia. replace (m + 1 - 1)%Z with m in * by lia. replace (m + 1 + 1)%Z with (m + 2)%Z in * by lia.
    rewrite zC_sub in A1. rewrite zC_add in A3. change (zC 1) with (RtoC 1) in *. rewrite (nC_S (S n)) in *.
    set (a := ProofsHarm.T u z w (S (S n)) m) in *. set (b1 := ProofsHarm.T u z w (S n) (m - 1)) in *. set (b0 := ProofsHarm.T u z w (S n) m) in *. set (b2 := ProofsHarm.T u z w (S n) (m + 1)) in *.
    apply Csub0. transitivity (zC m * ((nC (S n) + 1) * a) - (nC (S n) + 1) * (u * b1 - w * b2)); [ring|]. rewrite B1.
    transitivity (u * ((zC m - 1) * b1) + z * (zC m * b0) + w * ((zC m + 1) * b2) - u * (nC (S n) * b1) + w * (nC (S n) * b2)); [ring|].
    rewrite A1, A2, A3, B2, B3. ring.
Qed.
Lemma T_up n m : (nC (S n) + zC m) * T (S n) m = c2 * u * T n (m - 1) + z * T n m.
Proof. transitivity (nC (S n) * T (S n) m + zC m * T (S n) m); [ring|]. rewrite T_S, T_m. ring. Qed.
Lemma T_dn n m : (nC (S n) - zC m) * T (S n) m = z * T n m + c2 * w * T n (m + 1).
Proof. transitivity (nC (S n) * T (S n) m - zC m * T (S n) m); [ring|]. rewrite T_S, T_m. ring. Qed.
(** degree n - 1, zero when n = 0 *)
Definition Tp (n : nat) (m : Z) : C := match n with O => 0 | S k => T k m end.
Lemma T0_eq m : T 0 m = if Z.eqb m 0 then 1 else 0. Proof. reflexivity. Qed.
Lemma T3_z n m : (nC (S n) - zC m) * (nC (S n) + zC m) * T (S n) m = nC (2 * n + 1) * z * T n m - rr * Tp n m.
Proof.
  transitivity ((nC (S n) - zC m) * ((nC (S n) + zC m) * T (S n) m)); [ring|]. rewrite T_up.
  destruct n as [|n].
  - cbn [Tp]. unfold rr. cbn [ProofsHarm.T]. destruct (Z.eqb_spec (m - 1) 0), (Z.eqb_spec m 0); try lia; try (replace m with 1%Z by lia); try (replace m with 0%Z by lia); ff.
  - cbn [Tp]. assert (A := T_up n m). assert (B := T_dn n m). assert (D := T_up n (m - 1)). assert (F := T_dn n (m - 1)).
    replace (m - 1 + 1)%Z with m in F by lia. rewrite zC_sub in D, F. change (zC 1) with (RtoC 1) in *.
    rewrite (nC_S (S n)). replace (2 * S n + 1)%nat with (S n + S n + 1)%nat by lia. rewrite !nC_add. change (nC 1) with (RtoC 1).
    set (a := nC (S n)) in *. set (t1 := ProofsHarm.T u z w (S n) m) in *. set (t0 := ProofsHarm.T u z w (S n) (m - 1)) in *.
    set (s1 := ProofsHarm.T u z w n m) in *. set (s0 := ProofsHarm.T u z w n (m - 1)) in *. unfold rr. apply Csub0.
    transitivity (c2 * u * ((a - (zC m - 1)) * t0) + z * ((a - zC m) * t1) - c2 * a * z * t1 + (z * z - c2 * c2 * u * w) * s1); [ring|].
    rewrite F, B. transitivity (c2 * u * z * s0 + c2*w*z*ProofsHarm.T u z w n (m+1) + c2 * z * z * s1 - c2 * z * (a * t1)); [ring|].
    unfold a. assert (G := T_S u z w n m). fold t1 s1 s0 in G. rewrite G. ring.
Qed.
Lemma T3_u n m : (nC n + zC m + 1) * (nC n + zC m + c2) * T (S n) (m + 1) = nC (2 * n + 1) * (c2 * u) * T n m + rr * Tp n (m + 1).
Proof.
  assert (A := T_up n (m + 1)). replace (m + 1 - 1)%Z with m in A by lia. rewrite zC_add, nC_S in A. change (zC 1) with (RtoC 1) in *.
  transitivity ((nC n + zC m + 1) * ((nC n + 1 + (zC m + 1)) * T (S n) (m + 1))); [apply Csub0; ring|]. rewrite A.
  destruct n as [|n].
  - cbn [Tp]. cbn [ProofsHarm.T]. destruct (Z.eqb_spec (m + 1) 0), (Z.eqb_spec m 0); try lia; try (replace m with (- (1))%Z by lia); try (replace m with 0%Z by lia); ff.
  - cbn [Tp]. assert (B := T_up n (m + 1)). assert (D := T_dn n m). replace (m + 1 - 1)%Z with m in B by lia. rewrite zC_add in B. change (zC 1) with (RtoC 1) in *.
    replace (2 * S n + 1)%nat with (S n + S n + 1)%nat by lia. rewrite !nC_add. change (nC 1) with (RtoC 1).
    set (a := nC (S n)) in *. set (t1 := ProofsHarm.T u z w (S n) (m + 1)) in *. set (t0 := ProofsHarm.T u z w (S n) m) in *.
    set (s1 := ProofsHarm.T u z w n (m + 1)) in *. set (s0 := ProofsHarm.T u z w n m) in *. unfold rr. apply Csub0.
    transitivity (z * ((a + (zC m + 1)) * t1) - c2 * u * ((a - zC m) * t0) - (z * z - c2 * c2 * u * w) * s1); [ring|]. rewrite B, D. ring.
Qed.
End Rel.
Lemma rr_swap u z w : rr w z u = rr u z w. Proof. unfold rr. ring. Qed.
Lemma Tp_swap u z w n m : Tp u z w n (- m) = Tp w z u n m.
Proof. destruct n; cbn [Tp]; [reflexivity|apply T_swap]. Qed.
Lemma T3_w u z w n m : (nC n - zC m + 1) * (nC n - zC m + c2) * T u z w (S n) (m - 1) = nC (2 * n + 1) * (c2 * w) * T u z w n m + rr u z w * Tp u z w n (m - 1).
Proof.
  assert (A := T3_u w z u n (- m)). rewrite zC_opp, rr_swap in A.
  rewrite <- (Z.opp_involutive (m - 1)). rewrite T_swap, Tp_swap. replace (- (m - 1))%Z with (- m + 1)%Z by lia.
  rewrite <- (Z.opp_involutive m) at 4. rewrite T_swap. transitivity ((nC n + - zC m + 1) * (nC n + - zC m + c2) * T w z u (S n) (- m + 1)); [ring|exact A].
Qed.

(** ** Weights *)
Definition cw (n : nat) (m : Z) : R := (INR (fact (Z.to_nat (Z.of_nat n - m))) * INR (fact (Z.to_nat (Z.of_nat n + m))))%R.
Definition cC (n : nat) (m : Z) : C := RtoC (cw n m).
Lemma cw_pos n m : (0 < cw n m)%R.
Proof. apply Rmult_lt_0_compat; apply fact_pos. Qed.
Lemma factC k (a : Z) : (0 <= a)%Z -> k = Z.to_nat a -> RtoC (INR (fact (S k))) = (zC a + 1) * RtoC (INR (fact k)).
Proof. intros A ->. rewrite factS, RtoC_mult, S_INR, INR_IZR_INZ, Z2Nat.id, RtoC_plus by auto. reflexivity. Qed.
Lemma cC_eq n m : cC n m = RtoC (INR (fact (Z.to_nat (Z.of_nat n - m)))) * RtoC (INR (fact (Z.to_nat (Z.of_nat n + m)))).
Proof. unfold cC, cw. apply RtoC_mult. Qed.
Lemma c_z n m : (Z.abs m <= Z.of_nat n)%Z -> cC (S n) m = cC n m * ((nC (S n) - zC m) * (nC (S n) + zC m)).
Proof.
  intros L. rewrite !cC_eq. replace (Z.to_nat (Z.of_nat (S n) - m)) with (S (Z.to_nat (Z.of_nat n - m))) by lia. replace (Z.to_nat (Z.of_nat (S n) + m)) with (S (Z.to_nat (Z.of_nat n + m))) by lia.
  rewrite (factC _ (Z.of_nat n - m)), (factC _ (Z.of_nat n + m)) by lia. rewrite zC_sub, zC_add, zC_nat, nC_S. ring.
Qed.
Lemma c_u n m : (Z.abs m <= Z.of_nat n)%Z -> cC (S n) (m + 1) = cC n m * ((nC n + zC m + 1) * (nC n + zC m + c2)).
Proof.
  intros L. rewrite !cC_eq. replace (Z.to_nat (Z.of_nat (S n) - (m + 1))) with (Z.to_nat (Z.of_nat n - m)) by lia. replace (Z.to_nat (Z.of_nat (S n) + (m + 1))) with (S (S (Z.to_nat (Z.of_nat n + m)))) by lia.
  rewrite (factC (S _) (Z.of_nat n + m + 1)), (factC _ (Z.of_nat n + m)) by lia. rewrite !zC_add, zC_nat. change (zC 1) with (RtoC 1). ring.
Qed.
Lemma c_w n m : (Z.abs m <= Z.of_nat n)%Z -> cC (S n) (m - 1) = cC n m * ((nC n - zC m + 1) * (nC n - zC m + c2)).
Proof.
  intros L. rewrite !cC_eq. replace (Z.to_nat (Z.of_nat (S n) + (m - 1))) with (Z.to_nat (Z.of_nat n + m)) by lia. replace (Z.to_nat (Z.of_nat (S n) - (m - 1))) with (S (S (Z.to_nat (Z.of_nat n - m)))) by lia.
  rewrite (factC (S _) (Z.of_nat n - m + 1)), (factC _ (Z.of_nat n - m)) by lia. rewrite zC_add, zC_sub, zC_nat. change (zC 1) with (RtoC 1). ring.
Qed.
Lemma sym_shift n k (f : Z -> C) : (Z.abs k <= 1)%Z -> (forall m, (Z.of_nat n < Z.abs m)%Z -> f m = 0) -> csum (sym_range (S n)) (fun m => f (m + k)%Z) = csum (sym_range n) f.
Proof. intros K F. unfold sym_range. rewrite (zr_shift k _ _ f). apply zr_widen; try lia. intros l Hl. apply F. lia. Qed.

(** ** Bonnet's recurrence *)
Section Bonnet.
Variables u z w u' z' w' : C.
Notation T1 := (T u z w). Notation T2 := (T u' z' w').
Definition bil (n : nat) : C := csum (sym_range n) (fun m => cC n m * (T1 n m * T2 n m)).
Definition sig : C := z * z' + c2 * u * u' + c2 * w * w'.
Lemma step_a n : nC (S n) * bil (S n) =
  nC (2 * n + 1) * sig * bil n + rr u' z' w' * csum (sym_range n) (fun m => cC n m * (T1 n m * (u * Tp u' z' w' n (m + 1) - z * Tp u' z' w' n m + w * Tp u' z' w' n (m - 1)))).
Proof.
  unfold bil. rewrite <- csum_scal.
  rewrite (csum_ext _ _ (fun m => u * (T1 n (m - 1) * (cC (S n) m * T2 (S n) m)) + z * (T1 n m * (cC (S n) m * T2 (S n) m)) + w * (T1 n (m + 1) * (cC (S n) m * T2 (S n) m)))).
  2:{ intros m _. transitivity (cC (S n) m * T2 (S n) m * (nC (S n) * T1 (S n) m)); [ring|]. rewrite T_S. ring. }
  rewrite !csum_plus, !csum_scal.
  assert (A1 : csum (sym_range (S n)) (fun m => T1 n (m - 1) * (cC (S n) m * T2 (S n) m)) = csum (sym_range n) (fun m => T1 n m * (cC (S n) (m + 1) * T2 (S n) (m + 1)))).
  { rewrite <- (sym_shift n (-1) (fun m => T1 n m * (cC (S n) (m + 1) * T2 (S n) (m + 1)))); [|lia|intros m Hm; rewrite T_support by auto; ring].
    apply csum_ext. intros m _. cbv beta. replace (m + -1 + 1)%Z with m by lia. reflexivity. }
  assert (A2 : csum (sym_range (S n)) (fun m => T1 n m * (cC (S n) m * T2 (S n) m)) = csum (sym_range n) (fun m => T1 n m * (cC (S n) m * T2 (S n) m))).
  { rewrite <- (sym_shift n 0 (fun m => T1 n m * (cC (S n) m * T2 (S n) m))); [|lia|intros m Hm; rewrite T_support by auto; ring].
    apply csum_ext. intros m _. cbv beta. rewrite Z.add_0_r. reflexivity. }
  assert (A3 : csum (sym_range (S n)) (fun m => T1 n (m + 1) * (cC (S n) m * T2 (S n) m)) = csum (sym_range n) (fun m => T1 n m * (cC (S n) (m - 1) * T2 (S n) (m - 1)))).
  { rewrite <- (sym_shift n 1 (fun m => T1 n m * (cC (S n) (m - 1) * T2 (S n) (m - 1)))); [|lia|intros m Hm; rewrite T_support by auto; ring].
    apply csum_ext. intros m _. cbv beta. replace (m + 1 - 1)%Z with m by lia. reflexivity. }
  rewrite A1, A2, A3. rewrite <- !csum_scal, <- !csum_plus. apply csum_ext. intros m Hm. apply sym_in in Hm.
  rewrite (c_u n m), (c_z n m), (c_w n m) by lia.
  assert (B1 := T3_u u' z' w' n m). assert (B2 := T3_z u' z' w' n m). assert (B3 := T3_w u' z' w' n m).
  transitivity (cC n m * T1 n m * (u * ((nC n + zC m + 1) * (nC n + zC m + c2) * T2 (S n) (m + 1)) + z * ((nC (S n) - zC m) * (nC (S n) + zC m) * T2 (S n) m) + w * ((nC n - zC m + 1) * (nC n - zC m + c2) * T2 (S n) (m - 1)))); [ring|].
  rewrite B1, B2, B3. unfold sig. ring.
Qed.
Lemma step_b n : csum (sym_range (S n)) (fun m => cC (S n) m * (T1 (S n) m * (u * Tp u' z' w' (S n) (m + 1) - z * Tp u' z' w' (S n) m + w * Tp u' z' w' (S n) (m - 1)))) = - (nC (S n) * rr u z w * bil n).
Proof.
  cbn [Tp].
  rewrite (csum_ext _ _ (fun m => u * ((cC (S n) m * T1 (S n) m) * T2 n (m + 1)) + (- z) * ((cC (S n) m * T1 (S n) m) * T2 n m) + w * ((cC (S n) m * T1 (S n) m) * T2 n (m - 1)))) by (intros; ring).
  rewrite !csum_plus, !csum_scal.
  assert (A1 : csum (sym_range (S n)) (fun m => (cC (S n) m * T1 (S n) m) * T2 n (m - 1)) = csum (sym_range n) (fun m => (cC (S n) (m + 1) * T1 (S n) (m + 1)) * T2 n m)).
  { rewrite <- (sym_shift n (-1) (fun m => (cC (S n) (m + 1) * T1 (S n) (m + 1)) * T2 n m)); [|lia|intros m Hm; rewrite (T_support u' z' w') by auto; ring].
    apply csum_ext. intros m _. cbv beta. replace (m + -1 + 1)%Z with m by lia. reflexivity. }
  assert (A2 : csum (sym_range (S n)) (fun m => (cC (S n) m * T1 (S n) m) * T2 n m) = csum (sym_range n) (fun m => (cC (S n) m * T1 (S n) m) * T2 n m)).
  { rewrite <- (sym_shift n 0 (fun m => (cC (S n) m * T1 (S n) m) * T2 n m)); [|lia|intros m Hm; rewrite (T_support u' z' w') by auto; ring].
    apply csum_ext. intros m _. cbv beta. rewrite Z.add_0_r. reflexivity. }
  assert (A3 : csum (sym_range (S n)) (fun m => (cC (S n) m * T1 (S n) m) * T2 n (m + 1)) = csum (sym_range n) (fun m => (cC (S n) (m - 1) * T1 (S n) (m - 1)) * T2 n m)).
  { rewrite <- (sym_shift n 1 (fun m => (cC (S n) (m - 1) * T1 (S n) (m - 1)) * T2 n m)); [|lia|intros m Hm; rewrite (T_support u' z' w') by auto; ring].
    apply csum_ext. intros m _. cbv beta. replace (m + 1 - 1)%Z with m by lia. reflexivity. }
  rewrite A1, A2, A3. unfold bil. transitivity (- (nC (S n) * rr u z w) * csum (sym_range n) (fun m => cC n m * (T1 n m * T2 n m))); [|ring].
  rewrite <- !csum_scal, <- !csum_plus. apply csum_ext. intros m Hm. apply sym_in in Hm. rewrite (c_u n m), (c_z n m), (c_w n m) by lia.
  assert (B1 := T3_u u z w n m). assert (B2 := T3_z u z w n m). assert (B3 := T3_w u z w n m).
  transitivity (cC n m * T2 n m * (u * ((nC n - zC m + 1) * (nC n - zC m + c2) * T1 (S n) (m - 1)) - z * ((nC (S n) - zC m) * (nC (S n) + zC m) * T1 (S n) m) + w * ((nC n + zC m + 1) * (nC n + zC m + c2) * T1 (S n) (m + 1)))); [ring|].
  rewrite B1, B2, B3.
  transitivity (cC n m * T2 n m * rr u z w * ((u * Tp u z w n (m - 1) + z * Tp u z w n m + w * Tp u z w n (m + 1)) - nC (2 * n + 1) * T1 n m)); [unfold rr; ring|].
  assert (G : u * Tp u z w n (m - 1) + z * Tp u z w n m + w * Tp u z w n (m + 1) = nC n * T1 n m).
  { destruct n as [|n]; cbn [Tp]; [rewrite nC_0; ring|]. symmetry. apply T_S. }
  rewrite G. replace (2 * n + 1)%nat with (n + S n)%nat by lia. rewrite nC_add. ring.
Qed.
Lemma bil_0 : bil 0 = 1.
Proof. unfold bil, cC, cw. cbn. rewrite !Rmult_1_l. ring. Qed.
Lemma bil_1 : bil 1 = sig.
Proof. assert (A := step_a 0). rewrite bil_0 in A. change (nC 1) with (RtoC 1) in A. change (nC (2 * 0 + 1)) with (RtoC 1) in A. cbn [Tp] in A.
  transitivity (1 * bil 1); [ring|]. rewrite A. rewrite csum_zero by (intros; ring). ring. Qed.
Lemma bonnet n : nC (S (S n)) * bil (S (S n)) = nC (2 * n + 3) * sig * bil (S n) - nC (S n) * (rr u z w * rr u' z' w') * bil n.
Proof. rewrite step_a, step_b. replace (2 * S n + 1)%nat with (2 * n + 3)%nat by lia. ring. Qed.
End Bonnet.
