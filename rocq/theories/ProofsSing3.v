(** * Laurent coefficients of the singular kernels (C48, C49, C56). *)
From Coq Require Import ZArith List Reals Lia Lra Psatz Bool.
From Coquelicot Require Import Coquelicot.
From Verif Require Import ModelSing SpecSing ProofsSing2.
Local Open Scope R_scope.

(** what FEValues returns at the singular point (u, v) for the mapping X and the shape function N *)
Definition data_of (X : nat -> R -> R -> R) (N : R -> R -> R) (u v : R) : eta_data :=
  EtaData (map_jac X u v) (map_grad X u v) (N u v) (fun j => match j with 0%nat => du N u v | _ => dv N u v end).

Section Sing.
  Variables (X : nat -> R -> R -> R) (N : R -> R -> R) (u v t : R).
  Hypothesis CX : forall i, (i < 3)%nat -> class_C 3 (X i) u v.
  Hypothesis CN : class_C 2 N u v.
  Hypothesis ND : exists i, (i < 3)%nat /\ surf X u v i <> 0.
  Let d := data_of X N u v.
  Let c := cos t.
  Let s := sin t.
  Let A := coef_A d t.
  Let B := coef_B d t.
  Let J0 := Jk0 d.
  Let J1 := Jk1 d t.

  Lemma cs1 : c * c + s * s = 1.
  Proof. unfold c, s. assert (K := sin2_cos2 t). unfold Rsqr in K. lra. Qed.
  Lemma c_le : Rabs c <= 1.
  Proof. apply Rabs_le. unfold c. destruct (COS_bound t). lra. Qed.
  Lemma s_le : Rabs s <= 1.
  Proof. apply Rabs_le. unfold s. destruct (SIN_bound t). lra. Qed.

  (** vectors along the ray *)
  Definition Rv (r : R) : nat -> R := fun i => X i (r * c + u) (r * s + v) - X i u v.
  Definition Qv (r : R) : nat -> R := fun i => Rv r i / r.
  Definition Jv (r : R) : nat -> R := surf X (r * c + u) (r * s + v).
  Definition nv (r : R) : nat -> R := surf_normal X (r * c + u) (r * s + v).
  Definition jxw (r : R) : R := surf_JxW X (r * c + u) (r * s + v).
  Definition Nv (r : R) : R := N (r * c + u) (r * s + v).

  Ltac i3 i Hi := let K := fresh in assert (K : i = 0%nat \/ i = 1%nat \/ i = 2%nat) by lia; clear Hi; destruct K as [ -> | [ -> | -> ]].
  Lemma surf_J0 i : (i < 3)%nat -> surf X u v i = J0 i.
  Proof. intros Hi. i3 i Hi; unfold J0, Jk0, surf, cross3, tangent_u, tangent_v; cbn; ring. Qed.
  Lemma A_val i : A i = du (X i) u v * c + dv (X i) u v * s.
  Proof. reflexivity. Qed.
  Lemma A_orth : vdot A J0 = 0.
  Proof. unfold vdot, A, J0, Jk0, coef_A; cbn. ring. Qed.
  Lemma J0_pos : 0 < vdot J0 J0.
  Proof.
    destruct ND as (i & Hi & Hn). rewrite surf_J0 in Hn by exact Hi. unfold vdot.
    assert (0 <= J0 0%nat * J0 0%nat) by apply Rle_0_sqr. assert (0 <= J0 1%nat * J0 1%nat) by apply Rle_0_sqr. assert (0 <= J0 2%nat * J0 2%nat) by apply Rle_0_sqr.
    assert (0 < J0 i * J0 i) by (apply (Rsqr_pos_lt _ Hn)). i3 i Hi; lra.
  Qed.
  Lemma A_pos : 0 < vdot A A.
  Proof.
    assert (0 <= vdot A A). { unfold vdot. assert (0 <= A 0%nat * A 0%nat) by apply Rle_0_sqr. assert (0 <= A 1%nat * A 1%nat) by apply Rle_0_sqr. assert (0 <= A 2%nat * A 2%nat) by apply Rle_0_sqr. lra. }
    destruct (Req_dec (vdot A A) 0) as [Z|]; [|lra]. exfalso.
    assert (A0 : A 0%nat = 0 /\ A 1%nat = 0 /\ A 2%nat = 0).
    { unfold vdot in Z. assert (K0 := Rle_0_sqr (A 0%nat)). assert (K1 := Rle_0_sqr (A 1%nat)). assert (K2 := Rle_0_sqr (A 2%nat)). unfold Rsqr in *.
      repeat split; apply Rsqr_0_uniq; unfold Rsqr; lra. }
    destruct A0 as (Z0 & Z1 & Z2). rewrite A_val in Z0, Z1, Z2.
    assert (P := J0_pos). destruct (Req_dec c 0) as [Ec|Nc].
    - assert (K := cs1). rewrite Ec in *. assert (s <> 0) by (intros E; rewrite E in K; lra).
      assert (V : forall i, du (X i) u v * 0 + dv (X i) u v * s = 0 -> dv (X i) u v = 0) by (intros i E; apply (Rmult_eq_reg_r s); lra).
      apply V in Z0. apply V in Z1. apply V in Z2. unfold vdot, J0, Jk0, d, data_of, eta_Jxn, map_jac in P. cbn in P. rewrite Z0, Z1, Z2 in P. lra.
    - assert (V : forall i, du (X i) u v * c + dv (X i) u v * s = 0 -> du (X i) u v = - (s / c) * dv (X i) u v).
      { intros i E. apply (Rmult_eq_reg_r c); auto. replace (- (s / c) * dv (X i) u v * c) with (- (dv (X i) u v * s)) by (field; auto). lra. }
      apply V in Z0. apply V in Z1. apply V in Z2. unfold vdot, J0, Jk0, d, data_of, eta_Jxn, map_jac in P. cbn in P. rewrite Z0, Z1, Z2 in P. ring_simplify in P. lra.
  Qed.
  Lemma qA_pos : 0 < q_A d t.
  Proof. apply sqrt_lt_R0. exact A_pos. Qed.
  Lemma qA2 : q_A d t * q_A d t = vdot A A.
  Proof. apply sqrt_sqrt. apply Rlt_le, A_pos. Qed.

  (** jets of the ingredients *)
  Lemma jQ i : (i < 3)%nat -> jet (fun r => Qv r i) (A i) (B i).
  Proof.
    intros Hi. assert (K := ray_second (X i) u v c s c_le s_le (CX i Hi)).
    eapply jet_cong; [| |exact K]; [reflexivity|]. unfold B, coef_B. cbn. unfold c, s. reflexivity.
  Qed.
  Lemma jN : jet Nv (N0 d) (N1 d t).
  Proof. assert (K := ray_jet N u v c s c_le s_le CN). exact K. Qed.
  Lemma jdu i : (i < 3)%nat -> jet (fun r => du (X i) (r * c + u) (r * s + v)) (du (X i) u v) (du (du (X i)) u v * c + dv (du (X i)) u v * s).
  Proof. intros Hi. destruct (CX i Hi) as (_ & K & _). exact (ray_jet (du (X i)) u v c s c_le s_le K). Qed.
  Lemma jdv i : (i < 3)%nat -> jet (fun r => dv (X i) (r * c + u) (r * s + v)) (dv (X i) u v) (du (dv (X i)) u v * c + dv (dv (X i)) u v * s).
  Proof. intros Hi. destruct (CX i Hi) as (_ & _ & K). exact (ray_jet (dv (X i)) u v c s c_le s_le K). Qed.
  Lemma jJ i : (i < 3)%nat -> jet (fun r => Jv r i) (J0 i) (J1 i).
  Proof.
    intros Hi. assert (K : forall a b a' b', (a < 3)%nat -> (b < 3)%nat -> (a' < 3)%nat -> (b' < 3)%nat ->
      jet (fun r => du (X a) (r * c + u) (r * s + v) * dv (X b) (r * c + u) (r * s + v) - du (X a') (r * c + u) (r * s + v) * dv (X b') (r * c + u) (r * s + v)) _ _)
      by (intros a b a' b' h1 h2 h3 h4; exact (jet_minus _ _ _ _ _ _ (jet_mult _ _ _ _ _ _ (jdu a h1) (jdv b h2)) (jet_mult _ _ _ _ _ _ (jdu a' h3) (jdv b' h4)))).
    i3 i Hi.
    - eapply jet_cong; [| |exact (K 1%nat 2%nat 2%nat 1%nat ltac:(lia) ltac:(lia) ltac:(lia) ltac:(lia))]; unfold J0, J1, Jk0, Jk1, vadd, vscale; cbn; fold c s; ring.
    - eapply jet_cong; [| |exact (K 2%nat 0%nat 0%nat 2%nat ltac:(lia) ltac:(lia) ltac:(lia) ltac:(lia))]; unfold J0, J1, Jk0, Jk1, vadd, vscale; cbn; fold c s; ring.
    - eapply jet_cong; [| |exact (K 0%nat 1%nat 1%nat 0%nat ltac:(lia) ltac:(lia) ltac:(lia) ltac:(lia))]; unfold J0, J1, Jk0, Jk1, vadd, vscale; cbn; fold c s; ring.
  Qed.
  Lemma jdot (p q : R -> nat -> R) a b a' b' : (forall i, (i < 3)%nat -> jet (fun r => p r i) (a i) (b i)) -> (forall i, (i < 3)%nat -> jet (fun r => q r i) (a' i) (b' i)) ->
    jet (fun r => dot3 (p r) (q r)) (vdot a a') (vdot a b' + vdot b a').
  Proof.
    intros P Q. unfold dot3.
    assert (K := jet_plus _ _ _ _ _ _ (jet_plus _ _ _ _ _ _ (jet_mult _ _ _ _ _ _ (P 0%nat ltac:(lia)) (Q 0%nat ltac:(lia))) (jet_mult _ _ _ _ _ _ (P 1%nat ltac:(lia)) (Q 1%nat ltac:(lia)))) (jet_mult _ _ _ _ _ _ (P 2%nat ltac:(lia)) (Q 2%nat ltac:(lia)))).
    eapply jet_cong; [| |exact K]; unfold vdot; ring.
  Qed.
  Definition qv (r : R) : R := norm3 (Qv r).
  Lemma jq : jet qv (q_A d t) (q_C d t / q_A d t).
  Proof.
    assert (K := jet_sqrt _ _ _ A_pos (jdot Qv Qv A B A B jQ jQ)).
    eapply jet_cong; [| |exact K]; [reflexivity|]. fold (q_A d t). change (sqrt (vdot A A)) with (q_A d t). assert (P := qA_pos).
    replace (vdot A B) with (q_C d t) by reflexivity. replace (vdot B A) with (q_C d t) by (unfold q_C, vdot; fold A B; ring). field. lra.
  Qed.
  Lemma jq_inv k : jet (fun r => / qv r ^ k) (/ q_A d t ^ k) (- INR k * q_C d t / q_A d t ^ (k + 2)).
  Proof.
    assert (P := qA_pos). assert (Pk : 0 < q_A d t ^ k) by (apply pow_lt; exact P).
    assert (K := jet_inv _ _ _ (Rgt_not_eq _ _ Pk) (jet_pow _ _ _ k jq)).
    eapply jet_cong; [| |exact K]; [reflexivity|]. destruct k.
    - simpl. field. lra.
    - replace (S k - 1)%nat with k by lia. replace (S k + 2)%nat with (S (S (S k))) by lia. cbn [pow]. field. repeat split; try lra. apply pow_nonzero. lra.
  Qed.
  Definition Vg (i : nat) (r : R) : R := Nv r * (Jv r i * / qv r ^ 3 - 3 * (Qv r i * dot3 (Qv r) (Jv r) * / qv r ^ 5)).
  Lemma jVg i : (i < 3)%nat -> jet (Vg i) (V_F2 d t i) (V_F1 d t i).
  Proof.
    intros Hi. assert (P := qA_pos).
    assert (K := jet_mult _ _ _ _ _ _ jN (jet_minus _ _ _ _ _ _ (jet_mult _ _ _ _ _ _ (jJ i Hi) (jq_inv 3))
      (jet_scale 3 _ _ _ (jet_mult _ _ _ _ _ _ (jet_mult _ _ _ _ _ _ (jQ i Hi) (jdot Qv Jv A B J0 J1 jQ jJ)) (jq_inv 5))))).
    eapply jet_cong; [| |exact K]; unfold V_F2, V_F1; fold A B J0 J1.
    - rewrite A_orth. field. lra.
    - rewrite A_orth. replace (vdot J0 B) with (vdot B J0) by (unfold vdot; ring). replace (vdot J1 A) with (vdot A J1) by (unfold vdot; ring).
      simpl INR. cbn [Nat.add]. field. lra.
  Qed.
  Definition Wg (i : nat) (r : R) : R := Nv r * (Qv r i * norm3 (Jv r) * / qv r ^ 3).
  Lemma jWg i : (i < 3)%nat -> exists b, jet (Wg i) (W_F1 d t i) b.
  Proof.
    intros Hi. assert (P := qA_pos).
    assert (K := jet_mult _ _ _ _ _ _ jN (jet_mult _ _ _ _ _ _ (jet_mult _ _ _ _ _ _ (jQ i Hi) (jet_sqrt _ _ _ J0_pos (jdot Jv Jv J0 J1 J0 J1 jJ jJ))) (jq_inv 3))).
    eexists. eapply jet_cong; [|reflexivity|exact K]. unfold W_F1. fold A. change (vnorm (eta_Jxn (d_jac d))) with (sqrt (vdot J0 J0)). field. lra.
  Qed.

  (** the integrands of the code *)
  Lemma q_near : exists e, 0 < e /\ forall r, 0 < r < e -> 0 < qv r.
  Proof.
    assert (P := qA_pos). destruct (jet_away _ _ _ jq (Rgt_not_eq _ _ P)) as (e & E & W). exists e. split; auto. intros r Hr. destruct (W r Hr) as [_ K]. nra.
  Qed.
  Lemma Rv_norm r : 0 < r -> vnorm (Rv r) = r * qv r.
  Proof.
    intros Hr. unfold vnorm, qv, norm3. replace (vdot (Rv r) (Rv r)) with (r * r * dot3 (Qv r) (Qv r)) by (unfold vdot, dot3, Qv; field; lra).
    rewrite sqrt_mult_alt by apply Rle_0_sqr. rewrite sqrt_square by lra. reflexivity.
  Qed.
  Lemma nJ' r i : (i < 3)%nat -> nv r i * jxw r = Jv r i.
  Proof.
    intros Hi. unfold nv, jxw, surf_normal, surf_JxW. fold (Jv r). destruct (Req_dec (norm3 (Jv r)) 0) as [Z|NZ]; [|field; auto].
    rewrite Z, Rmult_0_r. symmetry. unfold norm3 in Z. assert (D : 0 <= dot3 (Jv r) (Jv r)).
    { unfold dot3. assert (K0 := Rle_0_sqr (Jv r 0%nat)). assert (K1 := Rle_0_sqr (Jv r 1%nat)). assert (K2 := Rle_0_sqr (Jv r 2%nat)). unfold Rsqr in *. lra. }
    apply sqrt_eq_0 in Z; auto. unfold dot3 in Z. assert (K0 := Rle_0_sqr (Jv r 0%nat)). assert (K1 := Rle_0_sqr (Jv r 1%nat)). assert (K2 := Rle_0_sqr (Jv r 2%nat)). unfold Rsqr in *.
    i3 i Hi; apply Rsqr_0_uniq; unfold Rsqr; lra.
  Qed.
  Lemma V_integrand r i : (i < 3)%nat -> 0 < r -> 0 < qv r -> V_fun (Rv r) (nv r) (Nv r) i * r * jxw r = Vg i r / r ^ 2.
  Proof.
    intros Hi Hr Hq. unfold V_fun. rewrite Rv_norm by auto. unfold Vg. rewrite <- (nJ' r i Hi).
    assert (E : dot3 (Qv r) (Jv r) = vdot (Rv r) (nv r) * jxw r / r).
    { unfold dot3, vdot, Qv. rewrite <- !(nJ' r _) by lia. field. lra. }
    rewrite E. unfold Qv. field. lra.
  Qed.
  Lemma W_integrand r i : (i < 3)%nat -> 0 < r -> 0 < qv r -> W_fun (Rv r) (Nv r) i * r * jxw r = Wg i r / r.
  Proof. intros Hi Hr Hq. unfold W_fun. rewrite Rv_norm by auto. unfold Wg, jxw, surf_JxW. fold (Jv r). unfold Qv. field. lra. Qed.
  Lemma V_remainder i : (i < 3)%nat -> Ord 0 (fun r => sing_arg (V_fun (Rv r) (nv r) (Nv r)) (V_F2 d t) (V_F1 d t) r (jxw r) i).
  Proof.
    intros Hi. destruct q_near as (e & E & W). apply (Ord_eq_near _ (fun r => (Vg i r - (V_F2 d t i + V_F1 d t i * r)) / r ^ 2) _ e); auto.
    - intros r Hr. unfold sing_arg. rewrite V_integrand; [field; lra|exact Hi|lra|apply W; exact Hr].
    - apply (Ord_div 0 2). exact (jVg i Hi).
  Qed.
  Lemma W_remainder i : (i < 3)%nat -> Ord 0 (fun r => sing_arg (W_fun (Rv r) (Nv r)) (W_F2 d t) (W_F1 d t) r (jxw r) i).
  Proof.
    intros Hi. destruct q_near as (e & E & W). apply (Ord_eq_near _ (fun r => (Wg i r - W_F1 d t i) / r ^ 1) _ e); auto.
    - intros r Hr. unfold sing_arg, W_F2. rewrite W_integrand; [field; lra|exact Hi|lra|apply W; exact Hr].
    - apply (Ord_div 0 1). destruct (jWg i Hi) as [b J]. apply (jet_O1 _ _ _ J).
  Qed.
End Sing.

(** uniqueness of the subtracted coefficients *)
Lemma laurent_unique (g : R -> R) a b a' b' :
  Ord 0 (fun r => g r - a / r ^ 2 - b / r) -> Ord 0 (fun r => g r - a' / r ^ 2 - b' / r) -> a = a' /\ b = b'.
Proof.
  intros P Q. assert (K := Ord_minus _ _ _ Q P).
  assert (K2 : Ord 2 (fun r => (a - a') + (b - b') * r)).
  { apply (Ord_eq_near _ (fun r => r ^ 2 * ((g r - a' / r ^ 2 - b' / r) - (g r - a / r ^ 2 - b / r))) _ 1); [lra| |].
    - intros r Hr. field. lra.
    - apply (Ord_mult 2 0); [apply Ord_pow|exact K]. }
  assert (E : a - a' = 0).
  { apply Ord_const_0 with 1%nat; [lia|]. apply Ord_ext with (fun r => ((a - a') + (b - b') * r) - (b - b') * r); [intros; ring|].
    apply Ord_minus; [apply (Ord_weak 1 2); [lia|exact K2]|]. apply Ord_scale, Ord_id. }
  assert (E' : b - b' = 0).
  { apply Ord_const_0 with 1%nat; [lia|]. apply (Ord_eq_near _ (fun r => ((a - a') + (b - b') * r) / r ^ 1) _ 1); [lra| |].
    - intros r Hr. rewrite E. field. lra.
    - apply (Ord_div 1 1). exact K2. }
  split; lra.
Qed.
