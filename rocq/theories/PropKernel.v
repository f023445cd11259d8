(** * C13, C14: consistency of the Laplace kernels. *)
From Coq Require Import Reals List Lra Lia Arith Psatz.
From Coquelicot Require Import Coquelicot.
From Verif Require Import ModelKernel.
Import ListNotations.
Local Open Scope R_scope.

(** ** Specification *)
(** v with component i replaced by t *)
Definition upd (v : vec) (i : nat) (t : R) : vec := fun k => if Nat.eqb k i then t else v k.
(** L is the partial derivative of f with respect to component i at v *)
Definition partial (f : vec -> R) (i : nat) (v : vec) (L : R) : Prop := is_derive (fun t => f (upd v i t)) (v i) L.
Definition nonzero (dim : nat) (v : vec) : Prop := exists k, (k < dim)%nat /\ v k <> 0.
(** the fundamental solutions *)
Definition G2 (v : vec) : R := - ln (sqrt (v 0%nat ^ 2 + v 1%nat ^ 2)) / (2 * PI).
Definition G3 (v : vec) : R := / (4 * PI * sqrt (v 0%nat ^ 2 + v 1%nat ^ 2 + v 2%nat ^ 2)).

(** ** Lemmas *)
Lemma sq2 v : square 2 v = v 0%nat * v 0%nat + v 1%nat * v 1%nat.
Proof. unfold square. cbn. ring. Qed.
Lemma sq3 v : square 3 v = v 0%nat * v 0%nat + v 1%nat * v 1%nat + v 2%nat * v 2%nat.
Proof. unfold square. cbn. ring. Qed.
Lemma sq_pos dim v : nonzero dim v -> 0 < square dim v.
Proof.
  intros (k & Hk & Hv). unfold square.
  assert (A : forall l s, 0 <= s -> s <= fold_left (fun s k => s + v k * v k) l s).
  { induction l as [|a l IH]; intros s Hs; simpl; [lra|]. assert (0 <= v a * v a) by apply Rle_0_sqr. specialize (IH (s + v a * v a) ltac:(lra)). lra. }
  assert (B : forall l s, 0 <= s -> In k l -> 0 < fold_left (fun s k => s + v k * v k) l s).
  { induction l as [|a l IH]; [intros s Hs []|]. intros s Hs [->|Hi]; simpl.
    - assert (P : 0 < v k * v k) by (apply Rsqr_pos_lt; auto). eapply Rlt_le_trans; [|apply A; lra]. lra.
    - apply IH; auto. assert (0 <= v a * v a) by apply Rle_0_sqr. lra. }
  apply B; [lra|]. apply in_seq. lia.
Qed.
Lemma norm_sq dim v : nonzero dim v -> norm dim v * norm dim v = square dim v.
Proof. intros H. apply sqrt_sqrt. apply Rlt_le, sq_pos; auto. Qed.
Lemma norm_pos dim v : nonzero dim v -> 0 < norm dim v.
Proof. intros H. apply sqrt_lt_R0, sq_pos; auto. Qed.
Definition rest (dim : nat) (v : vec) (i : nat) : R := square dim v - v i * v i.
Lemma sq_upd2 v i t : (i < 2)%nat -> square 2 (upd v i t) = t * t + rest 2 v i.
Proof. intros H. unfold rest. rewrite !sq2. destruct i as [|[|i]]; try lia; unfold upd; cbn; ring. Qed.
Lemma sq_upd3 v i t : (i < 3)%nat -> square 3 (upd v i t) = t * t + rest 3 v i.
Proof. intros H. unfold rest. rewrite !sq3. destruct i as [|[|[|i]]]; try lia; unfold upd; cbn; ring. Qed.
Lemma upd_i v i t : upd v i t i = t.
Proof. unfold upd. rewrite Nat.eqb_refl. reflexivity. Qed.
Lemma upd_j v i j t : j <> i -> upd v i t j = v j.
Proof. intros H. unfold upd. destruct (Nat.eqb_spec j i); congruence. Qed.
Lemma PIp : 0 < PI. Proof. exact PI_RGT_0. Qed.
Ltac pos := lazymatch goal with |- 0 < ?a * ?b => apply Rmult_lt_0_compat; pos | _ => lra end.

(** the two overloads use r*r for the squared norm *)
Lemma d_norm_ext dim (f : R -> R) g i v L :
  (forall t, square dim (upd v i t) = t * t + rest dim v i) -> nonzero dim v ->
  is_derive (fun t => f (sqrt (t * t + rest dim v i))) (v i) L ->
  (forall w, g w = f (norm dim w)) -> partial g i v L.
Proof.
  intros Hs Hn Hd Hg. unfold partial. eapply is_derive_ext; [|exact Hd]. intros t. simpl. rewrite Hg. unfold norm. rewrite Hs. reflexivity.
Qed.

(** ** C13 *)
Theorem C13_single_layer_is_the_fundamental_solution : forall v,
  single_layer2 v = G2 v /\ (nonzero 3 v -> single_layer3 v = G3 v).
Proof.
  intros v. split.
  - unfold single_layer2, G2, norm. rewrite sq2. repeat f_equal; ring.
  - intros H. unfold single_layer3, G3. assert (P := norm_pos 3 v H). assert (Q := PIp).
    replace (sqrt (v 0%nat ^ 2 + v 1%nat ^ 2 + v 2%nat ^ 2)) with (norm 3 v); [field; lra|].
    unfold norm. rewrite sq3. f_equal. ring.
Qed.
Theorem C13_overloads_agree : forall v,
  (kernels2_d v = single_layer2 v /\ kernelsH2_d v = single_layer2 v /\ kernels3_d v = single_layer3 v /\ kernelsH3_d v = single_layer3 v) /\
  (nonzero 2 v -> forall i, kernels2_D v i = double_layer2 v i /\ kernelsH2_D v i = double_layer2 v i) /\
  (nonzero 3 v -> forall i, kernels3_D v i = double_layer3 v i).
Proof.
  intros v. split; [repeat split|]. split.
  - intros H i. unfold kernelsH2_D, kernels2_D, double_layer2. cbv zeta. rewrite (norm_sq 2 v H). auto.
  - intros H i. unfold kernels3_D, double_layer3. cbv zeta. rewrite (norm_sq 3 v H). reflexivity.
Qed.
(** The vector kernel is the gradient of the scalar kernel. *)
Theorem C13_double_layer_is_the_gradient : forall v,
  (nonzero 2 v -> forall i, (i < 2)%nat -> partial kernels2_d i v (kernels2_D v i)) /\
  (nonzero 3 v -> forall i, (i < 3)%nat -> partial kernels3_d i v (kernels3_D v i)).
Proof.
  intros v. assert (Q := PIp). split; intros H i Hi.
  - assert (P := sq_pos 2 v H). assert (E : v i * v i + rest 2 v i = square 2 v) by (unfold rest; ring).
    assert (NP := norm_pos 2 v H). assert (N2 := norm_sq 2 v H).
    apply (d_norm_ext 2 (fun r => - ln r / (2 * PI))); auto; [intros; apply sq_upd2; auto|].
    auto_derive; rewrite ?E; [repeat split; auto; apply sqrt_lt_R0; auto|]. change (sqrt (square 2 v)) with (norm 2 v).
    unfold kernels2_D. cbv zeta. field. lra.
  - assert (P := sq_pos 3 v H). assert (E : v i * v i + rest 3 v i = square 3 v) by (unfold rest; ring).
    assert (NP := norm_pos 3 v H). assert (N2 := norm_sq 3 v H).
    apply (d_norm_ext 3 (fun r => 1 / (r * 4 * PI))); auto; [intros; apply sq_upd3; auto|].
    auto_derive; rewrite ?E; change (sqrt (square 3 v)) with (norm 3 v); [repeat split; auto|].
    + assert (0 < norm 3 v * 4 * PI) by (apply Rmult_lt_0_compat; lra). lra.
    + unfold kernels3_D. cbv zeta. field. lra.
Qed.
(** ... but the three-output overload returns it with the opposite sign in three dimensions. *)
Theorem C13_three_output_kernel_has_opposite_sign_in_3d : forall v i, nonzero 3 v ->
  kernelsH3_D v i = - kernels3_D v i /\ (v i <> 0 -> kernelsH3_D v i <> kernels3_D v i).
Proof.
  intros v i H. assert (NP := norm_pos 3 v H). assert (Q := PIp).
  assert (A : kernelsH3_D v i = - kernels3_D v i) by (unfold kernelsH3_D, kernels3_D; cbv zeta; field; lra).
  split; auto. intros Hv E. rewrite A in E. assert (Z : kernels3_D v i = 0) by lra. unfold kernels3_D in Z. cbv zeta in Z.
  apply Hv. apply (Rmult_eq_compat_r (- 4 * PI * (norm 3 v * norm 3 v) * norm 3 v)) in Z. rewrite Rmult_0_l in Z. rewrite <- Z. field. lra.
Qed.
Example C13_nonvacuous : nonzero 3 (fun k => if Nat.eqb k 2 then 5 else 0) /\ nonzero 2 (fun k => if Nat.eqb k 1 then 5 else 0).
Proof. split; [exists 2%nat|exists 1%nat]; simpl; split; try lia; lra. Qed.

(** ** C14 *)
Lemma jac2 v i j : nonzero 2 v -> (i < 2)%nat -> (j < 2)%nat -> partial (fun w => kernelsH2_D w i) j v (kernelsH2_H v i j).
Proof.
  intros H Hi Hj. assert (Q := PIp). assert (P := sq_pos 2 v H). assert (E : v j * v j + rest 2 v j = square 2 v) by (unfold rest; ring).
  assert (NP := norm_pos 2 v H). assert (N2 := norm_sq 2 v H). unfold partial.
  assert (Ns : norm 2 v <> 0) by lra.
  destruct (Nat.eq_dec i j) as [->|Ne].
  - apply (is_derive_ext (fun t => t / (- 2 * PI * (sqrt (t * t + rest 2 v j) * sqrt (t * t + rest 2 v j))))).
    { intros t. unfold kernelsH2_D, norm. cbv zeta. rewrite upd_i, sq_upd2 by auto. reflexivity. }
    auto_derive; rewrite ?E; change (sqrt (square 2 v)) with (norm 2 v).
    + repeat split; auto. assert (0 < norm 2 v * norm 2 v) by (apply Rmult_lt_0_compat; lra). intros Z.
      assert (0 < PI * (norm 2 v * norm 2 v)) by (apply Rmult_lt_0_compat; lra). lra.
    + unfold kernelsH2_H. cbv zeta. rewrite sq2 in N2.
      assert (N3 : norm 2 v * norm 2 v * (norm 2 v * norm 2 v) = (v 0%nat * v 0%nat + v 1%nat * v 1%nat) * (norm 2 v * norm 2 v)) by (rewrite <- N2; ring).
      destruct j as [|[|j]]; try lia.
      * replace (- v 0%nat * v 0%nat + v 1%nat * v 1%nat) with (norm 2 v * norm 2 v - 2 * v 0%nat * v 0%nat) by (rewrite N2; ring). field. lra.
      * replace (v 0%nat * v 0%nat - v 1%nat * v 1%nat) with (norm 2 v * norm 2 v - 2 * v 1%nat * v 1%nat) by (rewrite N2; ring). field. lra.
  - apply (is_derive_ext (fun t => v i / (- 2 * PI * (sqrt (t * t + rest 2 v j) * sqrt (t * t + rest 2 v j))))).
    { intros t. unfold kernelsH2_D, norm. cbv zeta. rewrite upd_j, sq_upd2 by auto. reflexivity. }
    auto_derive; rewrite ?E; change (sqrt (square 2 v)) with (norm 2 v).
    + repeat split; auto. assert (0 < norm 2 v * norm 2 v) by (apply Rmult_lt_0_compat; lra). intros Z.
      assert (0 < PI * (norm 2 v * norm 2 v)) by (apply Rmult_lt_0_compat; lra). lra.
    + unfold kernelsH2_H. cbv zeta. destruct i as [|[|i]], j as [|[|j]]; try lia; try (field; lra).
Qed.
Lemma jac3 v i j : nonzero 3 v -> (i < 3)%nat -> (j < 3)%nat -> partial (fun w => kernelsH3_D w i) j v (kernelsH3_H v i j).
Proof.
  intros H Hi Hj. assert (Q := PIp). assert (P := sq_pos 3 v H). assert (E : v j * v j + rest 3 v j = square 3 v) by (unfold rest; ring).
  assert (NP := norm_pos 3 v H). assert (N2 := norm_sq 3 v H). unfold partial.
  assert (D : 4 * PI * (norm 3 v * norm 3 v) * norm 3 v <> 0).
  { assert (0 < 4 * PI * (norm 3 v * norm 3 v) * norm 3 v); [|lra]. pos. }
  destruct (Nat.eq_dec i j) as [->|Ne].
  - apply (is_derive_ext (fun t => t / (4 * PI * (sqrt (t * t + rest 3 v j) * sqrt (t * t + rest 3 v j)) * sqrt (t * t + rest 3 v j)))).
    { intros t. unfold kernelsH3_D, norm. cbv zeta. rewrite upd_i, sq_upd3 by auto. reflexivity. }
    auto_derive; rewrite ?E; change (sqrt (square 3 v)) with (norm 3 v); [repeat split; auto|].
    unfold kernelsH3_H. cbv zeta. rewrite Nat.eqb_refl. field. lra.
  - apply (is_derive_ext (fun t => v i / (4 * PI * (sqrt (t * t + rest 3 v j) * sqrt (t * t + rest 3 v j)) * sqrt (t * t + rest 3 v j)))).
    { intros t. unfold kernelsH3_D, norm. cbv zeta. rewrite upd_j, sq_upd3 by auto. reflexivity. }
    auto_derive; rewrite ?E; change (sqrt (square 3 v)) with (norm 3 v); [repeat split; auto|].
    unfold kernelsH3_H. cbv zeta. destruct (Nat.eqb_spec i j); [congruence|]. field. lra.
Qed.
(** H is the Jacobian of the D returned with it. *)
Theorem C14_H_is_the_jacobian_of_D : forall v i j,
  (nonzero 2 v -> (i < 2)%nat -> (j < 2)%nat -> partial (fun w => kernelsH2_D w i) j v (kernelsH2_H v i j)) /\
  (nonzero 3 v -> (i < 3)%nat -> (j < 3)%nat -> partial (fun w => kernelsH3_D w i) j v (kernelsH3_H v i j)).
Proof. intros v i j. split; intros; [apply jac2|apply jac3]; auto. Qed.
Theorem C14_symmetric_and_trace_free : forall v,
  (forall i j, (i < 2)%nat -> (j < 2)%nat -> kernelsH2_H v i j = kernelsH2_H v j i) /\
  (forall i j, kernelsH3_H v i j = kernelsH3_H v j i) /\
  (nonzero 2 v -> kernelsH2_H v 0%nat 0%nat + kernelsH2_H v 1%nat 1%nat = 0) /\
  (nonzero 3 v -> kernelsH3_H v 0%nat 0%nat + kernelsH3_H v 1%nat 1%nat + kernelsH3_H v 2%nat 2%nat = 0).
Proof.
  intros v. assert (Q := PIp). repeat split.
  - intros [|[|i]] [|[|j]] A B; try lia; reflexivity.
  - intros i j. unfold kernelsH3_H. cbv zeta. rewrite (Nat.eqb_sym j i). f_equal. f_equal. unfold Rdiv. ring.
  - intros H. assert (NP := norm_pos 2 v H). unfold kernelsH2_H. cbv zeta. field. lra.
  - intros H. assert (NP := norm_pos 3 v H). assert (N2 := norm_sq 3 v H). rewrite sq3 in N2. unfold kernelsH3_H. cbv zeta. cbn [Nat.eqb].
    set (r := norm 3 v) in *.
    transitivity ((- 3 * (v 0%nat * v 0%nat + v 1%nat * v 1%nat + v 2%nat * v 2%nat) + 3 * (r * r)) / (4 * PI * (r * r) * (r * r) * r)); [field; lra|].
    rewrite <- N2. field. lra.
Qed.
(** LaplaceKernel::hypersingular: right in two dimensions ... *)
Theorem C14_hypersingular_2d : forall v, nonzero 2 v -> forall i j, hypersingular2 v i j = kernelsH2_H v i j.
Proof. intros v H i j. unfold hypersingular2, kernelsH2_H. cbv zeta. rewrite (norm_sq 2 v H). reflexivity. Qed.
(** ... in three dimensions right off the diagonal and at (2,2), but at (0,0) only where R1 = R2 = 0
    and at (1,1) only where R2 = 0: the inner loop stops at k = i instead of skipping it. *)
Theorem C14_hypersingular_3d : forall v, nonzero 3 v ->
  (forall i j, i <> j -> hypersingular3 v i j = kernelsH3_H v i j) /\
  hypersingular3 v 2%nat 2%nat = kernelsH3_H v 2%nat 2%nat /\
  (hypersingular3 v 0%nat 0%nat = kernelsH3_H v 0%nat 0%nat <-> v 1%nat = 0 /\ v 2%nat = 0) /\
  (hypersingular3 v 1%nat 1%nat = kernelsH3_H v 1%nat 1%nat <-> v 2%nat = 0).
Proof.
  intros v H. assert (Q := PIp). assert (NP := norm_pos 3 v H). assert (N2 := norm_sq 3 v H).
  unfold hypersingular3, kernelsH3_H. cbv zeta. rewrite <- N2. set (r := norm 3 v) in *. rewrite sq3 in N2.
  cbn [Nat.eqb before_break seq fold_left].
  assert (K : forall a b, a / (- 4 * PI * (r * r) * (r * r) * r) = (- 3 * b / r / r / r / r / r + 1 / (r * r) / r) / (4 * PI) <-> a = 3 * b - r * r).
  { intros a b. assert (D : 0 < 4 * PI * (r * r) * (r * r) * r) by (pos). split; intros E.
    - apply (Rmult_eq_compat_r (- (4 * PI * (r * r) * (r * r) * r))) in E.
      replace (a / _ * _) with a in E by (field; lra). rewrite E. field. lra.
    - rewrite E. field. lra. }
  assert (F : forall b, - 3 * b * b / (r * r) / (r * r) / r = - 3 * (b * b) / r / r / r / r / r) by (intros; field; lra).
  rewrite !F. split; [|split; [|split]].
  - intros i j Ne. destruct (Nat.eqb_spec i j); [congruence|]. field. lra.
  - apply K. rewrite N2. ring.
  - rewrite K. rewrite N2. split.
    + intros E. assert (Z : v 1%nat * v 1%nat + v 2%nat * v 2%nat = 0) by lra.
      assert (0 <= v 1%nat * v 1%nat) by apply Rle_0_sqr. assert (0 <= v 2%nat * v 2%nat) by apply Rle_0_sqr.
      split; apply Rsqr_0_uniq; unfold Rsqr; lra.
    + intros (-> & ->). ring.
  - rewrite K. rewrite N2. split.
    + intros E. apply Rsqr_0_uniq. unfold Rsqr. lra.
    + intros ->. ring.
Qed.
Theorem C14_hypersingular_3d_refuted : exists v, nonzero 3 v /\ hypersingular3 v 0%nat 0%nat <> kernelsH3_H v 0%nat 0%nat.
Proof.
  assert (N : nonzero 3 (fun _ => 1)) by (exists 0%nat; split; [lia|lra]).
  exists (fun _ => 1). split; auto. intros E. apply (C14_hypersingular_3d _ N) in E. lra.
Qed.
Example C14_nonvacuous : nonzero 3 (fun k => match k with 0%nat => 1 | 1%nat => 2 | _ => 0 end) /\ before_break 1 (seq 0 3) = [0%nat].
Proof. split; [exists 0%nat; split; [lia|lra]|reflexivity]. Qed.
