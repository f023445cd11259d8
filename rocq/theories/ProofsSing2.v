(** * First order expansions near zero on the right, and expansions along a ray. *)
From Coq Require Import ZArith List Reals Lia Lra Psatz Bool.
From Coquelicot Require Import Coquelicot.
From Verif Require Import SpecSing.
Local Open Scope R_scope.

(** f(rho) = O(rho^k) as rho -> 0+ *)
Definition Ord (k : nat) (f : R -> R) : Prop := exists d M, 0 < d /\ 0 <= M /\ forall r, 0 < r < d -> Rabs (f r) <= M * r ^ k.
(** f(rho) = a + b rho + O(rho^2) *)
Definition jet (f : R -> R) (a b : R) : Prop := Ord 2 (fun r => f r - (a + b * r)).

Lemma Ord_eq_near k f g d : 0 < d -> (forall r, 0 < r < d -> f r = g r) -> Ord k f -> Ord k g.
Proof.
  intros Hd E (d' & M & D & HM & B). exists (Rmin d d'), M. assert (0 < Rmin d d') by (apply Rmin_pos; lra).
  repeat split; auto. intros r Hr. assert (r < d /\ r < d') by (split; eapply Rlt_le_trans; try apply Hr; [apply Rmin_l|apply Rmin_r]).
  rewrite <- E by lra. apply B. lra.
Qed.
Lemma Ord_ext k f g : (forall r, f r = g r) -> Ord k f -> Ord k g.
Proof. intros E. apply Ord_eq_near with 1; [lra|]. auto. Qed.
Lemma Ord_plus k f g : Ord k f -> Ord k g -> Ord k (fun r => f r + g r).
Proof.
  intros (d & M & D & HM & B) (d' & M' & D' & HM' & B'). exists (Rmin d d'), (M + M'). assert (0 < Rmin d d') by (apply Rmin_pos; lra).
  repeat split; try lra. intros r Hr. assert (r < d /\ r < d') by (split; eapply Rlt_le_trans; try apply Hr; [apply Rmin_l|apply Rmin_r]).
  eapply Rle_trans; [apply Rabs_triang|]. rewrite Rmult_plus_distr_r. apply Rplus_le_compat; [apply B|apply B']; lra.
Qed.
Lemma Ord_mult k l f g : Ord k f -> Ord l g -> Ord (k + l) (fun r => f r * g r).
Proof.
  intros (d & M & D & HM & B) (d' & M' & D' & HM' & B'). exists (Rmin d d'), (M * M'). assert (0 < Rmin d d') by (apply Rmin_pos; lra).
  repeat split; try lra. { apply Rmult_le_pos; lra. } intros r Hr. assert (r < d /\ r < d') by (split; eapply Rlt_le_trans; try apply Hr; [apply Rmin_l|apply Rmin_r]).
  rewrite Rabs_mult, pow_add. replace (M * M' * (r ^ k * r ^ l)) with (M * r ^ k * (M' * r ^ l)) by ring.
  apply Rmult_le_compat; try apply Rabs_pos; [apply B|apply B']; lra.
Qed.
Lemma Ord_const c : Ord 0 (fun _ => c).
Proof. exists 1, (Rabs c). repeat split; try lra; try apply Rabs_pos. intros. simpl. lra. Qed.
Lemma Ord_zero k : Ord k (fun _ => 0).
Proof. exists 1, 0. repeat split; try lra. intros. rewrite Rabs_R0. lra. Qed.
Lemma Ord_id : Ord 1 (fun r => r).
Proof. exists 1, 1. repeat split; try lra. intros. rewrite Rabs_pos_eq by lra. simpl. lra. Qed.
Lemma Ord_scale k c f : Ord k f -> Ord k (fun r => c * f r).
Proof. intros O. change k with (0 + k)%nat. apply Ord_mult; [apply Ord_const|exact O]. Qed.
Lemma Ord_opp k f : Ord k f -> Ord k (fun r => - f r).
Proof. intros O. apply Ord_ext with (fun r => (-1) * f r); [intros; ring|]. apply Ord_scale, O. Qed.
Lemma Ord_minus k f g : Ord k f -> Ord k g -> Ord k (fun r => f r - g r).
Proof. intros A B. apply Ord_plus; [exact A|]. apply Ord_opp. exact B. Qed.
Lemma Ord_weak k l f : (k <= l)%nat -> Ord l f -> Ord k f.
Proof.
  intros Hk (d & M & D & HM & B). exists (Rmin d 1), M. assert (0 < Rmin d 1) by (apply Rmin_pos; lra). repeat split; auto.
  intros r Hr. assert (r < d /\ r < 1) by (split; eapply Rlt_le_trans; try apply Hr; [apply Rmin_l|apply Rmin_r]).
  eapply Rle_trans; [apply B; lra|]. apply Rmult_le_compat_l; auto. replace l with (k + (l - k))%nat by lia. rewrite pow_add.
  rewrite <- (Rmult_1_r (r ^ k)) at 2. apply Rmult_le_compat_l; [apply pow_le; lra|].
  rewrite <- (pow1 (l - k)). apply pow_incr. lra.
Qed.
Lemma Ord_pow k : Ord k (fun r => r ^ k).
Proof. exists 1, 1. repeat split; try lra. intros. rewrite Rabs_pos_eq by (apply pow_le; lra). lra. Qed.
(** dividing by rho^l *)
Lemma Ord_div k l f : Ord (k + l) f -> Ord k (fun r => f r / r ^ l).
Proof.
  intros (d & M & D & HM & B). exists d, M. repeat split; auto. intros r Hr. assert (P : 0 < r ^ l) by (apply pow_lt; lra).
  unfold Rdiv. rewrite Rabs_mult, (Rabs_pos_eq (/ _)) by (left; apply Rinv_0_lt_compat; auto).
  apply Rmult_le_reg_r with (r ^ l); auto. rewrite Rmult_assoc, Rinv_l, Rmult_1_r by lra. rewrite Rmult_assoc, <- pow_add. apply B. auto.
Qed.
Lemma Ord_bounded f : Ord 0 f -> bounded_at_0 f.
Proof. intros (d & M & D & HM & B). exists d, M. split; auto. intros r Hr. specialize (B r Hr). simpl in B. lra. Qed.

(** ** Jets *)
Lemma jet_eq_near f g a b d : 0 < d -> (forall r, 0 < r < d -> f r = g r) -> jet f a b -> jet g a b.
Proof. intros Hd E. apply Ord_eq_near with d; auto. intros r Hr. rewrite E; auto. Qed.
Lemma jet_ext f g a b : (forall r, f r = g r) -> jet f a b -> jet g a b.
Proof. intros E. apply Ord_ext. intros. rewrite E. reflexivity. Qed.
Lemma jet_cong f a b a' b' : a = a' -> b = b' -> jet f a b -> jet f a' b'.
Proof. intros -> ->. auto. Qed.
Lemma jet_const c : jet (fun _ => c) c 0.
Proof. apply Ord_ext with (fun _ => 0); [intros; ring|apply Ord_zero]. Qed.
Lemma jet_plus f g a b a' b' : jet f a b -> jet g a' b' -> jet (fun r => f r + g r) (a + a') (b + b').
Proof. intros A B. apply Ord_ext with (fun r => (f r - (a + b * r)) + (g r - (a' + b' * r))); [intros; ring|]. apply Ord_plus; auto. Qed.
Lemma jet_O0 f a b : jet f a b -> Ord 0 f.
Proof.
  intros A. apply Ord_ext with (fun r => (f r - (a + b * r)) + (a + b * r)); [intros; ring|]. apply Ord_plus; [apply (Ord_weak 0 2); [lia|exact A]|].
  apply Ord_plus; [apply Ord_const|]. apply Ord_scale. apply (Ord_weak 0 1); [lia|apply Ord_id].
Qed.
Lemma jet_O1 f a b : jet f a b -> Ord 1 (fun r => f r - a).
Proof.
  intros A. apply Ord_ext with (fun r => (f r - (a + b * r)) + (b * r)); [intros; ring|]. apply Ord_plus; [apply (Ord_weak 1 2); [lia|exact A]|].
  apply Ord_scale, Ord_id.
Qed.
Lemma jet_mult f g a b a' b' : jet f a b -> jet g a' b' -> jet (fun r => f r * g r) (a * a') (a * b' + b * a').
Proof.
  intros A B. apply Ord_ext with (fun r => (f r - (a + b * r)) * g r + ((a + b * r) * (g r - (a' + b' * r)) + b * b' * r ^ 2)); [intros; ring|].
  apply Ord_plus; [apply (Ord_mult 2 0); [exact A|apply (jet_O0 _ _ _ B)]|]. apply Ord_plus.
  - apply (Ord_mult 0 2); [|exact B]. apply Ord_plus; [apply Ord_const|]. apply Ord_scale. apply (Ord_weak 0 1); [lia|apply Ord_id].
  - apply Ord_scale, Ord_pow.
Qed.
Lemma jet_scale c f a b : jet f a b -> jet (fun r => c * f r) (c * a) (c * b).
Proof. intros A. eapply jet_cong; [reflexivity| |apply (jet_mult _ _ _ _ _ _ (jet_const c) A)]. ring. Qed.
Lemma jet_minus f g a b a' b' : jet f a b -> jet g a' b' -> jet (fun r => f r - g r) (a - a') (b - b').
Proof. intros A B. apply Ord_ext with (fun r => (f r - (a + b * r)) - (g r - (a' + b' * r))); [intros; ring|]. apply Ord_minus; auto. Qed.
(** near a nonzero limit *)
Lemma jet_away f a b : jet f a b -> a <> 0 -> exists d, 0 < d /\ forall r, 0 < r < d -> Rabs a / 2 <= Rabs (f r) /\ 0 < f r * a.
Proof.
  intros A Na. destruct (jet_O1 _ _ _ A) as (d & M & D & HM & B). assert (Pa : 0 < Rabs a) by (apply Rabs_pos_lt; auto).
  assert (Pm : 0 < Rabs a / (2 * (M + 1))) by (apply Rdiv_lt_0_compat; lra).
  exists (Rmin d (Rabs a / (2 * (M + 1)))). split; [apply Rmin_pos; lra|]. intros r Hr.
  assert (K : r < d /\ r < Rabs a / (2 * (M + 1))) by (split; eapply Rlt_le_trans; try apply Hr; [apply Rmin_l|apply Rmin_r]).
  specialize (B r ltac:(lra)). simpl in B.
  assert (M * r <= Rabs a / 2).
  { apply Rle_trans with ((M + 1) * (Rabs a / (2 * (M + 1)))); [apply Rmult_le_compat; lra|]. right. field. lra. }
  assert (L : Rabs (f r - a) <= Rabs a / 2) by lra. split.
  - assert (T := Rabs_triang_inv a (a - f r)). replace (a - (a - f r)) with (f r) in T by ring. rewrite (Rabs_minus_sym a (f r)) in T. lra.
  - revert L. unfold Rabs at 1. destruct (Rcase_abs (f r - a)); unfold Rabs in *; destruct (Rcase_abs a); intros; nra.
Qed.
Lemma jet_inv f a b : a <> 0 -> jet f a b -> jet (fun r => / f r) (/ a) (- b / a ^ 2).
Proof.
  intros Na A. destruct (jet_away f a b A Na) as (d & D & W).
  apply (Ord_eq_near _ (fun r => (b ^ 2 * r ^ 2 - (a - b * r) * (f r - (a + b * r))) * (/ a ^ 2 * / f r)) _ d); auto.
  - intros r Hr. destruct (W r Hr) as [_ P]. field. split; auto. intros Z. rewrite Z in P. lra.
  - apply (Ord_mult 2 0).
    + apply Ord_minus; [apply Ord_scale, Ord_pow|]. apply (Ord_mult 0 2); [|exact A].
      apply Ord_minus; [apply Ord_const|]. apply Ord_scale. apply (Ord_weak 0 1); [lia|apply Ord_id].
    + apply (Ord_mult 0 0); [apply Ord_const|]. exists d, (2 / Rabs a). assert (Pa : 0 < Rabs a) by (apply Rabs_pos_lt; auto).
      repeat split; auto. { apply Rlt_le, Rdiv_lt_0_compat; lra. } intros r Hr. destruct (W r Hr) as [L P].
      assert (f r <> 0) by (intros Z; rewrite Z in P; lra). rewrite Rabs_inv. simpl. rewrite Rmult_1_r.
      replace (2 / Rabs a) with (/ (Rabs a / 2)) by (field; lra). apply Rinv_le_contravar; lra.
Qed.
Lemma jet_sqrt f a b : 0 < a -> jet f a b -> jet (fun r => sqrt (f r)) (sqrt a) (b / (2 * sqrt a)).
Proof.
  intros Pa A. destruct (jet_away f a b A ltac:(lra)) as (d & D & W).
  assert (Ps : 0 < sqrt a) by (apply sqrt_lt_R0; auto). set (s := sqrt a) in *. assert (Es : s * s = a) by (apply sqrt_sqrt; lra).
  set (t := b / (2 * s)). set (p := fun r => s + t * r).
  assert (Jp : jet p s t). { apply Ord_ext with (fun _ => 0); [intros; unfold p; ring|apply Ord_zero]. }
  destruct (jet_away p s t Jp ltac:(lra)) as (d' & D' & W').
  set (e := Rmin d d'). assert (Pe : 0 < e) by (apply Rmin_pos; lra).
  assert (Ke : forall r, 0 < r < e -> 0 < r < d /\ 0 < r < d') by (intros r Hr; repeat split; try lra; eapply Rlt_le_trans; try apply Hr; [apply Rmin_l|apply Rmin_r]).
  assert (Kp : forall r, 0 < r < e -> s / 2 <= p r).
  { intros r Hr. destruct (W' r) as [L P]; [apply Ke; auto|]. rewrite (Rabs_pos_eq s) in L by lra. assert (0 < p r) by nra. rewrite Rabs_pos_eq in L by lra. exact L. }
  assert (Kf : forall r, 0 < r < e -> 0 < f r). { intros r Hr. destruct (W r) as [L P]; [apply Ke; auto|]. nra. }
  apply (Ord_eq_near _ (fun r => ((f r - (a + b * r)) - t ^ 2 * r ^ 2) * / (sqrt (f r) + p r)) _ e); auto.
  - intros r Hr. assert (Kp' := Kp r Hr). assert (Kf' := Kf r Hr). assert (Q : 0 < sqrt (f r)) by (apply sqrt_lt_R0; auto).
    assert (E : sqrt (f r) * sqrt (f r) = f r) by (apply sqrt_sqrt; lra).
    apply (Rmult_eq_reg_r (sqrt (f r) + p r)); [|lra]. rewrite Rmult_assoc, Rinv_l, Rmult_1_r by lra. fold t.
    unfold p. rewrite <- E at 1. rewrite <- Es. replace b with (2 * s * t) by (unfold t; field; lra). ring.
  - apply (Ord_mult 2 0). { apply Ord_minus; [exact A|]. apply Ord_scale, Ord_pow. }
    exists e, (2 / s). repeat split; auto. { apply Rlt_le, Rdiv_lt_0_compat; lra. } intros r Hr. assert (Kp' := Kp r Hr). assert (0 <= sqrt (f r)) by apply sqrt_pos.
    rewrite Rabs_pos_eq by (left; apply Rinv_0_lt_compat; lra). simpl. rewrite Rmult_1_r.
    replace (2 / s) with (/ (s / 2)) by (field; lra). apply Rinv_le_contravar; lra.
Qed.
Lemma jet_pow f a b n : jet f a b -> jet (fun r => f r ^ n) (a ^ n) (INR n * a ^ (n - 1) * b).
Proof.
  intros A. induction n as [|n IH].
  - simpl. eapply jet_cong; [| |apply (jet_const 1)]; ring.
  - apply jet_ext with (fun r => f r * f r ^ n); [reflexivity|]. eapply jet_cong; [| |apply (jet_mult _ _ _ _ _ _ A IH)]; [reflexivity|].
    rewrite S_INR. replace (S n - 1)%nat with n by lia. destruct n; [simpl; ring|]. replace (S n - 1)%nat with n by lia. rewrite S_INR. simpl. ring.
Qed.
(** uniqueness of the first two coefficients *)
Lemma Ord_const_0 c k : (1 <= k)%nat -> Ord k (fun _ => c) -> c = 0.
Proof.
  intros Hk O. apply (Ord_weak 1) in O; auto. destruct O as (d & M & D & HM & B). destruct (Req_dec c 0) as [|Nc]; auto. exfalso.
  assert (Pc : 0 < Rabs c) by (apply Rabs_pos_lt; auto). set (r := Rmin (d / 2) (Rabs c / (2 * (M + 1)))).
  assert (Pm : 0 < Rabs c / (2 * (M + 1))) by (apply Rdiv_lt_0_compat; lra). assert (Pr : 0 < r) by (apply Rmin_pos; lra).
  assert (r <= d / 2) by apply Rmin_l. assert (r <= Rabs c / (2 * (M + 1))) by apply Rmin_r. specialize (B r ltac:(lra)). simpl in B. rewrite Rmult_1_r in B.
  assert (M * r <= Rabs c / 2). { apply Rle_trans with ((M + 1) * (Rabs c / (2 * (M + 1)))); [apply Rmult_le_compat; lra|]. right. field. lra. } lra.
Qed.

(** ** Functions of class C^k along a ray *)
Definition ray (f : R -> R -> R) (u v c s : R) : R -> R := fun r => f (r * c + u) (r * s + v).
(** an antiderivative gains one order *)
Lemma Ord_prim k h h' d : 0 < d -> h 0 = 0 -> (forall r, 0 <= r < d -> is_derive h r (h' r)) -> Ord k h' -> Ord (S k) h.
Proof.
  intros Hd H0 Dh (d' & M & D & HM & B). exists (Rmin d d'), M. assert (0 < Rmin d d') by (apply Rmin_pos; lra). repeat split; auto.
  intros r Hr. assert (K : r < d /\ r < d') by (split; eapply Rlt_le_trans; try apply Hr; [apply Rmin_l|apply Rmin_r]).
  destruct (MVT_cor2 h h' 0 r) as (c & E & Hc); [lra|intros c Hc; apply is_derive_Reals, Dh; lra|].
  replace (h r) with (h' c * (r - 0)) by lra. rewrite Rminus_0_r, Rabs_mult, (Rabs_pos_eq r) by lra. replace (M * r ^ S k) with (M * r ^ k * r) by (simpl; ring).
  apply Rmult_le_compat_r; [lra|]. apply Rle_trans with (M * c ^ k); [apply B; lra|]. apply Rmult_le_compat_l; auto. apply pow_incr. lra.
Qed.
Lemma loc2_ray (P : R -> R -> Prop) u v c s : Rabs c <= 1 -> Rabs s <= 1 -> locally_2d P u v -> exists d, 0 < d /\ forall r, Rabs r < d -> P (r * c + u) (r * s + v).
Proof.
  intros Hc Hs [d B]. exists d. split; [apply cond_pos|]. intros r Hr. apply B.
  - replace (r * c + u - u) with (r * c) by ring. rewrite Rabs_mult. assert (0 <= Rabs r) by apply Rabs_pos. nra.
  - replace (r * s + v - v) with (r * s) by ring. rewrite Rabs_mult. assert (0 <= Rabs r) by apply Rabs_pos. nra.
Qed.
Lemma class_S_down k f u v : class_C (S k) f u v -> class_C k (du f) u v /\ class_C k (dv f) u v /\
  locally_2d (fun x y => ex_derive (fun z => f z y) x /\ ex_derive (fun z => f x z) y) u v.
Proof. cbn [class_C]. tauto. Qed.
Lemma loc2_open (P : R -> R -> Prop) u v : locally_2d P u v -> locally_2d (fun x y => locally_2d P x y) u v.
Proof. intros A. apply locally_2d_impl_strong with P; [|exact A]. apply locally_2d_forall. auto. Qed.
Lemma C1_diff f x y :
  locally_2d (fun x y => ex_derive (fun z => f z y) x /\ ex_derive (fun z => f x z) y) x y ->
  continuity_2d_pt (du f) x y -> differentiable_pt_lim f x y (du f x y) (dv f x y).
Proof.
  intros D C. apply filterdiff_differentiable_pt_lim.
  assert (K := is_derive_filterdiff f x y (du f) (dv f x y)).
  apply K.
  - apply locally_2d_locally in D. eapply filter_imp; [|exact D]. intros [a b] [A _]. apply Derive_correct in A. exact A.
  - apply locally_2d_singleton in D. destruct D as [_ D]. apply Derive_correct in D. exact D.
  - apply continuity_2d_pt_filterlim in C. exact C.
Qed.
Lemma class_cont k f u v : class_C k f u v -> class_C 0 f u v.
Proof.
  revert f. induction k as [|k IH]; auto. intros f (D & A & B).
  apply IH in A. cbn [class_C] in *. apply loc2_open in D. assert (K := locally_2d_and _ _ _ _ D A).
  eapply locally_2d_impl; [|exact K]. apply locally_2d_forall. intros x y [D' C]. assert (E := C1_diff f x y D' C).
  apply differentiable_continuity_pt. exists (du f x y), (dv f x y). exact E.
Qed.
Lemma ray_derive f u v c s : Rabs c <= 1 -> Rabs s <= 1 -> class_C 1 f u v ->
  exists d, 0 < d /\ forall r, Rabs r < d -> is_derive (ray f u v c s) r (ray (du f) u v c s r * c + ray (dv f) u v c s r * s).
Proof.
  intros Hc Hs (D & A & B). cbn [class_C] in A. apply loc2_open in D. assert (K := locally_2d_and _ _ _ _ D A).
  destruct (loc2_ray _ _ _ c s Hc Hs K) as (d & Pd & Q). exists d. split; auto. intros r Hr. destruct (Q r Hr) as [D' C].
  assert (E := C1_diff f _ _ D' C). apply is_derive_Reals.
  apply (derivable_pt_lim_comp_2d f (fun r => r * c + u) (fun r => r * s + v)); [exact E| |].
  - apply is_derive_Reals. auto_derive; auto. ring.
  - apply is_derive_Reals. auto_derive; auto. ring.
Qed.
Lemma ray_0 f u v c s : ray f u v c s 0 = f u v.
Proof. unfold ray. rewrite !Rmult_0_l, !Rplus_0_l. reflexivity. Qed.
Lemma ray_O1 f u v c s : Rabs c <= 1 -> Rabs s <= 1 -> class_C 1 f u v -> Ord 1 (fun r => ray f u v c s r - f u v).
Proof.
  intros Hc Hs C. destruct (ray_derive f u v c s Hc Hs C) as (d & Pd & D). specialize (D 0). rewrite Rabs_R0 in D. specialize (D Pd).
  apply is_derive_Reals in D. set (l := ray (du f) u v c s 0 * c + ray (dv f) u v c s 0 * s) in *. destruct (D 1 ltac:(lra)) as [e E].
  exists e, (Rabs l + 1). assert (0 <= Rabs l) by apply Rabs_pos. assert (0 < e) by apply cond_pos. repeat split; try lra. intros r Hr. specialize (E r ltac:(lra)). rewrite (Rabs_pos_eq r) in E by lra. specialize (E ltac:(lra)).
  rewrite Rplus_0_l, ray_0 in E. assert (T : Rabs ((ray f u v c s r - f u v) / r) <= Rabs l + 1).
  { replace ((ray f u v c s r - f u v) / r) with (((ray f u v c s r - f u v) / r - l) + l) by ring. eapply Rle_trans; [apply Rabs_triang|]. lra. }
  replace (ray f u v c s r - f u v) with ((ray f u v c s r - f u v) / r * r) by (field; lra). rewrite Rabs_mult, (Rabs_pos_eq r) by lra. simpl. rewrite Rmult_1_r.
  apply Rmult_le_compat_r; lra.
Qed.
Lemma ray_jet f u v c s : Rabs c <= 1 -> Rabs s <= 1 -> class_C 2 f u v -> jet (ray f u v c s) (f u v) (du f u v * c + dv f u v * s).
Proof.
  intros Hc Hs C. assert (C' := C). destruct C' as (D0 & Cu & Cv).
  assert (C1 : class_C 1 f u v). { split; [exact D0|]. split; eapply class_cont; eassumption. }
  destruct (ray_derive f u v c s Hc Hs C1) as (d & Pd & D).
  apply Ord_prim with (fun r => (ray (du f) u v c s r * c + ray (dv f) u v c s r * s) - (du f u v * c + dv f u v * s)) d; auto.
  - rewrite ray_0. ring.
  - intros r Hr. specialize (D r). rewrite Rabs_pos_eq in D by lra. specialize (D ltac:(lra)).
    apply is_derive_minus with (f := ray f u v c s) (g := fun r => f u v + (du f u v * c + dv f u v * s) * r); [exact D|]. auto_derive; auto. ring.
  - apply Ord_ext with (fun r => c * (ray (du f) u v c s r - du f u v) + s * (ray (dv f) u v c s r - dv f u v)); [intros; ring|].
    apply Ord_plus; apply Ord_scale; apply ray_O1; auto.
Qed.
Lemma ray_second f u v c s : Rabs c <= 1 -> Rabs s <= 1 -> class_C 3 f u v ->
  jet (fun r => (ray f u v c s r - f u v) / r) (du f u v * c + dv f u v * s)
    (du (du f) u v * c ^ 2 / 2 + dv (du f) u v * c * s + dv (dv f) u v * s ^ 2 / 2).
Proof.
  intros Hc Hs C. assert (C' := C). destruct C' as (D0 & Cu & Cv).
  assert (C1 : class_C 1 f u v). { split; [exact D0|]. split; eapply class_cont; eassumption. }
  destruct (ray_derive f u v c s Hc Hs C1) as (d & Pd & D).
  assert (SW : du (dv f) u v = dv (du f) u v).
  { unfold du, dv. apply Schwarz.
    - destruct Cu as (Du & Cuu & Cuv). destruct Cv as (Dv & Cvu & Cvv). assert (K := locally_2d_and _ _ _ _ D0 (locally_2d_and _ _ _ _ Du Dv)).
      eapply locally_2d_impl; [|exact K]. apply locally_2d_forall. intros x y ((A1 & A2) & (A3 & A4) & (A5 & A6)). repeat split; assumption.
    - destruct Cv as (_ & Cvu & _). apply class_cont in Cvu. cbn [class_C] in Cvu. apply (locally_2d_singleton _ _ _ Cvu).
    - destruct Cu as (_ & _ & Cuv). apply class_cont in Cuv. cbn [class_C] in Cuv. apply (locally_2d_singleton _ _ _ Cuv). }
  assert (J := ray_jet (du f) u v c s Hc Hs Cu). assert (J' := ray_jet (dv f) u v c s Hc Hs Cv). rewrite SW in J'.
  set (l := du f u v * c + dv f u v * s) in *. set (q := du (du f) u v * c ^ 2 / 2 + dv (du f) u v * c * s + dv (dv f) u v * s ^ 2 / 2).
  assert (O3 : Ord 3 (fun r => ray f u v c s r - (f u v + l * r + q * r ^ 2))).
  { apply Ord_prim with (fun r => (ray (du f) u v c s r * c + ray (dv f) u v c s r * s) - (l + 2 * q * r)) d; auto.
    - rewrite ray_0. ring.
    - intros r Hr. specialize (D r). rewrite Rabs_pos_eq in D by lra. specialize (D ltac:(lra)).
      apply is_derive_minus with (f := ray f u v c s) (g := fun r => f u v + l * r + q * r ^ 2); [exact D|]. auto_derive; auto. ring.
    - apply Ord_ext with (fun r => c * (ray (du f) u v c s r - (du f u v + (du (du f) u v * c + dv (du f) u v * s) * r))
                            + s * (ray (dv f) u v c s r - (dv f u v + (dv (du f) u v * c + dv (dv f) u v * s) * r))).
      + intros r. unfold l, q. field.
      + apply Ord_plus; apply Ord_scale; assumption. }
  apply (Ord_eq_near _ (fun r => (ray f u v c s r - (f u v + l * r + q * r ^ 2)) / r ^ 1) _ 1); [lra| |].
  - intros r Hr. field. lra.
  - apply (Ord_div 2 1). exact O3.
Qed.
