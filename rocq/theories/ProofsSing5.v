(** * Polynomials are of every class C^k; derivatives of the surface element; the free term. *)
From Coq Require Import ZArith List Reals Lia Lra Psatz Bool.
From Coquelicot Require Import Coquelicot.
From Verif Require Import ModelSing SpecSing ProofsSing2 ProofsSing3 ProofsSing4.
Local Open Scope R_scope.

(** ** closure of class_C *)
Lemma du_ext_loc f g u v : locally_2d (fun x y => f x y = g x y) u v -> du f u v = du g u v /\ dv f u v = dv g u v.
Proof.
  intros E. split.
  - apply Derive_ext_loc. apply (locally_2d_1d_const_y _ _ _ E).
  - apply Derive_ext_loc. apply (locally_2d_1d_const_x _ _ _ E).
Qed.
Lemma class_ext k : forall f g u v, locally_2d (fun x y => f x y = g x y) u v -> class_C k f u v -> class_C k g u v.
Proof.
  induction k as [|k IH]; intros f g u v E C; assert (E' := loc2_open _ _ _ E).
  - cbn [class_C] in *. assert (K := locally_2d_and _ _ _ _ E' C). eapply locally_2d_impl; [|exact K]. apply locally_2d_forall. intros x y [A B].
    apply continuity_2d_pt_ext_loc with f; auto.
  - destruct C as (D & Cu & Cv). split; [|split].
    + assert (K := locally_2d_and _ _ _ _ E' D). eapply locally_2d_impl; [|exact K]. apply locally_2d_forall. intros x y [A [B1 B2]]. split.
      * apply ex_derive_ext_loc with (fun z => f z y); auto. apply (locally_2d_1d_const_y _ _ _ A).
      * apply ex_derive_ext_loc with (fun z => f x z); auto. apply (locally_2d_1d_const_x _ _ _ A).
    + apply IH with (du f); auto. eapply locally_2d_impl; [|exact E']. apply locally_2d_forall. intros x y A. apply (du_ext_loc f g x y A).
    + apply IH with (dv f); auto. eapply locally_2d_impl; [|exact E']. apply locally_2d_forall. intros x y A. apply (du_ext_loc f g x y A).
Qed.
Lemma class_ext' k f g u v : (forall x y, f x y = g x y) -> class_C k f u v -> class_C k g u v.
Proof. intros E. apply class_ext. apply locally_2d_forall. auto. Qed.
Lemma class_const k c u v : class_C k (fun _ _ => c) u v.
Proof.
  revert c. induction k as [|k IH]; intros c.
  - apply locally_2d_forall. intros x y. apply continuity_2d_pt_const.
  - split; [|split].
    + apply locally_2d_forall. intros x y. split; apply ex_derive_const.
    + apply class_ext' with (fun _ _ => 0); [|apply IH]. intros x y. unfold du. rewrite Derive_const. reflexivity.
    + apply class_ext' with (fun _ _ => 0); [|apply IH]. intros x y. unfold dv. rewrite Derive_const. reflexivity.
Qed.
Lemma class_u k u v : class_C k (fun x _ => x) u v.
Proof.
  destruct k as [|k].
  - apply locally_2d_forall. intros x y. apply continuity_2d_pt_id1.
  - split; [|split].
    + apply locally_2d_forall. intros x y. split; [apply ex_derive_id|apply ex_derive_const].
    + apply class_ext' with (fun _ _ => 1); [|apply class_const]. intros x y. unfold du. rewrite Derive_id. reflexivity.
    + apply class_ext' with (fun _ _ => 0); [|apply class_const]. intros x y. unfold dv. rewrite Derive_const. reflexivity.
Qed.
Lemma class_v k u v : class_C k (fun _ y => y) u v.
Proof.
  destruct k as [|k].
  - apply locally_2d_forall. intros x y. apply continuity_2d_pt_id2.
  - split; [|split].
    + apply locally_2d_forall. intros x y. split; [apply ex_derive_const|apply ex_derive_id].
    + apply class_ext' with (fun _ _ => 0); [|apply class_const]. intros x y. unfold du. rewrite Derive_const. reflexivity.
    + apply class_ext' with (fun _ _ => 1); [|apply class_const]. intros x y. unfold dv. rewrite Derive_id. reflexivity.
Qed.
Lemma class_plus k : forall f g u v, class_C k f u v -> class_C k g u v -> class_C k (fun x y => f x y + g x y) u v.
Proof.
  induction k as [|k IH]; intros f g u v Cf Cg.
  - assert (K := locally_2d_and _ _ _ _ Cf Cg). eapply locally_2d_impl; [|exact K]. apply locally_2d_forall. intros x y [A B]. apply continuity_2d_pt_plus; auto.
  - destruct Cf as (D & Cu & Cv), Cg as (D' & Cu' & Cv'). assert (K := locally_2d_and _ _ _ _ D D'). split; [|split].
    + eapply locally_2d_impl; [|exact K]. apply locally_2d_forall. intros x y [[A B] [A' B']].
      split; [apply (ex_derive_plus (fun z => f z y) (fun z => g z y))|apply (ex_derive_plus (fun z => f x z) (fun z => g x z))]; auto.
    + apply class_ext with (fun x y => du f x y + du g x y); [|apply IH; auto]. eapply locally_2d_impl; [|exact K]. apply locally_2d_forall. intros x y [[A B] [A' B']].
      unfold du. symmetry. apply (Derive_plus (fun z => f z y) (fun z => g z y)); auto.
    + apply class_ext with (fun x y => dv f x y + dv g x y); [|apply IH; auto]. eapply locally_2d_impl; [|exact K]. apply locally_2d_forall. intros x y [[A B] [A' B']].
      unfold dv. symmetry. apply (Derive_plus (fun z => f x z) (fun z => g x z)); auto.
Qed.
Lemma class_down k f u v : class_C (S k) f u v -> class_C k f u v.
Proof.
  revert f. induction k as [|k IH]; intros f C; [apply (class_cont 1 _ _ _ C)|]. destruct C as (D & Cu & Cv). split; auto.
Qed.
Lemma class_mult k : forall f g u v, class_C k f u v -> class_C k g u v -> class_C k (fun x y => f x y * g x y) u v.
Proof.
  induction k as [|k IH]; intros f g u v Cf Cg.
  - assert (K := locally_2d_and _ _ _ _ Cf Cg). eapply locally_2d_impl; [|exact K]. apply locally_2d_forall. intros x y [A B]. apply continuity_2d_pt_mult; auto.
  - assert (Df := class_down _ _ _ _ Cf). assert (Dg := class_down _ _ _ _ Cg).
    destruct Cf as (D & Cu & Cv), Cg as (D' & Cu' & Cv'). assert (K := locally_2d_and _ _ _ _ D D'). split; [|split].
    + eapply locally_2d_impl; [|exact K]. apply locally_2d_forall. intros x y [[A B] [A' B']].
      split; [apply (ex_derive_mult (fun z => f z y) (fun z => g z y))|apply (ex_derive_mult (fun z => f x z) (fun z => g x z))]; auto.
    + apply class_ext with (fun x y => du f x y * g x y + f x y * du g x y); [|apply class_plus; apply IH; auto]. eapply locally_2d_impl; [|exact K]. apply locally_2d_forall. intros x y [[A B] [A' B']].
      unfold du. symmetry. apply (Derive_mult (fun z => f z y) (fun z => g z y)); auto.
    + apply class_ext with (fun x y => dv f x y * g x y + f x y * dv g x y); [|apply class_plus; apply IH; auto]. eapply locally_2d_impl; [|exact K]. apply locally_2d_forall. intros x y [[A B] [A' B']].
      unfold dv. symmetry. apply (Derive_mult (fun z => f x z) (fun z => g x z)); auto.
Qed.
(** polynomials in the two reference coordinates: what every MappingQ and FE_Q provides *)
Inductive polynomial2 : (R -> R -> R) -> Prop :=
| poly_const c : polynomial2 (fun _ _ => c)
| poly_u : polynomial2 (fun x _ => x)
| poly_v : polynomial2 (fun _ y => y)
| poly_plus f g : polynomial2 f -> polynomial2 g -> polynomial2 (fun x y => f x y + g x y)
| poly_mult f g : polynomial2 f -> polynomial2 g -> polynomial2 (fun x y => f x y * g x y).
Lemma polynomial_class f : polynomial2 f -> forall k u v, class_C k f u v.
Proof.
  induction 1; intros k u v; [apply class_const|apply class_u|apply class_v|apply class_plus; auto|apply class_mult; auto].
Qed.

(** ** derivatives of the surface element (C49) *)
Lemma surf_derive_u X u v i : (i < 3)%nat ->
  (forall j, (j < 3)%nat -> ex_derive (fun z => du (X j) z v) u /\ ex_derive (fun z => dv (X j) z v) u) ->
  is_derive (fun z => surf X z v i) u (d_eta_Jxn_du (map_jac X u v) (map_grad X u v) i).
Proof.
  intros Hi D.
  assert (K : forall a b a' b', (a < 3)%nat -> (b < 3)%nat -> (a' < 3)%nat -> (b' < 3)%nat ->
    is_derive (fun z => du (X a) z v * dv (X b) z v - du (X a') z v * dv (X b') z v) u
      (du (du (X a)) u v * dv (X b) u v + du (X a) u v * du (dv (X b)) u v - (du (du (X a')) u v * dv (X b') u v + du (X a') u v * du (dv (X b')) u v))).
  { intros a b a' b' h1 h2 h3 h4. destruct (D a h1) as [A _]. destruct (D b h2) as [_ B]. destruct (D a' h3) as [A' _]. destruct (D b' h4) as [_ B'].
    apply Derive_correct in A, B, A', B'. apply (is_derive_minus (fun z => du (X a) z v * dv (X b) z v) (fun z => du (X a') z v * dv (X b') z v) u).
    - apply (is_derive_mult (fun z => du (X a) z v) (fun z => dv (X b) z v) u _ _ A B). intros; apply Rmult_comm.
    - apply (is_derive_mult (fun z => du (X a') z v) (fun z => dv (X b') z v) u _ _ A' B'). intros; apply Rmult_comm. }
  assert (i = 0 \/ i = 1 \/ i = 2)%nat as [ -> | [ -> | -> ]] by lia.
  - evar_last; [exact (K 1%nat 2%nat 2%nat 1%nat ltac:(lia) ltac:(lia) ltac:(lia) ltac:(lia))|]. cbn. ring.
  - evar_last; [exact (K 2%nat 0%nat 0%nat 2%nat ltac:(lia) ltac:(lia) ltac:(lia) ltac:(lia))|]. cbn. ring.
  - evar_last; [exact (K 0%nat 1%nat 1%nat 0%nat ltac:(lia) ltac:(lia) ltac:(lia) ltac:(lia))|]. cbn. ring.
Qed.
Lemma surf_derive_v X u v i : (i < 3)%nat ->
  (forall j, (j < 3)%nat -> ex_derive (fun z => du (X j) u z) v /\ ex_derive (fun z => dv (X j) u z) v) ->
  is_derive (fun z => surf X u z i) v (d_eta_Jxn_dv (map_jac X u v) (map_grad X u v) i).
Proof.
  intros Hi D.
  assert (K : forall a b a' b', (a < 3)%nat -> (b < 3)%nat -> (a' < 3)%nat -> (b' < 3)%nat ->
    is_derive (fun z => du (X a) u z * dv (X b) u z - du (X a') u z * dv (X b') u z) v
      (dv (du (X a)) u v * dv (X b) u v + du (X a) u v * dv (dv (X b)) u v - (dv (du (X a')) u v * dv (X b') u v + du (X a') u v * dv (dv (X b')) u v))).
  { intros a b a' b' h1 h2 h3 h4. destruct (D a h1) as [A _]. destruct (D b h2) as [_ B]. destruct (D a' h3) as [A' _]. destruct (D b' h4) as [_ B'].
    apply Derive_correct in A, B, A', B'. apply (is_derive_minus (fun z => du (X a) u z * dv (X b) u z) (fun z => du (X a') u z * dv (X b') u z) v).
    - apply (is_derive_mult (fun z => du (X a) u z) (fun z => dv (X b) u z) v _ _ A B). intros; apply Rmult_comm.
    - apply (is_derive_mult (fun z => du (X a') u z) (fun z => dv (X b') u z) v _ _ A' B'). intros; apply Rmult_comm. }
  assert (i = 0 \/ i = 1 \/ i = 2)%nat as [ -> | [ -> | -> ]] by lia.
  - evar_last; [exact (K 1%nat 2%nat 2%nat 1%nat ltac:(lia) ltac:(lia) ltac:(lia) ltac:(lia))|]. cbn. ring.
  - evar_last; [exact (K 2%nat 0%nat 0%nat 2%nat ltac:(lia) ltac:(lia) ltac:(lia) ltac:(lia))|]. cbn. ring.
  - evar_last; [exact (K 0%nat 1%nat 1%nat 0%nat ltac:(lia) ltac:(lia) ltac:(lia) ltac:(lia))|]. cbn. ring.
Qed.

(** ** the kernels are derivatives of 1/r (C48) *)
Definition shift (R_ : nat -> R) (i : nat) (h : R) : nat -> R := fun j => R_ j - (if Nat.eqb j i then h else 0).
Lemma dot_shift R_ i h : (i < 3)%nat -> dot3 (shift R_ i h) (shift R_ i h) = dot3 R_ R_ - 2 * h * R_ i + h * h.
Proof. intros Hi. unfold dot3, shift. assert (i = 0 \/ i = 1 \/ i = 2)%nat as [ -> | [ -> | -> ]] by lia; cbn; ring. Qed.
Lemma norm_pos R_ i : (i < 3)%nat -> R_ i <> 0 -> 0 < dot3 R_ R_.
Proof.
  intros Hi N. unfold dot3. assert (K0 := Rle_0_sqr (R_ 0%nat)). assert (K1 := Rle_0_sqr (R_ 1%nat)). assert (K2 := Rle_0_sqr (R_ 2%nat)). assert (K := Rsqr_pos_lt _ N). unfold Rsqr in *.
  assert (i = 0 \/ i = 1 \/ i = 2)%nat as [ -> | [ -> | -> ]] by lia; lra.
Qed.
Lemma kernel_W R_ i : (i < 3)%nat -> 0 < dot3 R_ R_ -> is_derive (fun h => 1 / norm3 (shift R_ i h)) 0 (grad_G R_ i).
Proof.
  intros Hi P. apply (is_derive_ext (fun h => 1 / sqrt (dot3 R_ R_ - 2 * h * R_ i + h * h))). { intros h. unfold norm3. rewrite dot_shift by exact Hi. reflexivity. }
  assert (S : 0 < sqrt (dot3 R_ R_)) by (apply sqrt_lt_R0; exact P). assert (SS : sqrt (dot3 R_ R_) * sqrt (dot3 R_ R_) = dot3 R_ R_) by (apply sqrt_sqrt; lra).
  assert (Z : dot3 R_ R_ - 2 * 0 * R_ i + 0 * 0 = dot3 R_ R_) by ring.
  evar_last.
  - auto_derive; [|reflexivity]. replace (dot3 R_ R_ + - (2 * 0 * R_ i) + 0 * 0) with (dot3 R_ R_) by ring. repeat split; auto; lra.
  - replace (dot3 R_ R_ + - (2 * 0 * R_ i) + 0 * 0) with (dot3 R_ R_) by ring. unfold grad_G, norm3. field. lra.
Qed.
Lemma kernel_V R_ n i : (i < 3)%nat -> 0 < dot3 R_ R_ -> is_derive (fun h => - dot3 (shift R_ i h) n / norm3 (shift R_ i h) ^ 3) 0 (grad_dG R_ n i).
Proof.
  intros Hi P. apply (is_derive_ext (fun h => - (dot3 R_ n - h * n i) / sqrt (dot3 R_ R_ - 2 * h * R_ i + h * h) ^ 3)).
  { intros h. unfold norm3. rewrite dot_shift by exact Hi. f_equal. f_equal. unfold dot3, shift. assert (i = 0 \/ i = 1 \/ i = 2)%nat as [ -> | [ -> | -> ]] by lia; cbn; ring. }
  assert (S : 0 < sqrt (dot3 R_ R_)) by (apply sqrt_lt_R0; exact P).
  evar_last.
  - auto_derive; [|reflexivity]. replace (dot3 R_ R_ + - (2 * 0 * R_ i) + 0 * 0) with (dot3 R_ R_) by ring. repeat split; auto. change (sqrt (dot3 R_ R_) ^ 3 <> 0). apply pow_nonzero. lra.
  - replace (dot3 R_ R_ + - (2 * 0 * R_ i) + 0 * 0) with (dot3 R_ R_) by ring. unfold grad_dG, norm3.
    assert (SS : dot3 R_ R_ = sqrt (dot3 R_ R_) * sqrt (dot3 R_ R_)) by (symmetry; apply sqrt_sqrt; lra). simpl. field. lra.
Qed.
Lemma V_fun_spec R_ n N i : 0 < dot3 R_ R_ -> V_fun R_ n N i = grad_dG R_ n i * N.
Proof. intros P. assert (S : 0 < sqrt (dot3 R_ R_)) by (apply sqrt_lt_R0; exact P). unfold V_fun, grad_dG, vnorm, norm3. change (vdot R_ R_) with (dot3 R_ R_). change (vdot R_ n) with (dot3 R_ n). field. lra. Qed.
Lemma W_fun_spec R_ N i : 0 < dot3 R_ R_ -> W_fun R_ N i = grad_G R_ i * N.
Proof. intros P. assert (S : 0 < sqrt (dot3 R_ R_)) by (apply sqrt_lt_R0; exact P). unfold W_fun, grad_G, vnorm, norm3. change (vdot R_ R_) with (dot3 R_ R_). field. lra. Qed.

(** ** the free term integrand *)
Lemma schwarz f u v : class_C 3 f u v -> du (dv f) u v = dv (du f) u v.
Proof.
  intros (D0 & Cu & Cv). unfold du, dv. apply Schwarz.
  - destruct Cu as (Du & Cuu & Cuv). destruct Cv as (Dv & Cvu & Cvv). assert (K := locally_2d_and _ _ _ _ D0 (locally_2d_and _ _ _ _ Du Dv)).
    eapply locally_2d_impl; [|exact K]. apply locally_2d_forall. intros x y ((A1 & A2) & (A3 & A4) & (A5 & A6)). repeat split; assumption.
  - destruct Cv as (_ & Cvu & _). apply class_cont in Cvu. cbn [class_C] in Cvu. apply (locally_2d_singleton _ _ _ Cvu).
  - destruct Cu as (_ & _ & Cuv). apply class_cont in Cuv. cbn [class_C] in Cuv. apply (locally_2d_singleton _ _ _ Cuv).
Qed.
Lemma tangent_identity X N u v t : (forall i, (i < 3)%nat -> class_C 3 (X i) u v) ->
  let d := data_of X N u v in vdot (coef_A d t) (Jk1 d t) = -2 * vdot (coef_B d t) (Jk0 d).
Proof.
  intros C d. assert (S0 := schwarz _ _ _ (C 0%nat ltac:(lia))). assert (S1 := schwarz _ _ _ (C 1%nat ltac:(lia))). assert (S2 := schwarz _ _ _ (C 2%nat ltac:(lia))).
  unfold d, vdot, coef_A, coef_B, Jk1, Jk0, vadd, vscale, data_of. cbn. rewrite S0, S1, S2. field.
Qed.
Lemma free_term_limit X N u v t i : (forall i, (i < 3)%nat -> class_C 3 (X i) u v) -> class_C 2 N u v -> (exists i, (i < 3)%nat /\ surf X u v i <> 0) -> (i < 3)%nat ->
  lim0 (fun r => - 2 * r ^ 2 * (dot3 (Rv X u v t r) (nv X u v t r) * jxw X u v t r) * Rv X u v t r i / norm3 (Rv X u v t r) ^ 5) (b_term (data_of X N u v) t i).
Proof.
  intros CX CN ND Hi. set (d := data_of X N u v). set (A := coef_A d t). set (B := coef_B d t).
  assert (QA := qA_pos X N u v t ND). fold d in QA. assert (TI := tangent_identity X N u v t CX). cbv zeta in TI. fold d A B in TI.
  assert (JQJ := jdot (Qv X u v t) (Jv X u v t) A B (Jk0 d) (Jk1 d t) (jQ X N u v t CX) (jJ X N u v t CX)).
  assert (E0 : vdot A (Jk0 d) = 0) by (apply (A_orth X N u v t)). rewrite E0, TI in JQJ.
  set (w := vdot B (Jk0 d)) in *.
  assert (O1 : Ord 1 (fun r => dot3 (Qv X u v t r) (Jv X u v t r) / r - (- w))).
  { apply (Ord_eq_near _ (fun r => (dot3 (Qv X u v t r) (Jv X u v t r) - (0 + (-2 * w + w) * r)) / r ^ 1) _ 1); [lra| |].
    - intros r Hr. field. lra.
    - apply (Ord_div 1 1). exact JQJ. }
  destruct (q_near X N u v t CX ND) as (e & E & W).
  assert (L1 := lim0_Ord1 _ _ O1).
  assert (J2 := jet_mult _ _ _ _ _ _ (jQ X N u v t CX i Hi) (jq_inv X N u v t CX ND 5)). fold d A B in J2.
  assert (bt : b_term d t i = -2 * (- w * (A i * / q_A d t ^ 5))).
  { unfold b_term. change (vnorm (r_rho d t)) with (q_A d t). change (r_rho d t i) with (A i).
    assert (G0 : 0 < vnorm (eta_g (d_jac d))).
    { unfold vnorm. apply sqrt_lt_R0. replace (vdot (eta_g (d_jac d)) (eta_g (d_jac d))) with (vdot (Jk0 d) (Jk0 d)); [exact (J0_pos X N u v ND)|]. unfold vdot, Jk0, eta_Jxn, eta_g. ring. }
    transitivity ((eta_g (d_jac d) 0%nat * r_rhorho d t 0%nat + eta_g (d_jac d) 1%nat * r_rhorho d t 1%nat + eta_g (d_jac d) 2%nat * r_rhorho d t 2%nat) * A i / q_A d t ^ 5); [field; lra|].
    replace (eta_g (d_jac d) 0%nat * r_rhorho d t 0%nat + eta_g (d_jac d) 1%nat * r_rhorho d t 1%nat + eta_g (d_jac d) 2%nat * r_rhorho d t 2%nat) with (2 * w); [field; lra|].
    unfold w, vdot, B, coef_B, r_rhorho, Jk0, eta_Jxn, eta_g. field. }
  rewrite bt.
  assert (O2 : Ord 1 (fun r => dot3 (Qv X u v t r) (Jv X u v t r) / r * (Qv X u v t r i * / qv X u v t r ^ 5) - (- w * (A i * / q_A d t ^ 5)))).
  { apply Ord_ext with (fun r => (dot3 (Qv X u v t r) (Jv X u v t r) / r - - w) * (Qv X u v t r i * / qv X u v t r ^ 5) + - w * (Qv X u v t r i * / qv X u v t r ^ 5 - A i * / q_A d t ^ 5)); [intros; ring|].
    apply Ord_plus; [apply (Ord_mult 1 0); [exact O1|exact (jet_O0 _ _ _ J2)]|]. apply Ord_scale. exact (jet_O1 _ _ _ J2). }
  apply (lim0_ext_near (fun r => -2 * (dot3 (Qv X u v t r) (Jv X u v t r) / r * (Qv X u v t r i * / qv X u v t r ^ 5))) _ _ e E); [|apply lim0_scale, lim0_Ord1, O2].
  intros r Hr. assert (Pq := W r Hr).
  assert (EN : norm3 (Rv X u v t r) = r * qv X u v t r) by (apply (Rv_norm X u v t); lra). rewrite EN.
  assert (EJ : dot3 (Qv X u v t r) (Jv X u v t r) = dot3 (Rv X u v t r) (nv X u v t r) * jxw X u v t r / r).
  { unfold dot3, Qv. rewrite <- !(nJ' X u v t r) by lia. field. lra. }
  rewrite EJ. unfold Qv. field. lra.
Qed.
