(** * Singular integrals: C47, C48, C49, C56. *)
From Coq Require Import ZArith List Reals Lia Lra Psatz Bool.
From Coquelicot Require Import Coquelicot.
From Verif Require Import ModelLegendre ModelLegApi ModelExp ModelSing SpecSing ProofsSing ProofsSing2 ProofsSing3 ProofsSing4 ProofsSing5.
Import ListNotations.
Local Open Scope R_scope.

(** ** C47: the polar decomposition tiles the reference cell *)
(** each edge either holds the singular point and is skipped, or gets an interval of length in (0, pi) on which
    the radius is defined, positive, and ends on that edge *)
Theorem C47_edge_interval eta f : in_square (px eta) (py eta) -> (f < 4)%nat ->
  match face_interval eta f with
  | None => on_edge f (px eta) (py eta)
  | Some (t0, t1) => ~ on_edge f (px eta) (py eta) /\ 0 < t1 - t0 < PI /\
      forall t, t0 <= t <= t1 -> exists rho, q_rho eta f t = Some rho /\ 0 < rho /\ on_edge f (px (uv_point eta rho t)) (py (uv_point eta rho t))
  end.
Proof.
  intros SQ Hf. destruct (face_interval eta f) as [[t0 t1]|] eqn:IV.
  - split; [|split].
    + assert (NZ := iv_nz eta f SQ Hf t0 t1 IV). intros E. apply NZ. clear NZ IV. unfold face_coeff. faces f Hf; cbn in *; lra.
    + exact (iv_len eta f SQ Hf t0 t1 IV).
    + intros t Ht. exists (1 / (lam eta f t0 t1 t + mu eta f t0 t1 t)). split; [exact (q_rho_val eta f SQ Hf t0 t1 IV t Ht)|].
      destruct (comb_pos eta f SQ Hf t0 t1 IV t Ht) as (_ & _ & P). split; [apply Rdiv_lt_0_compat; lra|].
      exact (end_on_edge eta f SQ Hf t0 t1 IV t Ht).
  - assert (Z : face_coeff eta f = 0).
    { apply skipped_iff; auto. unfold face_interval in IV. destruct (face_skipped eta f); [reflexivity|discriminate]. }
    unfold face_coeff in Z. destruct SQ as [? ?]. clear IV. faces f Hf; cbn in *; lra.
Qed.
(** every point of the cell other than the singular one is reached, at a radius not beyond the edge *)
Theorem C47_cover eta x y : in_square (px eta) (py eta) -> in_square x y -> (x <> px eta \/ y <> py eta) ->
  exists f t0 t1 t rho rhohat, (f < 4)%nat /\ face_interval eta f = Some (t0, t1) /\ t0 <= t <= t1 /\ q_rho eta f t = Some rhohat /\
    0 < rho <= rhohat /\ uv_point eta rho t = P2 x y.
Proof.
  intros SQ Sp NE. destruct eta as [ex ey]. cbn [px py] in *.
  destruct (exit_edge ex ey x y SQ Sp NE) as (f & s & Hf & Hs & On & NZ).
  destruct (face_interval (P2 ex ey) f) as [[t0 t1]|] eqn:IV.
  2: { exfalso. apply NZ. apply skipped_iff; auto. unfold face_interval in IV. destruct (face_skipped (P2 ex ey) f); [reflexivity|discriminate]. }
  destruct (edge_reached (P2 ex ey) f SQ Hf t0 t1 IV _ _ On) as (t & Ht & E).
  exists f, t0, t1, t, (1 / (lam (P2 ex ey) f t0 t1 t + mu (P2 ex ey) f t0 t1 t) / s), (1 / (lam (P2 ex ey) f t0 t1 t + mu (P2 ex ey) f t0 t1 t)).
  split; [exact Hf|]. split; [exact IV|]. split; [exact Ht|]. split; [exact (q_rho_val (P2 ex ey) f SQ Hf t0 t1 IV t Ht)|].
  destruct (comb_pos (P2 ex ey) f SQ Hf t0 t1 IV t Ht) as (_ & _ & P). assert (Ph : 0 < 1 / (lam (P2 ex ey) f t0 t1 t + mu (P2 ex ey) f t0 t1 t)) by (apply Rdiv_lt_0_compat; lra).
  revert E Ph. generalize (1 / (lam (P2 ex ey) f t0 t1 t + mu (P2 ex ey) f t0 t1 t)). intros h E Ph. split; [split|].
  - apply Rdiv_lt_0_compat; lra.
  - apply Rmult_le_reg_r with s; [lra|]. replace (h / s * s) with h by (field; lra). nra.
  - unfold uv_point in *. cbn [px py] in *. injection E as E1 E2. f_equal.
    + replace (h / s * cos t) with (h * cos t / s) by (field; lra). replace (h * cos t) with (s * (x - ex)) by lra. field. lra.
    + replace (h / s * sin t) with (h * sin t / s) by (field; lra). replace (h * sin t) with (s * (y - ey)) by lra. field. lra.
Qed.
(** and only once, except on the rays through the vertices *)
Theorem C47_no_overlap eta f f' t0 t1 t0' t1' t t' rho rho' : in_square (px eta) (py eta) -> (f < 4)%nat -> (f' < 4)%nat ->
  face_interval eta f = Some (t0, t1) -> face_interval eta f' = Some (t0', t1') -> t0 < t < t1 -> t0' < t' < t1' -> 0 < rho -> 0 < rho' ->
  uv_point eta rho t = uv_point eta rho' t' -> f = f' /\ t = t' /\ rho = rho'.
Proof.
  intros SQ Hf Hf' IV IV' Ht Ht' Pr Pr' E. unfold uv_point in E. injection E as E1 E2.
  assert (Er : rho = rho').
  { assert (K := sin2_cos2 t). assert (K' := sin2_cos2 t'). unfold Rsqr in *. assert (A : rho * cos t = rho' * cos t') by lra. assert (B : rho * sin t = rho' * sin t') by lra.
    assert (S : rho * rho = rho' * rho').
    { transitivity (rho * sin t * (rho * sin t) + rho * cos t * (rho * cos t)).
      - replace (rho * sin t * (rho * sin t) + rho * cos t * (rho * cos t)) with (rho * rho * (sin t * sin t + cos t * cos t)) by ring. rewrite K. ring.
      - rewrite A, B. replace (rho' * sin t' * (rho' * sin t') + rho' * cos t' * (rho' * cos t')) with (rho' * rho' * (sin t' * sin t' + cos t' * cos t')) by ring. rewrite K'. ring. }
    assert (Z : (rho - rho') * (rho + rho') = 0) by (ring_simplify; lra). apply Rmult_integral in Z. lra. }
  subst rho'. assert (C : cos t = cos t') by (apply (Rmult_eq_reg_l rho); lra). assert (S : sin t = sin t') by (apply (Rmult_eq_reg_l rho); lra).
  destruct (open_face eta f t0 t1 t SQ Hf IV Ht) as (h & Ph & F). destruct (open_face eta f' t0' t1' t' SQ Hf' IV' Ht') as (h' & Ph' & F').
  rewrite <- C, <- S in F'. assert (f = f') by (exact (open_disjoint eta f f' _ _ h h' SQ Hf Hf' Ph Ph' F F')). subst f'.
  rewrite IV in IV'. injection IV' as <- <-. repeat split; auto. assert (L := iv_len eta f SQ Hf t0 t1 IV).
  apply (cs_inj (cos t) (sin t)); auto. apply Rabs_def1; lra.
Qed.
(** the angles add up *)
Theorem C47_total_angle eta : in_square (px eta) (py eta) ->
  let len f := match face_interval eta f with Some (t0, t1) => t1 - t0 | None => 0 end in
  len 0%nat + len 1%nat + len 2%nat + len 3%nat =
    match Req_EM_T (px eta) 0, Req_EM_T (px eta) 1, Req_EM_T (py eta) 0, Req_EM_T (py eta) 1 with
    | right _, right _, right _, right _ => 2 * PI      (* interior *)
    | right _, right _, _, _ | _, _, right _, right _ => PI   (* on one edge *)
    | _, _, _, _ => PI / 2                              (* vertex *)
    end.
Proof.
  intros SQ len. change (len 0%nat + len 1%nat + len 2%nat + len 3%nat) with (total_angle eta). destruct (total_ok eta SQ) as (A & B & C & D). destruct SQ as [X Y].
  destruct (Req_EM_T (px eta) 0), (Req_EM_T (px eta) 1), (Req_EM_T (py eta) 0), (Req_EM_T (py eta) 1);
    try (apply D; tauto); try (apply A; lra); try (apply B; [tauto|lra]); try (apply C; [lra|tauto]).
Qed.
Example C47_example : in_square (1/2) (1/4) /\ face_interval (P2 (1/2) (1/4)) 1 <> None /\ face_interval (P2 0 (1/4)) 0 = None.
Proof.
  assert (SQ : in_square (1 / 2) (1 / 4)) by (unfold in_square; lra). assert (SQ' : in_square 0 (1 / 4)) by (unfold in_square; lra).
  split; [exact SQ|]. split.
  - intros E. assert (K := C47_edge_interval (P2 (1/2) (1/4)) 1 SQ ltac:(lia)). rewrite E in K. cbn in K. lra.
  - assert (K := C47_edge_interval (P2 0 (1/4)) 0 SQ' ltac:(lia)). destruct (face_interval (P2 0 (1 / 4)) 0) as [[a b]|]; [|reflexivity]. exfalso. apply K. cbn. lra.
Qed.

(** ** C49: surface element and its derivatives *)
Theorem C49_surface_element X u v i : (i < 3)%nat ->
  eta_Jxn (map_jac X u v) i = surf X u v i /\ eta_g (map_jac X u v) i = surf X u v i.
Proof. intros Hi. assert (i = 0 \/ i = 1 \/ i = 2)%nat as [ -> | [ -> | -> ]] by lia; cbn; unfold surf, cross3, tangent_u, tangent_v; split; ring. Qed.
Theorem C49_derivative_u X u v i : (i < 3)%nat ->
  (forall j, (j < 3)%nat -> ex_derive (fun z => du (X j) z v) u /\ ex_derive (fun z => dv (X j) z v) u) ->
  is_derive (fun z => surf X z v i) u (d_eta_Jxn_du (map_jac X u v) (map_grad X u v) i).
Proof. apply surf_derive_u. Qed.
Theorem C49_derivative_v X u v i : (i < 3)%nat ->
  (forall j, (j < 3)%nat -> ex_derive (fun z => du (X j) u z) v /\ ex_derive (fun z => dv (X j) u z) v) ->
  is_derive (fun z => surf X u z i) v (d_eta_Jxn_dv (map_jac X u v) (map_grad X u v) i).
Proof. apply surf_derive_v. Qed.

(** ** C48: Laurent coefficients *)
(** the vector from the singular point to a point of the cell *)
Definition R_from (X : nat -> R -> R -> R) (eta p : pt2) : nat -> R := fun i => X i (px p) (py p) - X i (px eta) (py eta).
(** the integrands in polar coordinates, kernel * shape function * rho * surface Jacobian *)
Definition V_integrand (X : nat -> R -> R -> R) (N : R -> R -> R) (eta : pt2) (t : R) (i : nat) (rho : R) : R :=
  let p := uv_point eta rho t in grad_dG (R_from X eta p) (surf_normal X (px p) (py p)) i * N (px p) (py p) * rho * surf_JxW X (px p) (py p).
Definition W_integrand (X : nat -> R -> R -> R) (N : R -> R -> R) (eta : pt2) (t : R) (i : nat) (rho : R) : R :=
  let p := uv_point eta rho t in grad_G (R_from X eta p) i * N (px p) (py p) * rho * surf_JxW X (px p) (py p).
(** what the code accumulates in I_0 (arg) *)
Definition V_arg X N eta t i rho : R :=
  let p := uv_point eta rho t in let d := data_of X N (px eta) (py eta) in
  sing_arg (V_fun (R_from X eta p) (surf_normal X (px p) (py p)) (N (px p) (py p))) (V_F2 d t) (V_F1 d t) rho (surf_JxW X (px p) (py p)) i.
Definition W_arg X N eta t i rho : R :=
  let p := uv_point eta rho t in let d := data_of X N (px eta) (py eta) in
  sing_arg (W_fun (R_from X eta p) (N (px p) (py p))) (W_F2 d t) (W_F1 d t) rho (surf_JxW X (px p) (py p)) i.
(** a parametrisation of class C^3 with independent tangents at the singular point *)
Definition regular_at (X : nat -> R -> R -> R) (eta : pt2) : Prop :=
  (forall i, (i < 3)%nat -> class_C 3 (X i) (px eta) (py eta)) /\ exists i, (i < 3)%nat /\ surf X (px eta) (py eta) i <> 0.

(** the kernels are the derivatives of 1/r with respect to the singular point, and of -(R.n)/r^3 *)
Theorem C48_kernels R_ n i : (i < 3)%nat -> 0 < dot3 R_ R_ ->
  is_derive (fun h => 1 / norm3 (fun j => R_ j - (if Nat.eqb j i then h else 0))) 0 (grad_G R_ i) /\
  is_derive (fun h => - dot3 (fun j => R_ j - (if Nat.eqb j i then h else 0)) n / norm3 (fun j => R_ j - (if Nat.eqb j i then h else 0)) ^ 3) 0 (grad_dG R_ n i).
Proof. intros Hi P. split; [exact (kernel_W R_ i Hi P)|exact (kernel_V R_ n i Hi P)]. Qed.
Lemma at_zero_dot X eta t r : 0 < r -> ~ 0 < dot3 (R_from X eta (uv_point eta r t)) (R_from X eta (uv_point eta r t)) -> forall i, (i < 3)%nat -> R_from X eta (uv_point eta r t) i = 0.
Proof.
  intros Hr Z i Hi. destruct (Req_dec (R_from X eta (uv_point eta r t) i) 0); auto. exfalso. apply Z. apply norm_pos with i; auto.
Qed.
Theorem C48_arg_is_integrand_minus_poles X N eta t i rho : (i < 3)%nat -> 0 < rho ->
  0 < dot3 (R_from X eta (uv_point eta rho t)) (R_from X eta (uv_point eta rho t)) ->
  let d := data_of X N (px eta) (py eta) in
  V_arg X N eta t i rho = V_integrand X N eta t i rho - V_F2 d t i / rho ^ 2 - V_F1 d t i / rho /\
  W_arg X N eta t i rho = W_integrand X N eta t i rho - 0 / rho ^ 2 - W_F1 d t i / rho.
Proof.
  intros Hi Hr P d. unfold V_arg, W_arg, sing_arg. rewrite V_fun_spec, W_fun_spec by exact P. split; reflexivity.
Qed.
(** the remainder stays bounded *)
Theorem C48_hypersingular_remainder X N eta t i : regular_at X eta -> class_C 2 N (px eta) (py eta) -> (i < 3)%nat ->
  bounded_at_0 (V_arg X N eta t i).
Proof. intros [CX ND] CN Hi. apply Ord_bounded. exact (V_remainder X N (px eta) (py eta) t CX CN ND i Hi). Qed.
Theorem C48_strongly_singular_remainder X N eta t i : regular_at X eta -> class_C 2 N (px eta) (py eta) -> (i < 3)%nat ->
  bounded_at_0 (W_arg X N eta t i).
Proof. intros [CX ND] CN Hi. apply Ord_bounded. exact (W_remainder X N (px eta) (py eta) t CX CN ND i Hi). Qed.
Lemma bounded_Ord f : bounded_at_0 f -> Ord 0 f.
Proof.
  intros (d & M & D & B). exists d, (Rmax M 0). repeat split; auto; [apply Rmax_r|]. intros r Hr. simpl. rewrite Rmult_1_r.
  eapply Rle_trans; [apply B; auto|apply Rmax_l].
Qed.
(** no other coefficients do *)
Theorem C48_hypersingular_unique X N eta t i F2 F1 : regular_at X eta -> class_C 2 N (px eta) (py eta) -> (i < 3)%nat ->
  bounded_at_0 (fun rho => V_integrand X N eta t i rho - F2 / rho ^ 2 - F1 / rho) ->
  F2 = V_F2 (data_of X N (px eta) (py eta)) t i /\ F1 = V_F1 (data_of X N (px eta) (py eta)) t i.
Proof.
  intros [CX ND] CN Hi B. assert (A := V_remainder X N (px eta) (py eta) t CX CN ND i Hi).
  destruct (q_near X N (px eta) (py eta) t CX ND) as (e & E & W).
  apply (laurent_unique (V_integrand X N eta t i)); [apply bounded_Ord; exact B|].
  refine (Ord_eq_near _ _ _ e E _ A). intros r Hr. assert (Pq := W r Hr).
  apply (C48_arg_is_integrand_minus_poles X N eta t i r Hi ltac:(lra)).
  assert (EN := Rv_norm X (px eta) (py eta) t r ltac:(lra)).
  change (R_from X eta (uv_point eta r t)) with (Rv X (px eta) (py eta) t r). destruct (Rlt_dec 0 (dot3 (Rv X (px eta) (py eta) t r) (Rv X (px eta) (py eta) t r))) as [|Z]; auto. exfalso.
  unfold vnorm in EN. change (vdot (Rv X (px eta) (py eta) t r) (Rv X (px eta) (py eta) t r)) with (dot3 (Rv X (px eta) (py eta) t r) (Rv X (px eta) (py eta) t r)) in EN.
  rewrite sqrt_neg_0 in EN by lra. assert (0 < r * qv X (px eta) (py eta) t r) by (apply Rmult_lt_0_compat; lra). lra.
Qed.
Theorem C48_strongly_singular_unique X N eta t i F2 F1 : regular_at X eta -> class_C 2 N (px eta) (py eta) -> (i < 3)%nat ->
  bounded_at_0 (fun rho => W_integrand X N eta t i rho - F2 / rho ^ 2 - F1 / rho) ->
  F2 = 0 /\ F1 = W_F1 (data_of X N (px eta) (py eta)) t i.
Proof.
  intros [CX ND] CN Hi B. assert (A := W_remainder X N (px eta) (py eta) t CX CN ND i Hi).
  destruct (q_near X N (px eta) (py eta) t CX ND) as (e & E & W).
  apply (laurent_unique (W_integrand X N eta t i)); [apply bounded_Ord; exact B|].
  refine (Ord_eq_near _ _ _ e E _ A). intros r Hr. assert (Pq := W r Hr).
  apply (C48_arg_is_integrand_minus_poles X N eta t i r Hi ltac:(lra)).
  assert (EN := Rv_norm X (px eta) (py eta) t r ltac:(lra)).
  change (R_from X eta (uv_point eta r t)) with (Rv X (px eta) (py eta) t r). destruct (Rlt_dec 0 (dot3 (Rv X (px eta) (py eta) t r) (Rv X (px eta) (py eta) t r))) as [|Z]; auto. exfalso.
  unfold vnorm in EN. change (vdot (Rv X (px eta) (py eta) t r) (Rv X (px eta) (py eta) t r)) with (dot3 (Rv X (px eta) (py eta) t r) (Rv X (px eta) (py eta) t r)) in EN.
  rewrite sqrt_neg_0 in EN by lra. assert (0 < r * qv X (px eta) (py eta) t r) by (apply Rmult_lt_0_compat; lra). lra.
Qed.
(** every polynomial mapping and shape function is covered *)
Theorem C48_polynomial_cells f k u v : polynomial2 f -> class_C k f u v.
Proof. intros P. apply polynomial_class. exact P. Qed.
(** a twisted cell, with non-zero leading coefficient *)
Definition twisted : nat -> R -> R -> R := fun i => match i with 0%nat => fun u _ => u | 1%nat => fun _ v => v | _ => fun u v => u * v end.
Definition hat00 : R -> R -> R := fun u v => (1 + (-1) * u) * (1 + (-1) * v).
Example C48_example : regular_at twisted (P2 (1/2) (1/3)) /\ class_C 2 hat00 (1/2) (1/3) /\ V_F2 (data_of twisted hat00 (1/2) (1/3)) 0 2%nat <> 0.
Proof.
  assert (DU : forall u v, du (fun x y : R => x * y) u v = v). { intros u v. unfold du. apply is_derive_unique. auto_derive; auto. ring. }
  assert (DV : forall u v, dv (fun x y : R => x * y) u v = u). { intros u v. unfold dv. apply is_derive_unique. auto_derive; auto. ring. }
  assert (D0 : forall u v, du (fun x _ : R => x) u v = 1) by (intros; apply Derive_id).
  assert (D0' : forall u v, dv (fun x _ : R => x) u v = 0) by (intros u v; exact (Derive_const _ _)).
  assert (D1 : forall u v, dv (fun _ y : R => y) u v = 1) by (intros; apply Derive_id).
  assert (D1' : forall u v, du (fun _ y : R => y) u v = 0) by (intros u v; exact (Derive_const _ _)).
  split; [|split].
  - split.
    + intros i Hi. assert (i = 0 \/ i = 1 \/ i = 2)%nat as [ -> | [ -> | -> ]] by lia; cbn [twisted];
        [apply class_u|apply class_v|apply class_mult; [apply class_u|apply class_v]].
    + exists 2%nat. split; [lia|]. unfold surf, cross3, tangent_u, tangent_v, twisted. rewrite D0, D0', D1, D1'. lra.
  - apply (polynomial_class hat00). unfold hat00. apply (poly_mult (fun u _ => 1 + (-1) * u) (fun _ v => 1 + (-1) * v)).
    + apply (poly_plus (fun _ _ => 1) (fun u _ => (-1) * u)); [apply poly_const|]. apply (poly_mult (fun _ _ => -1) (fun u _ => u)); [apply poly_const|apply poly_u].
    + apply (poly_plus (fun _ _ => 1) (fun _ v => (-1) * v)); [apply poly_const|]. apply (poly_mult (fun _ _ => -1) (fun _ v => v)); [apply poly_const|apply poly_v].
  - unfold V_F2, Jk0, N0, data_of, eta_Jxn, map_jac, q_A, vnorm, vdot, coef_A, twisted, hat00. cbn [d_jac d_N]. unfold map_jac. cbn [Nat.eqb].
    rewrite !D0, !D0', !D1, !D1', !DU, !DV, cos_0, sin_0.
    assert (S : 0 < sqrt ((1 * 1 + 0 * 0) * (1 * 1 + 0 * 0) + (0 * 1 + 1 * 0) * (0 * 1 + 1 * 0) + (1 / 3 * 1 + 1 / 2 * 0) * (1 / 3 * 1 + 1 / 2 * 0))) by (apply sqrt_lt_R0; lra).
    match goal with |- ?a / ?b ^ 3 * ?c <> 0 => assert (PB : 0 < b ^ 3) by (apply pow_lt; exact S); assert (PI' : 0 < / b ^ 3) by (apply Rinv_0_lt_compat; exact PB) end.
    unfold Rdiv at 1. intros E. apply Rmult_integral in E. destruct E as [E|E]; [apply Rmult_integral in E; destruct E; lra|lra].
Qed.

(** the twisted cell meets the hypotheses of C49, and its normal turns *)
Example C49_example :
  (forall j u v, (j < 3)%nat -> ex_derive (fun z => du (twisted j) z v) u /\ ex_derive (fun z => dv (twisted j) z v) u /\
                                ex_derive (fun z => du (twisted j) u z) v /\ ex_derive (fun z => dv (twisted j) u z) v) /\
  (forall u v, d_eta_Jxn_du (map_jac twisted u v) (map_grad twisted u v) 1%nat = -1).
Proof.
  assert (DU : forall u v, du (fun x y : R => x * y) u v = v). { intros u v. unfold du. apply is_derive_unique. auto_derive; auto. ring. }
  assert (DV : forall u v, dv (fun x y : R => x * y) u v = u). { intros u v. unfold dv. apply is_derive_unique. auto_derive; auto. ring. }
  assert (D0 : forall u v, du (fun x _ : R => x) u v = 1) by (intros; apply Derive_id).
  assert (D0' : forall u v, dv (fun x _ : R => x) u v = 0) by (intros u v; exact (Derive_const _ _)).
  assert (D1 : forall u v, dv (fun _ y : R => y) u v = 1) by (intros; apply Derive_id).
  assert (D1' : forall u v, du (fun _ y : R => y) u v = 0) by (intros u v; exact (Derive_const _ _)).
  assert (EX : forall j u v, (j < 3)%nat -> ex_derive (fun z => du (twisted j) z v) u /\ ex_derive (fun z => dv (twisted j) z v) u /\
                                ex_derive (fun z => du (twisted j) u z) v /\ ex_derive (fun z => dv (twisted j) u z) v).
  { intros j u v Hj. assert (j = 0 \/ j = 1 \/ j = 2)%nat as [ -> | [ -> | -> ]] by lia; cbn [twisted]; repeat split.
    - apply (ex_derive_ext (fun _ => 1)); [intros; symmetry; apply D0|apply ex_derive_const].
    - apply (ex_derive_ext (fun _ => 0)); [intros; symmetry; apply D0'|apply ex_derive_const].
    - apply (ex_derive_ext (fun _ => 1)); [intros; symmetry; apply D0|apply ex_derive_const].
    - apply (ex_derive_ext (fun _ => 0)); [intros; symmetry; apply D0'|apply ex_derive_const].
    - apply (ex_derive_ext (fun _ => 0)); [intros; symmetry; apply D1'|apply ex_derive_const].
    - apply (ex_derive_ext (fun _ => 1)); [intros; symmetry; apply D1|apply ex_derive_const].
    - apply (ex_derive_ext (fun _ => 0)); [intros; symmetry; apply D1'|apply ex_derive_const].
    - apply (ex_derive_ext (fun _ => 1)); [intros; symmetry; apply D1|apply ex_derive_const].
    - apply (ex_derive_ext (fun _ => v)); [intros; symmetry; apply DU|apply ex_derive_const].
    - apply (ex_derive_ext (fun z => z)); [intros; symmetry; apply DV|apply ex_derive_id].
    - apply (ex_derive_ext (fun z => z)); [intros; symmetry; apply DU|apply ex_derive_id].
    - apply (ex_derive_ext (fun _ => u)); [intros; symmetry; apply DV|apply ex_derive_const]. }
  split; [exact EX|]. intros u v.
  assert (A := C49_derivative_u twisted u v 1%nat ltac:(lia) (fun j Hj => conj (proj1 (EX j u v Hj)) (proj1 (proj2 (EX j u v Hj))))).
  apply is_derive_unique in A. rewrite <- A. apply is_derive_unique.
  apply (is_derive_ext (fun z => - z)).
  - intros z. unfold surf, cross3, tangent_u, tangent_v, twisted. rewrite D0, D0', DU, DV. lra.
  - auto_derive; auto; ring.
Qed.

(** ** C56: finite parts *)
(** the exclusion radius in direction t: |R| = eps at rho = alpha(eps) = beta eps + gamma eps^2 + O(eps^3) *)
Theorem C56_exclusion_radius X N eta t alpha e0 : regular_at X eta -> 0 < e0 ->
  (forall x, 0 < x < e0 -> 0 < alpha x /\ norm3 (R_from X eta (uv_point eta (alpha x) t)) = x) -> lim0 alpha 0 ->
  let d := data_of X N (px eta) (py eta) in
  bounded_at_0 (fun x => (alpha x - (beta d t * x + gamma d t * x ^ 2)) / x ^ 3).
Proof.
  intros [CX ND] He0 HA LA d.
  assert (J := al_jet (qv X (px eta) (py eta) t) alpha (q_A d t) (q_C d t / q_A d t) e0 (qA_pos X N (px eta) (py eta) t ND) (jq X N (px eta) (py eta) t CX ND) He0
    (fun x Hx => proj1 (HA x Hx))). 
  assert (EQ : forall x, 0 < x < e0 -> alpha x * qv X (px eta) (py eta) t (alpha x) = x).
  { intros x Hx. destruct (HA x Hx) as [P E]. rewrite <- (Rv_norm X (px eta) (py eta) t (alpha x) P). exact E. }
  specialize (J EQ LA). assert (P := qA_pos X N (px eta) (py eta) t ND). fold d in P.
  apply Ord_bounded. apply (Ord_eq_near _ (fun x => (alpha x / x - (1 / q_A d t + - (q_C d t / q_A d t) / q_A d t ^ 3 * x)) / x ^ 2) _ 1); [lra| |apply (Ord_div 0 2); exact J].
  intros x Hx. unfold beta, gamma. field. lra.
Qed.
Lemma cont_ray (X : nat -> R -> R -> R) eta t i : class_C 3 (X i) (px eta) (py eta) ->
  exists e, 0 < e /\ forall r, - e < r < e -> continuity_pt (fun r => X i (r * cos t + px eta) (r * sin t + py eta)) r.
Proof.
  intros C. do 3 apply class_down in C. destruct C as [e He].
  exists e. split; [apply cond_pos|]. intros r Hr.
  assert (B : continuity_2d_pt (X i) (r * cos t + px eta) (r * sin t + py eta)).
  { apply He.
    - replace (r * cos t + px eta - px eta) with (r * cos t) by ring. rewrite Rabs_mult. 
      assert (Rabs (cos t) <= 1) by (apply Rabs_le; destruct (COS_bound t); lra). assert (Rabs r < e) by (apply Rabs_def1; lra).
      assert (0 <= Rabs r) by apply Rabs_pos. assert (0 <= Rabs (cos t)) by apply Rabs_pos. nra.
    - replace (r * sin t + py eta - py eta) with (r * sin t) by ring. rewrite Rabs_mult.
      assert (Rabs (sin t) <= 1) by (apply Rabs_le; destruct (SIN_bound t); lra). assert (Rabs r < e) by (apply Rabs_def1; lra).
      assert (0 <= Rabs r) by apply Rabs_pos. assert (0 <= Rabs (sin t)) by apply Rabs_pos. nra. }
  apply continuity_pt_filterlim. apply continuity_2d_pt_filterlim in B.
  apply (filterlim_comp_2 (fun r => r * cos t + px eta) (fun r => r * sin t + py eta) (X i) (F := locally r) (G := locally (r * cos t + px eta)) (H := locally (r * sin t + py eta))).
  - apply (continuity_pt_filterlim (fun r => r * cos t + px eta) r). reg.
  - apply (continuity_pt_filterlim (fun r => r * sin t + py eta) r). reg.
  - intros P HP. specialize (B P HP). unfold filtermap in *. destruct B as [d Hd].
    exists (fun x => Rabs (x - (r * cos t + px eta)) < d) (fun y => Rabs (y - (r * sin t + py eta)) < d).
    + exists d. intros y Hy. exact Hy.
    + exists d. intros y Hy. exact Hy.
    + intros x y Hx Hy. apply (Hd (x, y)). split; auto.
Qed.

Lemma norm_ray_cont (X : nat -> R -> R -> R) eta t : (forall i, (i < 3)%nat -> class_C 3 (X i) (px eta) (py eta)) ->
  exists e, 0 < e /\ forall r, - e < r < e -> continuity_pt (fun r => norm3 (R_from X eta (uv_point eta r t))) r.
Proof.
  intros C. destruct (cont_ray X eta t 0 (C 0%nat ltac:(lia))) as (e0 & E0 & K0). destruct (cont_ray X eta t 1 (C 1%nat ltac:(lia))) as (e1 & E1 & K1).
  destruct (cont_ray X eta t 2 (C 2%nat ltac:(lia))) as (e2 & E2 & K2).
  exists (Rmin e0 (Rmin e1 e2)). split; [repeat apply Rmin_pos; lra|]. intros r Hr.
  assert (M := Rmin_l e0 (Rmin e1 e2)). assert (M' := Rmin_r e0 (Rmin e1 e2)). assert (M1 := Rmin_l e1 e2). assert (M2 := Rmin_r e1 e2).
  specialize (K0 r ltac:(lra)). specialize (K1 r ltac:(lra)). specialize (K2 r ltac:(lra)).
  assert (D : forall i, continuity_pt (fun r => X i (r * cos t + px eta) (r * sin t + py eta)) r -> continuity_pt (fun r => R_from X eta (uv_point eta r t) i) r).
  { intros i K. apply (continuity_pt_minus (fun r => X i (r * cos t + px eta) (r * sin t + py eta)) (fun _ => X i (px eta) (py eta))); [exact K|]. apply continuity_pt_const. intros a b. reflexivity. }
  apply D in K0, K1, K2. unfold norm3.
  apply (continuity_pt_comp (fun r => dot3 (R_from X eta (uv_point eta r t)) (R_from X eta (uv_point eta r t))) sqrt).
  - unfold dot3. repeat apply continuity_pt_plus; apply continuity_pt_mult; assumption.
  - apply continuity_pt_sqrt. unfold dot3. assert (Q := Rle_0_sqr). unfold Rsqr in Q.
    repeat apply Rplus_le_le_0_compat; apply Q.
Qed.

(** in every direction there is such an exclusion radius *)
Theorem C56_exclusion_radius_exists X eta t : regular_at X eta ->
  exists alpha e0, 0 < e0 /\ (forall x, 0 < x < e0 -> 0 < alpha x /\ norm3 (R_from X eta (uv_point eta (alpha x) t)) = x) /\ lim0 alpha 0.
Proof.
  intros [CX ND]. set (N := fun _ _ : R => 0).
  assert (P := qA_pos X N (px eta) (py eta) t ND). set (A := q_A (data_of X N (px eta) (py eta)) t) in *.
  destruct (norm_ray_cont X eta t CX) as (e & E & K). set (f := fun r => norm3 (R_from X eta (uv_point eta r t))) in *.
  destruct (jet_away _ _ _ (jq X N (px eta) (py eta) t CX ND) (Rgt_not_eq _ _ P)) as (e1 & E1 & W).
  assert (LB : forall r, 0 < r < e1 -> A / 2 * r <= f r).
  { intros r Hr. destruct (W r Hr) as [W1 W2]. assert (Q := Rv_norm X (px eta) (py eta) t r (proj1 Hr)).
    change (f r = r * qv X (px eta) (py eta) t r) in Q. rewrite Q. fold A in W1, W2.
    assert (0 < qv X (px eta) (py eta) t r) by nra. rewrite (Rabs_pos_eq A), Rabs_pos_eq in W1 by lra. rewrite (Rmult_comm r). apply Rmult_le_compat_r; lra. }
  assert (F0 : f 0 = 0). { unfold f, norm3, R_from, uv_point, dot3. cbn [px py]. rewrite !Rmult_0_l, !Rplus_0_l, !Rminus_eq_0, !Rmult_0_l, !Rplus_0_l. apply sqrt_0. }
  set (r0 := Rmin e e1 / 2). assert (R0 : 0 < r0 /\ r0 < e /\ r0 < e1).
  { unfold r0. assert (0 < Rmin e e1) by (apply Rmin_pos; lra). assert (U := Rmin_l e e1). assert (U' := Rmin_r e e1). lra. }
  set (e0 := A / 4 * r0). assert (HE0 : 0 < e0) by (unfold e0; apply Rmult_lt_0_compat; lra).
  assert (IV : forall x, 0 < x < e0 -> {r : R | 0 < r < 4 / A * x /\ f r = x}).
  { intros x Hx. set (b := 4 / A * x). assert (B : 0 < b < r0).
    { unfold b. assert (0 < 4 / A) by (apply Rdiv_lt_0_compat; lra). split; [apply Rmult_lt_0_compat; lra|].
      apply (Rmult_lt_reg_l (A / 4)); [lra|]. replace (A / 4 * (4 / A * x)) with x by (field; lra). exact (proj2 Hx). }
    assert (FB : x < f b). { assert (L := LB b ltac:(lra)). replace (A / 2 * b) with (2 * x) in L by (unfold b; field; lra). lra. }
    destruct (IVT_Rbar_incr f 0 b 0 (f b) x) as (r & H1 & H2 & H3).
    - replace (Finite 0) with (Finite (f 0)) at 2 by (rewrite F0; reflexivity). apply is_lim_continuity. apply K. lra.
    - apply is_lim_continuity. apply K. lra.
    - intros y Y1 Y2. cbn in Y1, Y2. apply K. lra.
    - cbn. lra.
    - cbn. lra.
    - exists r. cbn in H1, H2. auto. }
  exists (fun x => match Rlt_dec 0 x with left p => match Rlt_dec x e0 with left q => proj1_sig (IV x (conj p q)) | _ => 0 end | _ => 0 end), e0.
  split; [exact HE0|]. split.
  - intros x Hx. destruct (Rlt_dec 0 x) as [p|]; [|lra]. destruct (Rlt_dec x e0) as [q|]; [|lra]. destruct (IV x (conj p q)) as (r & Hr & Er). cbn [proj1_sig]. split; [lra|exact Er].
  - intros eps He. assert (0 < 4 / A) by (apply Rdiv_lt_0_compat; lra). exists (Rmin e0 (A / 4 * eps)). split; [apply Rmin_pos; auto; apply Rmult_lt_0_compat; lra|].
    intros x Hx. assert (V := Rmin_l e0 (A / 4 * eps)). assert (V' := Rmin_r e0 (A / 4 * eps)).
    destruct (Rlt_dec 0 x) as [p|]; [|lra]. destruct (Rlt_dec x e0) as [q|]; [|lra]. destruct (IV x (conj p q)) as (r & Hr & Er). cbn [proj1_sig].
    rewrite Rminus_0_r, Rabs_pos_eq by lra. apply Rlt_trans with (4 / A * x); [lra|].
    apply (Rmult_lt_reg_l (A / 4)); [lra|]. replace (A / 4 * (4 / A * x)) with x by (field; lra). lra.
Qed.
Lemma alpha_jet X N eta t alpha e0 : regular_at X eta -> 0 < e0 ->
  (forall x, 0 < x < e0 -> 0 < alpha x /\ norm3 (R_from X eta (uv_point eta (alpha x) t)) = x) -> lim0 alpha 0 ->
  let d := data_of X N (px eta) (py eta) in jet (fun x => alpha x / x) (beta d t) (gamma d t).
Proof.
  intros RG He0 HA LA d. destruct (C56_exclusion_radius X N eta t alpha e0 RG He0 HA LA) as (e & M & E & B). fold d in B.
  assert (O : Ord 0 (fun x => (alpha x - (beta d t * x + gamma d t * x ^ 2)) / x ^ 3)) by (apply bounded_Ord; exists e, M; auto).
  apply (Ord_eq_near _ (fun x => x ^ 2 * ((alpha x - (beta d t * x + gamma d t * x ^ 2)) / x ^ 3)) _ 1); [lra| |apply (Ord_mult 2 0); [apply Ord_pow|exact O]].
  intros x Hx. field. lra.
Qed.
(** I_0 + I_1 + I_2 of one direction is the finite part of the radial integral: what is left of the integral over
    the part of the ray outside the ball of radius eps after removing F_2/(beta eps) and - F_1 ln eps *)
Theorem C56_hypersingular_finite_part X N eta t i alpha e0 rhohat : regular_at X eta -> class_C 2 N (px eta) (py eta) -> (i < 3)%nat ->
  0 < rhohat -> (forall rho, 0 < rho < rhohat -> 0 < dot3 (R_from X eta (uv_point eta rho t)) (R_from X eta (uv_point eta rho t))) ->
  (forall a, 0 < a < rhohat -> ex_RInt (V_arg X N eta t i) a rhohat) ->
  0 < e0 -> (forall x, 0 < x < e0 -> 0 < alpha x /\ norm3 (R_from X eta (uv_point eta (alpha x) t)) = x) -> lim0 alpha 0 ->
  let d := data_of X N (px eta) (py eta) in
  exists I_0, lim0 (fun a => RInt (V_arg X N eta t i) a rhohat) I_0 /\
    lim0 (fun eps => RInt (V_integrand X N eta t i) (alpha eps) rhohat - V_F2 d t i / (beta d t * eps) + V_F1 d t i * ln eps)
         (I_0 + V_I1_term d t rhohat i + V_I2_term d t rhohat i).
Proof.
  intros RG CN Hi Pr HR EX He0 HA LA d. destruct RG as [CX ND]. assert (RG : regular_at X eta) by (split; assumption).
  assert (O := V_remainder X N (px eta) (py eta) t CX CN ND i Hi).
  destruct (RInt_lim_exists (V_arg X N eta t i) rhohat Pr O EX) as [L HL]. exists L. split; [exact HL|].
  assert (P := qA_pos X N (px eta) (py eta) t ND). fold d in P.
  assert (Pb : 0 < beta d t) by (unfold beta; apply Rdiv_lt_0_compat; lra).
  assert (J := alpha_jet X N eta t alpha e0 RG He0 HA LA). cbv zeta in J. fold d in J.
  unfold V_I1_term, V_I2_term.
  set (F := fun r => V_arg X N eta t i r + V_F2 d t i / r ^ 2 + V_F1 d t i / r).
  assert (T := finite_total F (V_arg X N eta t i) alpha (V_F2 d t i) (V_F1 d t i) (beta d t) (gamma d t) rhohat e0 L Pb Pr He0 (fun x Hx => proj1 (HA x Hx)) LA J).
  specialize (T ltac:(intros r Hr; unfold F; ring) EX HL).
  destruct (LA rhohat Pr) as (e1 & He1 & B1).
  apply (lim0_ext_near _ _ _ (Rmin e0 e1)) with (3 := T); [apply Rmin_pos; auto|]. intros x Hx.
  assert (K : x < e0 /\ x < e1) by (split; eapply Rlt_le_trans; try apply Hx; [apply Rmin_l|apply Rmin_r]).
  destruct (HA x ltac:(lra)) as [Pa _]. specialize (B1 x ltac:(lra)). rewrite Rminus_0_r in B1. apply Rabs_def2 in B1.
  assert (E : RInt F (alpha x) rhohat = RInt (V_integrand X N eta t i) (alpha x) rhohat).
  { apply RInt_ext. intros r Hr. rewrite Rmin_left, Rmax_right in Hr by lra. 
    destruct (C48_arg_is_integrand_minus_poles X N eta t i r Hi ltac:(lra) (HR r ltac:(lra))) as [KK _]. fold d in KK.
    assert (KE : F r = V_integrand X N eta t i r) by (unfold F; rewrite KK; ring). exact KE. }
  rewrite E. reflexivity.
Qed.
Theorem C56_strongly_singular_finite_part X N eta t i alpha e0 rhohat : regular_at X eta -> class_C 2 N (px eta) (py eta) -> (i < 3)%nat ->
  0 < rhohat -> (forall rho, 0 < rho < rhohat -> 0 < dot3 (R_from X eta (uv_point eta rho t)) (R_from X eta (uv_point eta rho t))) ->
  (forall a, 0 < a < rhohat -> ex_RInt (W_arg X N eta t i) a rhohat) ->
  0 < e0 -> (forall x, 0 < x < e0 -> 0 < alpha x /\ norm3 (R_from X eta (uv_point eta (alpha x) t)) = x) -> lim0 alpha 0 ->
  let d := data_of X N (px eta) (py eta) in
  exists I_0, lim0 (fun a => RInt (W_arg X N eta t i) a rhohat) I_0 /\
    lim0 (fun eps => RInt (W_integrand X N eta t i) (alpha eps) rhohat + W_F1 d t i * ln eps) (I_0 + W_I1_term d t rhohat i).
Proof.
  intros RG CN Hi Pr HR EX He0 HA LA d. destruct RG as [CX ND]. assert (RG : regular_at X eta) by (split; assumption).
  assert (O := W_remainder X N (px eta) (py eta) t CX CN ND i Hi).
  destruct (RInt_lim_exists (W_arg X N eta t i) rhohat Pr O EX) as [L HL]. exists L. split; [exact HL|].
  assert (P := qA_pos X N (px eta) (py eta) t ND). fold d in P.
  assert (Pb : 0 < beta d t) by (unfold beta; apply Rdiv_lt_0_compat; lra).
  assert (J := alpha_jet X N eta t alpha e0 RG He0 HA LA). cbv zeta in J. fold d in J.
  unfold W_I1_term.
  set (F := fun r => W_arg X N eta t i r + 0 / r ^ 2 + W_F1 d t i / r).
  assert (T := finite_total F (W_arg X N eta t i) alpha 0 (W_F1 d t i) (beta d t) (gamma d t) rhohat e0 L Pb Pr He0 (fun x Hx => proj1 (HA x Hx)) LA J).
  specialize (T ltac:(intros r Hr; unfold F; ring) EX HL).
  replace (L + W_F1 d t i * ln (Rabs (rhohat / beta d t)) + - 0 * (gamma d t / beta d t ^ 2 + 1 / rhohat)) with (L + W_F1 d t i * ln (Rabs (rhohat / beta d t))) in T by ring.
  destruct (LA rhohat Pr) as (e1 & He1 & B1).
  apply (lim0_ext_near _ _ _ (Rmin e0 e1)) with (3 := T); [apply Rmin_pos; auto|]. intros x Hx.
  assert (K : x < e0 /\ x < e1) by (split; eapply Rlt_le_trans; try apply Hx; [apply Rmin_l|apply Rmin_r]).
  destruct (HA x ltac:(lra)) as [Pa _]. specialize (B1 x ltac:(lra)). rewrite Rminus_0_r in B1. apply Rabs_def2 in B1.
  assert (E : RInt F (alpha x) rhohat = RInt (W_integrand X N eta t i) (alpha x) rhohat).
  { apply RInt_ext. intros r Hr. rewrite Rmin_left, Rmax_right in Hr by lra. 
    destruct (C48_arg_is_integrand_minus_poles X N eta t i r Hi ltac:(lra) (HR r ltac:(lra))) as [_ KK]. fold d in KK.
    assert (KE : F r = W_integrand X N eta t i r) by (unfold F; rewrite KK; ring). exact KE. }
  rewrite E. unfold Rdiv. ring.
Qed.
(** the free-term integrand is the limit of - 2 rho^2 (R.n) R_i dS / |R|^5 *)
Theorem C56_free_term X N eta t i : regular_at X eta -> class_C 2 N (px eta) (py eta) -> (i < 3)%nat ->
  lim0 (fun rho => let p := uv_point eta rho t in
          -2 * rho ^ 2 * (dot3 (R_from X eta p) (surf_normal X (px p) (py p)) * surf_JxW X (px p) (py p)) * R_from X eta p i / norm3 (R_from X eta p) ^ 5)
       (b_term (data_of X N (px eta) (py eta)) t i).
Proof. intros [CX ND] CN Hi. exact (free_term_limit X N (px eta) (py eta) t i CX CN ND Hi). Qed.
(** the hypotheses of C56 on a flat cell, singular point at a vertex, exclusion radius eps; F_2 = 1, F_1 = -1 *)
Definition flat : nat -> R -> R -> R := fun i => match i with 0%nat => fun u _ => u | 1%nat => fun _ v => v | _ => fun _ _ => 0 end.
Definition ramp : R -> R -> R := fun u _ => 1 + (-1) * u.
Example C56_example : let eta := P2 0 0 in let d := data_of flat ramp 0 0 in
  regular_at flat eta /\ class_C 2 ramp 0 0 /\
  (forall rho, 0 < rho < 1 -> 0 < dot3 (R_from flat eta (uv_point eta rho 0)) (R_from flat eta (uv_point eta rho 0))) /\
  (forall a, 0 < a < 1 -> ex_RInt (V_arg flat ramp eta 0 2%nat) a 1) /\
  (forall x, 0 < x < 1 -> 0 < x /\ norm3 (R_from flat eta (uv_point eta x 0)) = x) /\ lim0 (fun x => x) 0 /\
  V_F2 d 0 2%nat = 1 /\ V_F1 d 0 2%nat = -1.
Proof.
  intros eta d.
  assert (D0 : forall u v, du (fun x _ : R => x) u v = 1) by (intros; apply Derive_id).
  assert (D0' : forall u v, dv (fun x _ : R => x) u v = 0) by (intros u v; exact (Derive_const _ _)).
  assert (D1 : forall u v, dv (fun _ y : R => y) u v = 1) by (intros; apply Derive_id).
  assert (D1' : forall u v, du (fun _ y : R => y) u v = 0) by (intros u v; exact (Derive_const _ _)).
  assert (DZ : forall c u v, du (fun _ _ : R => c) u v = 0) by (intros c u v; exact (Derive_const _ _)).
  assert (DZ' : forall c u v, dv (fun _ _ : R => c) u v = 0) by (intros c u v; exact (Derive_const _ _)).
  assert (E1 : du (fun x _ : R => x) = fun _ _ => 1) by (apply FunctionalExtensionality.functional_extensionality; intro; apply FunctionalExtensionality.functional_extensionality; intro; apply D0).
  assert (E2 : dv (fun x _ : R => x) = fun _ _ => 0) by (apply FunctionalExtensionality.functional_extensionality; intro; apply FunctionalExtensionality.functional_extensionality; intro; apply D0').
  assert (E3 : dv (fun _ y : R => y) = fun _ _ => 1) by (apply FunctionalExtensionality.functional_extensionality; intro; apply FunctionalExtensionality.functional_extensionality; intro; apply D1).
  assert (E4 : du (fun _ y : R => y) = fun _ _ => 0) by (apply FunctionalExtensionality.functional_extensionality; intro; apply FunctionalExtensionality.functional_extensionality; intro; apply D1').
  assert (E5 : du (fun _ _ : R => 0) = fun _ _ => 0) by (apply FunctionalExtensionality.functional_extensionality; intro; apply FunctionalExtensionality.functional_extensionality; intro; apply DZ).
  assert (E6 : dv (fun _ _ : R => 0) = fun _ _ => 0) by (apply FunctionalExtensionality.functional_extensionality; intro; apply FunctionalExtensionality.functional_extensionality; intro; apply DZ').
  assert (DR : du ramp 0 0 = -1). { unfold du, ramp. apply is_derive_unique. auto_derive; auto. ring. }
  assert (DR' : dv ramp 0 0 = 0) by (unfold dv, ramp; exact (Derive_const _ _)).
  assert (RAD : forall r, 0 < r -> norm3 (R_from flat eta (uv_point eta r 0)) = r).
  { intros r Hr. unfold norm3, dot3, R_from, flat, uv_point, eta. cbn. rewrite cos_0, sin_0.
    replace ((r * 1 + 0 - 0) * (r * 1 + 0 - 0) + (r * 0 + 0 - 0) * (r * 0 + 0 - 0) + (0 - 0) * (0 - 0)) with (r * r) by ring. apply sqrt_square. lra. }
  assert (JAC : forall i j, map_jac flat 0 0 i j = match i, j with 0%nat, 0%nat => 1 | 0%nat, _ => 0 | 1%nat, 0%nat => 0 | 1%nat, _ => 1 | _, _ => 0 end).
  { intros i j. unfold map_jac. destruct i as [|[|i]], j; cbn [flat]; auto. }
  assert (GR : forall i j k, map_grad flat 0 0 i j k = 0).
  { intros i j k. unfold map_grad. destruct i as [|[|i]], j, k; cbn [flat]; rewrite ?E1, ?E2, ?E3, ?E4, ?E5, ?E6; auto. }
  assert (QA : q_A d 0 = 1).
  { unfold q_A, vnorm, vdot, coef_A, d, data_of. cbn [d_jac]. rewrite !JAC, cos_0, sin_0. replace ((1 * 1 + 0 * 0) * (1 * 1 + 0 * 0) + (0 * 1 + 1 * 0) * (0 * 1 + 1 * 0) + (0 * 1 + 0 * 0) * (0 * 1 + 0 * 0)) with 1 by ring. apply sqrt_1. }
  assert (F2 : V_F2 d 0 2%nat = 1).
  { unfold V_F2. rewrite QA. unfold Jk0, eta_Jxn, N0, d, data_of. cbn [d_jac d_N]. rewrite !JAC. unfold ramp. field. }
  assert (F1 : V_F1 d 0 2%nat = -1).
  { unfold V_F1. rewrite QA. unfold q_C, vdot, coef_B, coef_A, Jk1, Jk0, eta_Jxn, N1, N0, vadd, vscale, d_eta_Jxn_du, d_eta_Jxn_dv, d, data_of. cbn [d_jac d_N d_grad d_dN].
    rewrite !GR, !JAC, DR, DR', cos_0, sin_0. unfold ramp. field. }
  split; [split|].
  { intros i Hi. assert (i = 0 \/ i = 1 \/ i = 2)%nat as [ -> | [ -> | -> ]] by lia; cbn [flat]; [apply class_u|apply class_v|apply class_const]. }
  { exists 2%nat. split; [lia|]. unfold surf, cross3, tangent_u, tangent_v, flat. rewrite D0, D0', D1, D1'. lra. }
  split. { apply (class_plus 2 (fun _ _ => 1) (fun u _ => (-1) * u)); [apply class_const|]. apply (class_mult 2 (fun _ _ => -1) (fun u _ => u)); [apply class_const|apply class_u]. }
  split. { intros r Hr. unfold dot3, R_from, flat, uv_point, eta. cbn. rewrite cos_0, sin_0. nra. }
  split; [|split; [|split]].
  - intros a Ha. apply (ex_RInt_ext (fun _ => 0)); [|apply ex_RInt_const]. intros r Hr. rewrite Rmin_left, Rmax_right in Hr by lra.
    assert (KE : 0 = V_arg flat ramp eta 0 2%nat r); [|exact KE].
    unfold V_arg. change (px eta) with 0. change (py eta) with 0. fold d. unfold sing_arg. rewrite F2, F1. unfold V_fun. rewrite (RAD r ltac:(lra) : vnorm (R_from flat eta (uv_point eta r 0)) = r).
    assert (SF : forall u v, surf flat u v 0%nat = 0 /\ surf flat u v 1%nat = 0 /\ surf flat u v 2%nat = 1).
    { intros u v. unfold surf, cross3, tangent_u, tangent_v, flat. rewrite !D0, !D0', !D1, !D1', !DZ, !DZ'. repeat split; ring. }
    assert (SN : forall u v, norm3 (surf flat u v) = 1). { intros u v. unfold norm3, dot3. destruct (SF u v) as (-> & -> & ->). replace (0 * 0 + 0 * 0 + 1 * 1) with 1 by ring. apply sqrt_1. }
    unfold surf_normal, surf_JxW. rewrite !SN. unfold vdot. destruct (SF (px (uv_point eta r 0)) (py (uv_point eta r 0))) as (-> & -> & ->).
    unfold R_from, flat, uv_point, eta, ramp. cbn. rewrite cos_0, sin_0. field. lra.
  - intros x Hx. split; [lra|apply RAD; lra].
  - intros eps He. exists eps. split; auto. intros r Hr. rewrite Rminus_0_r, Rabs_pos_eq by lra. lra.
  - split; assumption.
Qed.
