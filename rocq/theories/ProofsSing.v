(** * Polar decomposition of the reference cell (C47). *)
From Coq Require Import ZArith List Reals Lia Lra Psatz Bool.
From Coquelicot Require Import Coquelicot.
From Verif Require Import ModelLegendre ModelLegApi ModelExp ProofsHarm3 ModelSing SpecSing.
Import ListNotations.
Local Open Scope R_scope.

Lemma atan2_bound y x : - PI < atan2 y x <= PI.
Proof.
  assert (P := PI_RGT_0). unfold atan2. destruct (Rlt_dec 0 x).
  - destruct (atan_bound (y / x)). lra.
  - destruct (Rlt_dec x 0).
    + destruct (atan_bound (y / x)) as [a1 a2]. destruct (Rle_dec 0 y).
      * assert (atan (y / x) <= 0); [|lra]. destruct (Req_dec y 0) as [->|].
        { unfold Rdiv. rewrite Rmult_0_l, atan_0. lra. }
        left. rewrite <- atan_0. apply atan_increasing. assert (0 < y * / - x) by (apply Rmult_lt_0_compat; [lra|apply Rinv_0_lt_compat; lra]).
        unfold Rdiv. replace (/ x) with (- / - x) by (field; lra). lra.
      * assert (0 < atan (y / x)); [|lra]. rewrite <- atan_0. apply atan_increasing.
        assert (0 < - y * / - x) by (apply Rmult_lt_0_compat; [lra|apply Rinv_0_lt_compat; lra]).
        unfold Rdiv. replace (/ x) with (- / - x) by (field; lra). lra.
    + destruct (Rlt_dec 0 y); [lra|]. destruct (Rlt_dec y 0); lra.
Qed.
Definition rad (c : pt2) : R := sqrt (px c * px c + py c * py c).
Lemma angle_ok c : px c = rad c * cos (angle c) /\ py c = rad c * sin (angle c) /\ 0 <= angle c < 2 * PI.
Proof.
  destruct (atan2_polar (px c) (py c)) as [A B]. assert (K := atan2_bound (py c) (px c)). fold (rad c) in *.
  unfold angle. cbv zeta. destruct (Rlt_dec (atan2 (py c) (px c)) 0).
  - replace (atan2 (py c) (px c) + 2 * PI) with (atan2 (py c) (px c) + 2 * INR 1 * PI) by (simpl; ring).
    rewrite cos_period, sin_period. simpl. assert (P := PI_RGT_0). repeat split; try tauto; lra.
  - repeat split; try tauto; lra.
Qed.

Lemma is0_spec x : reflect (x = 0) (is0 x).
Proof. unfold is0. destruct (Req_EM_T x 0); constructor; auto. Qed.
Ltac faces f H := let K := fresh in assert (K : f = 0%nat \/ f = 1%nat \/ f = 2%nat \/ f = 3%nat) by lia; clear H;
  destruct K as [ -> | [ -> | [ -> | -> ]]].

Lemma skipped_iff eta f : in_square (px eta) (py eta) -> (f < 4)%nat -> face_skipped eta f = true <-> face_coeff eta f = 0.
Proof.
  intros _ Hf. faces f Hf; unfold face_skipped, face_coeff; cbn;
    repeat match goal with |- context [is0 ?x] => destruct (is0_spec x) end; cbn; split; intros; try lra; congruence.
Qed.

(** one non-skipped face *)
Section Face.
  Variables (eta : pt2) (f : nat).
  Hypothesis SQ : in_square (px eta) (py eta).
  Hypothesis Hf : (f < 4)%nat.
  Let u := csi_0 eta f.
  Let v := csi_1 eta f.
  Lemma cross_pos : face_coeff eta f <> 0 -> 0 < px u * py v - py u * px v.
  Proof. unfold u, v, face_coeff. destruct SQ as [? ?]. faces f Hf; cbn; intros; nra. Qed.
  Variables t0 t1 : R.
  Hypothesis IV : face_interval eta f = Some (t0, t1).
  Lemma iv_nz : face_coeff eta f <> 0.
  Proof. intros E. apply skipped_iff in E; auto. unfold face_interval in IV. rewrite E in IV. discriminate. Qed.
  Lemma iv_polar : px u = rad u * cos t0 /\ py u = rad u * sin t0 /\ px v = rad v * cos t1 /\ py v = rad v * sin t1 /\ 0 <= t1 - t0 < 2 * PI.
  Proof.
    unfold face_interval in IV. destruct (face_skipped eta f); [discriminate|]. fold u v in IV.
    destruct (angle_ok u) as (A1 & A2 & A3). destruct (angle_ok v) as (B1 & B2 & B3).
    destruct (Rlt_dec (angle v) (angle u)); injection IV as <- <-; [|repeat split; try assumption; lra].
    assert (K : angle u = (angle u - 2 * PI) + 2 * INR 1 * PI) by (simpl; ring).
    rewrite K in A1, A2. rewrite cos_period in A1. rewrite sin_period in A2. repeat split; try assumption; lra.
  Qed.
  Lemma iv_sin : 0 < rad u /\ 0 < rad v /\ 0 < sin (t1 - t0).
  Proof.
    destruct iv_polar as (A1 & A2 & B1 & B2 & _). assert (K := cross_pos iv_nz). rewrite sin_minus.
    assert (Ru : 0 <= rad u) by apply sqrt_pos. assert (Rv : 0 <= rad v) by apply sqrt_pos.
    assert (E : px u * py v - py u * px v = rad u * rad v * (sin t1 * cos t0 - cos t1 * sin t0)).
    { rewrite A1, A2, B1, B2 at 1. ring. }
    assert (rad u <> 0) by (intros Z; rewrite Z in E; lra). assert (rad v <> 0) by (intros Z; rewrite Z in E; lra).
    assert (P : 0 < rad u * rad v) by (apply Rmult_lt_0_compat; lra). repeat split; try lra.
    apply Rmult_lt_reg_l with (rad u * rad v); lra.
  Qed.
  Lemma iv_len : 0 < t1 - t0 < PI.
  Proof.
    destruct iv_polar as (_ & _ & _ & _ & B). destruct iv_sin as (_ & _ & S). split.
    - destruct (Req_dec (t1 - t0) 0) as [E|]; [rewrite E, sin_0 in S|]; lra.
    - destruct (Rlt_dec (t1 - t0) PI); auto. exfalso. assert (sin (t1 - t0) <= 0); [|lra]. apply sin_le_0; lra.
  Qed.
  (** the direction t as a combination of the two vertices *)
  Definition lam t := sin (t1 - t) / (rad u * sin (t1 - t0)).
  Definition mu t := sin (t - t0) / (rad v * sin (t1 - t0)).
  Lemma dir_comb t : cos t = lam t * px u + mu t * px v /\ sin t = lam t * py u + mu t * py v.
  Proof.
    destruct iv_polar as (A1 & A2 & B1 & B2 & _). destruct iv_sin as (Pu & Pv & S). unfold lam, mu.
    rewrite A1, A2, B1, B2.
    assert (forall w, sin (t1 - t) / (rad u * sin (t1 - t0)) * (rad u * w) = sin (t1 - t) * w / sin (t1 - t0)) as -> by (intros; field; lra).
    assert (forall w, sin (t1 - t) / (rad u * sin (t1 - t0)) * (rad u * w) = sin (t1 - t) * w / sin (t1 - t0)) as -> by (intros; field; lra).
    assert (forall w, sin (t - t0) / (rad v * sin (t1 - t0)) * (rad v * w) = sin (t - t0) * w / sin (t1 - t0)) as -> by (intros; field; lra).
    assert (forall w, sin (t - t0) / (rad v * sin (t1 - t0)) * (rad v * w) = sin (t - t0) * w / sin (t1 - t0)) as -> by (intros; field; lra).
    assert (G : sin t1 * cos t0 - cos t1 * sin t0 <> 0) by (rewrite <- sin_minus; lra).
    assert (T := sin2_cos2 t). assert (T0 := sin2_cos2 t0). assert (T1 := sin2_cos2 t1). unfold Rsqr in *.
    rewrite !sin_minus. split; field_simplify_eq; auto; ring.
  Qed.
  Lemma comb_pos t : t0 <= t <= t1 -> 0 <= lam t /\ 0 <= mu t /\ 0 < lam t + mu t.
  Proof.
    intros Ht. destruct iv_len as [L1 L2]. destruct iv_sin as (Pu & Pv & S).
    assert (D1 : 0 < / (rad u * sin (t1 - t0))) by (apply Rinv_0_lt_compat, Rmult_lt_0_compat; lra).
    assert (D2 : 0 < / (rad v * sin (t1 - t0))) by (apply Rinv_0_lt_compat, Rmult_lt_0_compat; lra).
    assert (S1 : 0 <= sin (t1 - t)) by (apply sin_ge_0; lra). assert (S2 : 0 <= sin (t - t0)) by (apply sin_ge_0; lra).
    assert (N1 : 0 <= lam t) by (apply Rmult_le_pos; lra). assert (N2 : 0 <= mu t) by (apply Rmult_le_pos; lra).
    repeat split; auto. destruct (Rle_lt_or_eq_dec _ _ N1) as [|E]; [lra|]. destruct (Rle_lt_or_eq_dec _ _ N2) as [|E']; [lra|]. exfalso.
    destruct (dir_comb t) as [C1 C2]. rewrite <- E, <- E' in C1, C2. assert (T := sin2_cos2 t). unfold Rsqr in T. nra.
  Qed.
  Lemma comb_pos' t : t0 < t < t1 -> 0 < lam t /\ 0 < mu t.
  Proof.
    intros Ht. destruct iv_len as [L1 L2]. destruct iv_sin as (Pu & Pv & S).
    split; (apply Rdiv_lt_0_compat; [apply sin_gt_0; lra|apply Rmult_lt_0_compat; lra]).
  Qed.
  Lemma q_rho_val t : t0 <= t <= t1 -> q_rho eta f t = Some (1 / (lam t + mu t)).
  Proof.
    intros Ht. destruct (comb_pos t Ht) as (P1 & P2 & P3). destruct (dir_comb t) as [C1 C2]. assert (NZ := iv_nz).
    unfold q_rho, rdiv. unfold u, v, face_coeff in *. clear - C1 C2 P3 NZ Hf.
    revert C1 C2 P3 NZ. generalize (lam t) (mu t). intros l m C1 C2 P3 NZ.
    faces f Hf; cbn in *.
    - assert (E : 0 * sin t + 1 * cos t = (l + m) * (0 - px eta)) by lra. rewrite E.
      destruct (Req_EM_T ((l + m) * (0 - px eta)) 0) as [Z|]. { apply Rmult_integral in Z. lra. } f_equal. field. lra.
    - assert (E : 0 * sin t + 1 * cos t = (l + m) * (1 - px eta)) by lra. rewrite E.
      destruct (Req_EM_T ((l + m) * (1 - px eta)) 0) as [Z|]. { apply Rmult_integral in Z. lra. } f_equal. field. lra.
    - assert (E : 1 * sin t + 0 * cos t = (l + m) * (0 - py eta)) by lra. rewrite E.
      destruct (Req_EM_T ((l + m) * (0 - py eta)) 0) as [Z|]. { apply Rmult_integral in Z. lra. } f_equal. field. lra.
    - assert (E : 1 * sin t + 0 * cos t = (l + m) * (1 - py eta)) by lra. rewrite E.
      destruct (Req_EM_T ((l + m) * (1 - py eta)) 0) as [Z|]. { apply Rmult_integral in Z. lra. } f_equal. field. lra.
  Qed.
  (** the end point as a convex combination of the end points of the edge *)
  Lemma end_comb t : t0 <= t <= t1 ->
    let w := mu t / (lam t + mu t) in 0 <= w <= 1 /\ (t0 < t < t1 -> 0 < w < 1) /\
    uv_point eta (1 / (lam t + mu t)) t = P2 ((1 - w) * px u + w * px v + px eta) ((1 - w) * py u + w * py v + py eta).
  Proof.
    intros Ht w. destruct (comb_pos t Ht) as (Q1 & Q2 & Q3). destruct (dir_comb t) as [C1 C2].
    assert (E : w * (lam t + mu t) = mu t) by (unfold w; field; lra).
    split; [|split].
    - split; [apply Rmult_le_reg_r with (lam t + mu t)|apply Rmult_le_reg_r with (lam t + mu t)]; lra.
    - intros Hs. destruct (comb_pos' t Hs). split; apply Rmult_lt_reg_r with (lam t + mu t); lra.
    - unfold uv_point. rewrite C1, C2. unfold w. f_equal; field; lra.
  Qed.
  Lemma end_on_edge t : t0 <= t <= t1 -> let e := uv_point eta (1 / (lam t + mu t)) t in on_edge f (px e) (py e).
  Proof.
    intros Ht e. unfold e. clear e. destruct (end_comb t Ht) as (W & _ & ->). cbn [px py]. revert W. generalize (mu t / (lam t + mu t)). intros w W.
    clear IV. unfold u, v. faces f Hf; cbn; split; lra.
  Qed.
  (** every point of the edge is reached *)
  Lemma edge_reached x y : on_edge f x y -> exists t, t0 <= t <= t1 /\ uv_point eta (1 / (lam t + mu t)) t = P2 x y.
  Proof.
    intros Hon. destruct iv_polar as (A1 & A2 & B1 & B2 & _). destruct iv_sin as (Pu & Pv & S). destruct iv_len as [L1 L2].
    (* x - eta = (1-w) u + w v *)
    assert (W : exists w, 0 <= w <= 1 /\ x - px eta = (1 - w) * px u + w * px v /\ y - py eta = (1 - w) * py u + w * py v).
    { clear - Hon Hf. unfold u, v. faces f Hf; cbn in *; destruct Hon as [-> Hy];
        [exists (1 - y)|exists y|exists x|exists (1 - x)]; repeat split; lra. }
    destruct W as (w & Hw & Wx & Wy).
    (* the angle, measured from t0: d in [0, L] with cos, sin proportional *)
    set (L := t1 - t0) in *.
    set (a := (1 - w) * rad u + w * rad v * cos L). set (b := w * rad v * sin L).
    assert (Hx : x - px eta = a * cos t0 - b * sin t0).
    { rewrite Wx, A1, B1. unfold a, b. replace t1 with (L + t0) by (unfold L; ring). rewrite cos_plus. ring. }
    assert (Hy : y - py eta = a * sin t0 + b * cos t0).
    { rewrite Wy, A2, B2. unfold a, b. replace t1 with (L + t0) by (unfold L; ring). rewrite sin_plus. ring. }
    assert (Hb : 0 <= b). { unfold b. apply Rmult_le_pos; [apply Rmult_le_pos|]; lra. }
    set (r := sqrt (a * a + b * b)). destruct (atan2_polar a b) as [Ra Rb]. fold r in Ra, Rb.
    set (d := atan2 b a) in *. assert (Bd := atan2_bound b a). fold d in Bd.
    assert (Hr : 0 < r).
    { assert (0 <= r) by apply sqrt_pos. destruct (Req_dec r 0) as [Z|]; [|lra]. exfalso. rewrite Z in Ra, Rb.
      assert (b = 0) by lra. assert (Zw : w = 0). { unfold b in *. apply Rmult_integral in H0. destruct H0 as [K|]; [|lra]. apply Rmult_integral in K. destruct K; lra. }
      unfold a in Ra. rewrite Zw in Ra. lra. }
    assert (Sd : 0 <= sin d). { apply Rmult_le_reg_l with r; lra. }
    assert (Hd0 : 0 <= d). { destruct (Rlt_dec d 0); [|lra]. exfalso. assert (sin d < 0) by (apply sin_lt_0_var; lra). lra. }
    assert (Hsd : 0 <= sin (L - d)).
    { rewrite sin_minus. apply Rmult_le_reg_l with r; [lra|]. rewrite Rmult_0_r.
      replace (r * (sin L * cos d - cos L * sin d)) with (sin L * (r * cos d) - cos L * (r * sin d)) by ring. rewrite <- Ra, <- Rb.
      unfold a, b. replace (sin L * ((1 - w) * rad u + w * rad v * cos L) - cos L * (w * rad v * sin L)) with ((1 - w) * rad u * sin L) by ring.
      apply Rmult_le_pos; [apply Rmult_le_pos|]; lra. }
    assert (HdL : d <= L).
    { destruct (Rle_dec d L); auto. exfalso. destruct (Req_dec (sin (L - d)) 0) as [Z|NZ].
      - assert (Lm : - PI < L - d < 0) by lra. assert (sin (L - d) < 0) by (apply sin_lt_0_var; lra). lra.
      - assert (sin (L - d) < 0) by (apply sin_lt_0_var; lra). lra. }
    exists (t0 + d). assert (Ht : t0 <= t0 + d <= t1) by (unfold L in *; lra). split; [exact Ht|].
    (* the exit radius equals r: both end points are on the line of the edge *)
    destruct (comb_pos _ Ht) as (Q1 & Q2 & Q3). destruct (dir_comb (t0 + d)) as [C1 C2].
    assert (Ex : x - px eta = r * cos (t0 + d)). { rewrite Hx, Ra, Rb, cos_plus. ring. }
    assert (Ey : y - py eta = r * sin (t0 + d)). { rewrite Hy, Ra, Rb, sin_plus. ring. }
    assert (Er : r * (lam (t0 + d) + mu (t0 + d)) = 1).
    { assert (NZ := iv_nz). rewrite C1 in Ex. rewrite C2 in Ey. clear - Ex Ey NZ Hon Hf. revert Ex Ey. generalize (lam (t0 + d)) (mu (t0 + d)). intros l m.
      unfold u, v, face_coeff in *. faces f Hf; cbn in *; destruct Hon as [E _]; rewrite E; intros Ex Ey;
        [apply (Rmult_eq_reg_r (0 - px eta))|apply (Rmult_eq_reg_r (1 - px eta))|apply (Rmult_eq_reg_r (0 - py eta))|apply (Rmult_eq_reg_r (1 - py eta))]; lra. }
    assert (Er' : 1 / (lam (t0 + d) + mu (t0 + d)) = r) by (apply (Rmult_eq_reg_r (lam (t0 + d) + mu (t0 + d))); [rewrite Er; field; lra|lra]).
    rewrite Er'. unfold uv_point. f_equal; lra.
  Qed.
End Face.

(** ** The rays through two open intervals differ *)
Lemma cs_inj c s t t' : c = cos t -> s = sin t -> c = cos t' -> s = sin t' -> Rabs (t - t') < PI -> t = t'.
Proof.
  intros -> -> A B D. assert (S : sin (t - t') = 0) by (rewrite sin_minus, A, B; ring).
  apply Rabs_def2 in D. destruct (Rtotal_order (t - t') 0) as [L|[E|G]]; [|lra|].
  - assert (sin (t - t') < 0) by (apply sin_lt_0_var; lra). lra.
  - assert (0 < sin (t - t')) by (apply sin_gt_0; lra). lra.
Qed.
Definition open_facts (eta : pt2) (f : nat) (c s h : R) : Prop :=
  match f with
  | 0%nat => h * c = - px eta /\ px eta <> 0 /\ 0 < py eta + h * s < 1
  | 1%nat => h * c = 1 - px eta /\ px eta <> 1 /\ 0 < py eta + h * s < 1
  | 2%nat => h * s = - py eta /\ py eta <> 0 /\ 0 < px eta + h * c < 1
  | _ => h * s = 1 - py eta /\ py eta <> 1 /\ 0 < px eta + h * c < 1
  end.
Lemma open_face eta f t0 t1 t : in_square (px eta) (py eta) -> (f < 4)%nat -> face_interval eta f = Some (t0, t1) -> t0 < t < t1 ->
  exists h, 0 < h /\ open_facts eta f (cos t) (sin t) h.
Proof.
  intros SQ Hf IV Ht. assert (Ht' : t0 <= t <= t1) by lra.
  destruct (comb_pos eta f SQ Hf t0 t1 IV t Ht') as (Q1 & Q2 & Q3).
  destruct (end_comb eta f SQ Hf t0 t1 IV t Ht') as (_ & W & E). specialize (W Ht).
  exists (1 / (lam eta f t0 t1 t + mu eta f t0 t1 t)). split; [apply Rdiv_lt_0_compat; lra|].
  assert (NZ := iv_nz eta f SQ Hf t0 t1 IV). injection E as E1 E2. revert W E1 E2.
  generalize (1 / (lam eta f t0 t1 t + mu eta f t0 t1 t)) (mu eta f t0 t1 t / (lam eta f t0 t1 t + mu eta f t0 t1 t)).
  intros h w W E1 E2. clear IV Q1 Q2 Q3. unfold face_coeff in NZ. faces f Hf; cbn in *; repeat split; try lra; nra.
Qed.
Lemma open_disjoint eta f f' c s h h' : in_square (px eta) (py eta) -> (f < 4)%nat -> (f' < 4)%nat -> 0 < h -> 0 < h' ->
  open_facts eta f c s h -> open_facts eta f' c s h' -> f = f'.
Proof.
  intros SQ Hf Hf' Ph Ph' A B. destruct SQ as [[X0 X1] [Y0 Y1]].
  assert (K : forall a b c : R, 0 < a -> a * c < b * c -> 0 < c -> a < b) by (intros; nra).
  assert (Kn : forall a b c : R, a * c < b * c -> c < 0 -> b < a) by (intros; nra).
  assert (Sp : forall a c : R, 0 < a -> 0 < a * c -> 0 < c) by (intros; nra).
  assert (Sn : forall a c : R, 0 < a -> a * c < 0 -> c < 0) by (intros; nra).
  faces f Hf; faces f' Hf'; try reflexivity; exfalso; cbn in *;
    destruct A as (A1 & A2 & A3), B as (B1 & B2 & B3);
    try (assert (c < 0) by (apply (Sn h); lra)); try (assert (c < 0) by (apply (Sn h'); lra));
    try (assert (0 < c) by (apply (Sp h); lra)); try (assert (0 < c) by (apply (Sp h'); lra));
    try (assert (s < 0) by (apply (Sn h); lra)); try (assert (s < 0) by (apply (Sn h'); lra));
    try (assert (0 < s) by (apply (Sp h); lra)); try (assert (0 < s) by (apply (Sp h'); lra)); try lra;
    destruct (Rtotal_order h h') as [L|[E|G]]; try nra; subst; lra.
Qed.

(** ** The ray through a point of the square leaves it through an edge that does not hold the singularity *)
Lemma exit_edge ex ey x y : in_square ex ey -> in_square x y -> (x <> ex \/ y <> ey) ->
  exists f s, (f < 4)%nat /\ 1 <= s /\ on_edge f (ex + s * (x - ex)) (ey + s * (y - ey)) /\ face_coeff (P2 ex ey) f <> 0.
Proof.
  intros [[E0 E1] [E2 E3]] [[X0 X1] [Y0 Y1]] NE.
  (* exit parameter of one coordinate: moving by d from e, |d| within, reaches 0 or 1 *)
  assert (EX : forall e d, 0 <= e <= 1 -> 0 <= e + d <= 1 -> d <> 0 ->
    exists s, 1 <= s /\ ((s * d = 1 - e /\ e <> 1 /\ 0 < d) \/ (s * d = - e /\ e <> 0 /\ d < 0))).
  { intros e d He Hd Nd. destruct (Rlt_dec 0 d).
    - exists ((1 - e) / d). assert ((1 - e) / d * d = 1 - e) by (field; lra). split; [|left; repeat split; lra].
      apply Rmult_le_reg_r with d; lra.
    - exists (- e / d). assert (- e / d * d = - e) by (field; lra). split; [|right; repeat split; lra].
      apply Rmult_le_reg_r with (- d); lra. }
  assert (IN : forall e d s s', 0 <= e <= 1 -> 1 <= s <= s' -> ((s' * d = 1 - e /\ 0 < d) \/ (s' * d = - e /\ d < 0)) -> 0 <= e + s * d <= 1).
  { intros e d s s' He Hs [[K D]|[K D]]; nra. }
  destruct (Req_dec x ex) as [->|Nx]; [|destruct (Req_dec y ey) as [->|Ny]].
  - destruct (EX ey (y - ey)) as (s & Hs & [(A & B & D)|(A & B & D)]); try lra.
    + exists 3%nat, s. unfold face_coeff; cbn. repeat split; try lra; try lia.
    + exists 2%nat, s. unfold face_coeff; cbn. repeat split; try lra; try lia.
  - destruct (EX ex (x - ex)) as (s & Hs & [(A & B & D)|(A & B & D)]); try lra.
    + exists 1%nat, s. unfold face_coeff; cbn. repeat split; try lra; try lia.
    + exists 0%nat, s. unfold face_coeff; cbn. repeat split; try lra; try lia.
  - destruct (EX ex (x - ex)) as (s & Hs & A); try lra. destruct (EX ey (y - ey)) as (s' & Hs' & B); try lra.
    destruct (Rle_dec s s') as [L|L].
    + assert (IY : 0 <= ey + s * (y - ey) <= 1) by (apply (IN ey (y - ey) s s'); [lra|lra|tauto]).
      destruct A as [(A & A' & D)|(A & A' & D)]; [exists 1%nat, s|exists 0%nat, s]; unfold face_coeff; cbn; repeat split; try lra; try lia.
    + assert (IX : 0 <= ex + s' * (x - ex) <= 1) by (apply (IN ex (x - ex) s' s); [lra|lra|tauto]).
      destruct B as [(B & B' & D)|(B & B' & D)]; [exists 3%nat, s'|exists 2%nat, s']; unfold face_coeff; cbn; repeat split; try lra; try lia.
Qed.

(** ** The lengths *)
Definition face_length (eta : pt2) (f : nat) : R := match face_interval eta f with Some (t0, t1) => t1 - t0 | None => 0 end.
Lemma length_mod eta f : in_square (px eta) (py eta) -> (f < 4)%nat -> face_coeff eta f <> 0 ->
  0 < face_length eta f < PI /\ exists k : bool, face_length eta f = angle (csi_1 eta f) - angle (csi_0 eta f) + (if k then 2 * PI else 0).
Proof.
  intros SQ Hf NZ. unfold face_length. destruct (face_interval eta f) as [[t0 t1]|] eqn:IV.
  - split; [apply (iv_len eta f SQ Hf t0 t1 IV)|]. unfold face_interval in IV. destruct (face_skipped eta f); [discriminate|].
    destruct (Rlt_dec (angle (csi_1 eta f)) (angle (csi_0 eta f))); injection IV as <- <-; [exists true|exists false]; lra.
  - exfalso. apply NZ. apply skipped_iff; auto. unfold face_interval in IV. destruct (face_skipped eta f); [reflexivity|discriminate].
Qed.
Lemma length_skip eta f : in_square (px eta) (py eta) -> (f < 4)%nat -> face_coeff eta f = 0 -> face_length eta f = 0.
Proof. intros SQ Hf Z. apply skipped_iff in Z; auto. unfold face_length, face_interval. rewrite Z. reflexivity. Qed.
(** angles along the axes *)
Lemma angle_E c : 0 < px c -> py c = 0 -> angle c = 0.
Proof. destruct c as [x y]; cbn. intros P ->. unfold angle, atan2; cbn. destruct (Rlt_dec 0 x); [|lra]. unfold Rdiv. rewrite Rmult_0_l, atan_0. destruct (Rlt_dec 0 0); lra. Qed.
Lemma angle_N c : px c = 0 -> 0 < py c -> angle c = PI / 2.
Proof. destruct c as [x y]; cbn. intros -> P. assert (Q := PI_RGT_0). unfold angle, atan2; cbn. destruct (Rlt_dec 0 0); [lra|]. destruct (Rlt_dec 0 y); [|lra]. destruct (Rlt_dec (PI / 2) 0); lra. Qed.
Lemma angle_W c : px c < 0 -> py c = 0 -> angle c = PI.
Proof. destruct c as [x y]; cbn. intros P ->. assert (Q := PI_RGT_0). unfold angle, atan2; cbn. destruct (Rlt_dec 0 x); [lra|]. destruct (Rlt_dec x 0); [|lra]. destruct (Rle_dec 0 0); [|lra].
  unfold Rdiv. rewrite Rmult_0_l, atan_0. destruct (Rlt_dec (0 + PI) 0); lra. Qed.
Lemma angle_S c : px c = 0 -> py c < 0 -> angle c = 3 * (PI / 2).
Proof. destruct c as [x y]; cbn. intros -> P. assert (Q := PI_RGT_0). unfold angle, atan2; cbn. destruct (Rlt_dec 0 0); [lra|]. destruct (Rlt_dec 0 y); [lra|]. destruct (Rlt_dec y 0); [|lra]. destruct (Rlt_dec (- (PI / 2)) 0); lra. Qed.
Definition total_angle (eta : pt2) : R := face_length eta 0 + face_length eta 1 + face_length eta 2 + face_length eta 3.
Lemma total_ok eta : in_square (px eta) (py eta) ->
  (0 < px eta < 1 -> 0 < py eta < 1 -> total_angle eta = 2 * PI) /\
  ((px eta = 0 \/ px eta = 1) -> 0 < py eta < 1 -> total_angle eta = PI) /\
  (0 < px eta < 1 -> (py eta = 0 \/ py eta = 1) -> total_angle eta = PI) /\
  ((px eta = 0 \/ px eta = 1) -> (py eta = 0 \/ py eta = 1) -> total_angle eta = PI / 2).
Proof.
  intros SQ. assert (Q := PI_RGT_0). unfold total_angle.
  assert (L : forall f, (f < 4)%nat -> face_coeff eta f <> 0 -> 0 < face_length eta f < PI /\ exists k : bool, face_length eta f = angle (csi_1 eta f) - angle (csi_0 eta f) + (if k then 2 * PI else 0)) by (intros; apply length_mod; auto).
  assert (Z : forall f, (f < 4)%nat -> face_coeff eta f = 0 -> face_length eta f = 0) by (intros; apply length_skip; auto).
  (* shared vertices *)
  assert (V0 : csi_1 eta 0 = csi_0 eta 2) by reflexivity. assert (V1 : csi_1 eta 2 = csi_0 eta 1) by reflexivity.
  assert (V2 : csi_1 eta 1 = csi_0 eta 3) by reflexivity. assert (V3 : csi_1 eta 3 = csi_0 eta 0) by reflexivity.
  assert (C0 : face_coeff eta 0 = 0 - px eta) by reflexivity. assert (C1 : face_coeff eta 1 = 1 - px eta) by reflexivity.
  assert (C2 : face_coeff eta 2 = 0 - py eta) by reflexivity. assert (C3 : face_coeff eta 3 = 1 - py eta) by reflexivity.
  assert (L0 := L 0%nat ltac:(lia)). assert (L1 := L 1%nat ltac:(lia)). assert (L2 := L 2%nat ltac:(lia)). assert (L3 := L 3%nat ltac:(lia)).
  assert (Z0 := Z 0%nat ltac:(lia)). assert (Z1 := Z 1%nat ltac:(lia)). assert (Z2 := Z 2%nat ltac:(lia)). assert (Z3 := Z 3%nat ltac:(lia)). clear L Z.
  rewrite C0, V0 in *. rewrite C1, V2 in *. rewrite C2, V1 in *. rewrite C3, V3 in *. clear V0 V1 V2 V3 C0 C1 C2 C3.
  assert (A0 : px (csi_0 eta 0) = 0 - px eta /\ py (csi_0 eta 0) = 1 - py eta) by (split; reflexivity).
  assert (A1 : px (csi_0 eta 1) = 1 - px eta /\ py (csi_0 eta 1) = 0 - py eta) by (split; reflexivity).
  assert (A2 : px (csi_0 eta 2) = 0 - px eta /\ py (csi_0 eta 2) = 0 - py eta) by (split; reflexivity).
  assert (A3 : px (csi_0 eta 3) = 1 - px eta /\ py (csi_0 eta 3) = 1 - py eta) by (split; reflexivity).
  assert (G := fun c => proj2 (proj2 (angle_ok c))).
  repeat split.
  - intros X Y. destruct L0 as [B0 [k0 E0]]; [lra|]. destruct L1 as [B1 [k1 E1]]; [lra|]. destruct L2 as [B2 [k2 E2]]; [lra|]. destruct L3 as [B3 [k3 E3]]; [lra|].
    destruct k0, k1, k2, k3; lra.
  - intros [X|X] Y.
    + rewrite Z0 by lra. destruct L1 as [B1 [k1 E1]]; [lra|]. destruct L2 as [B2 [k2 E2]]; [lra|]. destruct L3 as [B3 [k3 E3]]; [lra|].
      rewrite (angle_N (csi_0 eta 0)) in * by lra. rewrite (angle_S (csi_0 eta 2)) in * by lra. destruct k1, k2, k3; lra.
    + rewrite Z1 by lra. destruct L0 as [B1 [k1 E1]]; [lra|]. destruct L2 as [B2 [k2 E2]]; [lra|]. destruct L3 as [B3 [k3 E3]]; [lra|].
      rewrite (angle_N (csi_0 eta 3)) in * by lra. rewrite (angle_S (csi_0 eta 1)) in * by lra. destruct k1, k2, k3; lra.
  - intros X [Y|Y].
    + rewrite Z2 by lra. destruct L0 as [B1 [k1 E1]]; [lra|]. destruct L1 as [B2 [k2 E2]]; [lra|]. destruct L3 as [B3 [k3 E3]]; [lra|].
      rewrite (angle_W (csi_0 eta 2)) in * by lra. rewrite (angle_E (csi_0 eta 1)) in * by lra. destruct k1, k2, k3; lra.
    + rewrite Z3 by lra. destruct L0 as [B1 [k1 E1]]; [lra|]. destruct L1 as [B2 [k2 E2]]; [lra|]. destruct L2 as [B3 [k3 E3]]; [lra|].
      rewrite (angle_W (csi_0 eta 0)) in * by lra. rewrite (angle_E (csi_0 eta 3)) in * by lra. destruct k1, k2, k3; lra.
  - intros [X|X] [Y|Y].
    + rewrite Z0, Z2 by lra. destruct L1 as [B1 [k1 E1]]; [lra|]. destruct L3 as [B3 [k3 E3]]; [lra|].
      rewrite (angle_N (csi_0 eta 0)) in * by lra. rewrite (angle_E (csi_0 eta 1)) in * by lra. destruct k1, k3; lra.
    + rewrite Z0, Z3 by lra. destruct L1 as [B1 [k1 E1]]; [lra|]. destruct L2 as [B3 [k3 E3]]; [lra|].
      rewrite (angle_S (csi_0 eta 2)) in * by lra. rewrite (angle_E (csi_0 eta 3)) in * by lra. destruct k1, k3; lra.
    + rewrite Z1, Z2 by lra. destruct L0 as [B1 [k1 E1]]; [lra|]. destruct L3 as [B3 [k3 E3]]; [lra|].
      rewrite (angle_W (csi_0 eta 2)) in * by lra. rewrite (angle_N (csi_0 eta 3)) in * by lra. destruct k1, k3; lra.
    + rewrite Z1, Z3 by lra. destruct L0 as [B1 [k1 E1]]; [lra|]. destruct L2 as [B3 [k3 E3]]; [lra|].
      rewrite (angle_W (csi_0 eta 0)) in * by lra. rewrite (angle_S (csi_0 eta 1)) in * by lra. destruct k1, k3; lra.
Qed.
