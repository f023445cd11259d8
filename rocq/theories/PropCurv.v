(** Property theorems C78: the curvature refinement. *)
From Coq Require Import Reals List Bool Lia Lra Arith.
From Verif Require Import ModelDriver PropDriver ModelCurv.
Import ListNotations.
Local Open Scope R_scope.

(** ** What is asked *)
(** a planar cell with unit normal u *)
Definition planar (u : v3) (c : quad) : Prop :=
  vdot u u = 1 /\ vdot u (vadd (q1 c) (vscal (-1) (q0 c))) = 0 /\ vdot u (vadd (q2 c) (vscal (-1) (q0 c))) = 0 /\ vdot u (vadd (q3 c) (vscal (-1) (q0 c))) = 0.
(** twice the signed area of a triangle seen from the side u points to *)
Definition area (u p q r : v3) : R := vdot u (cross (vadd q (vscal (-1) p)) (vadd r (vscal (-1) p))).
(** the corners 0, 1, 3, 2 (deal.II's order) run counterclockwise round a convex cell *)
Definition convex (u : v3) (c : quad) : Prop :=
  0 < area u (q0 c) (q1 c) (q2 c) /\ 0 < area u (q1 c) (q3 c) (q0 c) /\ 0 < area u (q3 c) (q2 c) (q1 c) /\ 0 < area u (q2 c) (q0 c) (q3 c).
(** the triangle made of the centre and one of the four edges *)
Definition slice (u : v3) (c : quad) (k : nat) : R :=
  match k with
  | O => area u (center c) (q0 c) (q1 c) | 1 => area u (center c) (q1 c) (q3 c)
  | 2 => area u (center c) (q3 c) (q2 c) | _ => area u (center c) (q2 c) (q0 c) end.
Definition sgn (x : R) : R := if Rlt_dec 0 x then 1 else if Rlt_dec x 0 then -1 else 0.
Definition slice_sum (u : v3) (c : quad) : R := sgn (slice u c 0) + sgn (slice u c 1) + sgn (slice u c 2) + sgn (slice u c 3).

(** ** Vectors *)
Lemma v3_eq (a b : v3) : vx a = vx b -> vy a = vy b -> vz a = vz b -> a = b.
Proof. destruct a as ((a1 & a2) & a3), b as ((b1 & b2) & b3). cbn. intros -> -> ->. reflexivity. Qed.
Lemma dot_pos a : 0 <= vdot a a.
Proof. unfold vdot. assert (A := Rle_0_sqr (vx a)). assert (B := Rle_0_sqr (vy a)). assert (C := Rle_0_sqr (vz a)). unfold Rsqr in *. lra. Qed.
Lemma norm_sq a : vnorm a * vnorm a = vdot a a.
Proof. apply sqrt_def. apply dot_pos. Qed.
Lemma norm_pos a : 0 <= vnorm a.
Proof. apply sqrt_pos. Qed.
Lemma norm_scal s a : vnorm (vscal s a) = Rabs s * vnorm a.
Proof.
  unfold vnorm. assert (E : vdot (vscal s a) (vscal s a) = (s * s) * vdot a a) by (unfold vdot, vscal, vx, vy, vz; cbn; ring).
  rewrite E, sqrt_mult_alt by (assert (A := Rle_0_sqr s); unfold Rsqr in A; lra). f_equal. apply sqrt_Rsqr_abs.
Qed.
Lemma normalise_unit a n : normalise a = Some n -> vdot n n = 1.
Proof.
  unfold normalise. destruct (Req_EM_T (vnorm a) 0) as [|N]; [discriminate|]. intros E. injection E as <-.
  replace (vdot (vscal (/ vnorm a) a) (vscal (/ vnorm a) a)) with (/ vnorm a * / vnorm a * vdot a a) by (unfold vdot, vscal, vx, vy, vz; cbn; ring).
  rewrite <- norm_sq. field. exact N.
Qed.
Lemma unit_norm u : vdot u u = 1 -> vnorm u = 1.
Proof. intros E. unfold vnorm. rewrite E. apply sqrt_1. Qed.
Lemma normalise_scal u s : vdot u u = 1 -> normalise (vscal s u) = if Req_EM_T s 0 then None else Some (vscal (sgn s) u).
Proof.
  intros U. unfold normalise. rewrite norm_scal, (unit_norm u U), Rmult_1_r. unfold sgn. destruct (Req_EM_T (Rabs s) 0) as [Z|Z], (Req_EM_T s 0) as [Z'|Z']; auto.
  - exfalso. apply Z'. destruct (Req_dec s 0); auto. exfalso. revert Z. apply Rabs_no_R0; auto.
  - exfalso. apply Z. rewrite Z'. apply Rabs_R0.
  - f_equal. destruct (Rlt_dec 0 s) as [P|P].
    + rewrite Rabs_pos_eq by lra. apply v3_eq; unfold vscal, vx, vy, vz; cbn; field; auto.
    + destruct (Rlt_dec s 0) as [Q|Q]; [|lra]. rewrite Rabs_left by auto. apply v3_eq; unfold vscal, vx, vy, vz; cbn; field; auto.
Qed.
(** two vectors orthogonal to u: their cross product is along u *)
Lemma cross_along u a b : vdot u u = 1 -> vdot u a = 0 -> vdot u b = 0 -> cross a b = vscal (vdot u (cross a b)) u.
Proof.
  intros U A B. destruct u as ((u1 & u2) & u3), a as ((a1 & a2) & a3), b as ((b1 & b2) & b3). unfold vdot, vx, vy, vz in *. cbn in *.
  set (w1 := a2 * b3 - a3 * b2). set (w2 := a3 * b1 - a1 * b3). set (w3 := a1 * b2 - a2 * b1).
  assert (C1 : u2 * w3 - u3 * w2 = a1 * (u1 * b1 + u2 * b2 + u3 * b3) - b1 * (u1 * a1 + u2 * a2 + u3 * a3)) by (unfold w1, w2, w3; ring).
  assert (C2 : u3 * w1 - u1 * w3 = a2 * (u1 * b1 + u2 * b2 + u3 * b3) - b2 * (u1 * a1 + u2 * a2 + u3 * a3)) by (unfold w1, w2, w3; ring).
  assert (C3 : u1 * w2 - u2 * w1 = a3 * (u1 * b1 + u2 * b2 + u3 * b3) - b3 * (u1 * a1 + u2 * a2 + u3 * a3)) by (unfold w1, w2, w3; ring).
  rewrite A, B in C1, C2, C3. rewrite !Rmult_0_r, Rminus_0_r in C1, C2, C3. unfold cross, vscal, vx, vy, vz; cbn. fold w1 w2 w3.
  apply v3_eq; unfold vx, vy, vz; cbn.
  - replace w1 with (w1 * (u1 * u1 + u2 * u2 + u3 * u3)) at 1 by (rewrite U; ring).
    replace (w1 * (u1 * u1 + u2 * u2 + u3 * u3)) with ((u1 * w1 + u2 * w2 + u3 * w3) * u1 + u3 * (u3 * w1 - u1 * w3) - u2 * (u1 * w2 - u2 * w1)) by ring. rewrite C2, C3. ring.
  - replace w2 with (w2 * (u1 * u1 + u2 * u2 + u3 * u3)) at 1 by (rewrite U; ring).
    replace (w2 * (u1 * u1 + u2 * u2 + u3 * u3)) with ((u1 * w1 + u2 * w2 + u3 * w3) * u2 + u1 * (u1 * w2 - u2 * w1) - u3 * (u2 * w3 - u3 * w2)) by ring. rewrite C1, C3. ring.
  - replace w3 with (w3 * (u1 * u1 + u2 * u2 + u3 * u3)) at 1 by (rewrite U; ring).
    replace (w3 * (u1 * u1 + u2 * u2 + u3 * u3)) with ((u1 * w1 + u2 * w2 + u3 * w3) * u3 + u2 * (u2 * w3 - u3 * w2) - u1 * (u3 * w1 - u1 * w3)) by ring. rewrite C1, C2. ring.
Qed.

(** ** C78 *)
(** The direction the centre of a cell is projected along is a unit vector whenever it is defined. *)
Theorem C78_normal_is_a_unit_vector : forall c n, cell_normal c = Some n -> vdot n n = 1.
Proof.
  intros c n E. unfold cell_normal in E. destruct (normalise (cross (arm c (q0 c)) (arm c (q1 c)))); [|discriminate].
  destruct (normalise (cross (arm c (q1 c)) (arm c (q3 c)))); [|discriminate]. destruct (normalise (cross (arm c (q3 c)) (arm c (q2 c)))); [|discriminate].
  destruct (normalise (cross (arm c (q2 c)) (arm c (q0 c)))); [|discriminate]. eapply normalise_unit; eauto.
Qed.
Lemma arm_planar u c v : planar u c -> In v [q0 c; q1 c; q2 c; q3 c] -> vdot u (arm c v) = 0.
Proof.
  intros (_ & A & B & D) Hv. set (w := fun a : v3 => vdot u (vadd a (vscal (-1) (q0 c)))).
  assert (E : forall v, vdot u (arm c v) = w v - / 4 * (w (q1 c) + w (q2 c) + w (q3 c))).
  { intros v'. unfold w, arm, center, vdot, vadd, vscal, vx, vy, vz. cbn. field. }
  rewrite E. unfold w in *. rewrite A, B, D. cbn in Hv. destruct Hv as [<-|[<-|[<-|[<-|[]]]]]; rewrite ?A, ?B, ?D; [|lra|lra|lra].
  replace (vdot u (vadd (q0 c) (vscal (-1) (q0 c)))) with 0 by (unfold vdot, vadd, vscal, vx, vy, vz; cbn; ring). lra.
Qed.
(** On a planar cell: the normal of the plane, on the side from which most of the four slices of the cell run
    counterclockwise; undefined (0/0) exactly if a slice has no area or two slices are turned over. *)
Theorem C78_normal_of_a_planar_cell : forall u c, planar u c ->
  cell_normal c = if Req_EM_T (slice u c 0 * slice u c 1 * slice u c 2 * slice u c 3) 0 then None
                  else if Req_EM_T (slice_sum u c) 0 then None else Some (vscal (sgn (slice_sum u c)) u).
Proof.
  intros u c P. assert (U := proj1 P). unfold cell_normal.
  assert (K : forall v w, In v [q0 c; q1 c; q2 c; q3 c] -> In w [q0 c; q1 c; q2 c; q3 c] -> normalise (cross (arm c v) (arm c w)) = if Req_EM_T (area u (center c) v w) 0 then None else Some (vscal (sgn (area u (center c) v w)) u)).
  { intros v w Hv Hw. rewrite (cross_along u _ _ U (arm_planar u c v P Hv) (arm_planar u c w P Hw)). apply normalise_scal; auto. }
  rewrite !K by (cbn; tauto). unfold slice_sum, slice.
  set (a0 := area u (center c) (q0 c) (q1 c)). set (a1 := area u (center c) (q1 c) (q3 c)). set (a2 := area u (center c) (q3 c) (q2 c)). set (a3 := area u (center c) (q2 c) (q0 c)).
  destruct (Req_EM_T a0 0) as [Z0|Z0]; [destruct (Req_EM_T (a0 * a1 * a2 * a3) 0) as [|N]; auto; exfalso; apply N; rewrite Z0; ring|].
  destruct (Req_EM_T a1 0) as [Z1|Z1]; [destruct (Req_EM_T (a0 * a1 * a2 * a3) 0) as [|N]; auto; exfalso; apply N; rewrite Z1; ring|].
  destruct (Req_EM_T a2 0) as [Z2|Z2]; [destruct (Req_EM_T (a0 * a1 * a2 * a3) 0) as [|N]; auto; exfalso; apply N; rewrite Z2; ring|].
  destruct (Req_EM_T a3 0) as [Z3|Z3]; [destruct (Req_EM_T (a0 * a1 * a2 * a3) 0) as [|N]; auto; exfalso; apply N; rewrite Z3; ring|].
  destruct (Req_EM_T (a0 * a1 * a2 * a3) 0) as [N|N]; [exfalso; revert N; repeat apply Rmult_integral_contrapositive_currified; auto|].
  set (s := sgn a0 + sgn a1 + sgn a2 + sgn a3).
  replace (vscal (/ 4) (vadd (vadd (vadd (vscal (sgn a0) u) (vscal (sgn a1) u)) (vscal (sgn a2) u)) (vscal (sgn a3) u))) with (vscal (/ 4 * s) u)
    by (apply v3_eq; unfold s, vscal, vadd, vx, vy, vz; cbn; ring).
  rewrite normalise_scal by auto. destruct (Req_EM_T (/ 4 * s) 0) as [Y|Y], (Req_EM_T s 0) as [Y'|Y']; auto; try lra.
  f_equal. f_equal. unfold sgn. destruct (Rlt_dec 0 (/ 4 * s)), (Rlt_dec 0 s), (Rlt_dec (/ 4 * s) 0), (Rlt_dec s 0); lra.
Qed.
(** In particular on a convex planar cell it is the normal on the side from which the corners 0, 1, 3, 2 run counterclockwise. *)
Theorem C78_normal_of_a_convex_cell : forall u c, planar u c -> convex u c -> cell_normal c = Some u.
Proof.
  intros u c P (A0 & A1 & A3 & A2). rewrite (C78_normal_of_a_planar_cell u c P).
  assert (S0 : slice u c 0 = / 4 * (area u (q0 c) (q1 c) (q2 c) + area u (q1 c) (q3 c) (q0 c))) by (unfold slice, area, center, cross, vdot, vadd, vscal, vx, vy, vz; cbn; field).
  assert (S1 : slice u c 1 = / 4 * (area u (q1 c) (q3 c) (q0 c) + area u (q3 c) (q2 c) (q1 c))) by (unfold slice, area, center, cross, vdot, vadd, vscal, vx, vy, vz; cbn; field).
  assert (S2 : slice u c 2 = / 4 * (area u (q3 c) (q2 c) (q1 c) + area u (q2 c) (q0 c) (q3 c))) by (unfold slice, area, center, cross, vdot, vadd, vscal, vx, vy, vz; cbn; field).
  assert (S3 : slice u c 3 = / 4 * (area u (q2 c) (q0 c) (q3 c) + area u (q0 c) (q1 c) (q2 c))) by (unfold slice, area, center, cross, vdot, vadd, vscal, vx, vy, vz; cbn; field).
  assert (P0 : 0 < slice u c 0) by lra. assert (P1 : 0 < slice u c 1) by lra. assert (P2 : 0 < slice u c 2) by lra. assert (P3 : 0 < slice u c 3) by lra.
  assert (S : slice_sum u c = 4) by (unfold slice_sum, sgn; do 4 (destruct (Rlt_dec 0 _); [|lra]); lra).
  destruct (Req_EM_T (slice u c 0 * slice u c 1 * slice u c 2 * slice u c 3) 0) as [Z|_].
  { exfalso. assert (X : 0 < slice u c 0 * slice u c 1 * slice u c 2 * slice u c 3) by (repeat apply Rmult_lt_0_compat; auto). lra. }
  rewrite S. destruct (Req_EM_T 4 0) as [|_]; [lra|]. f_equal. unfold sgn. destruct (Rlt_dec 0 4); [|lra]. apply v3_eq; unfold vscal, vx, vy, vz; cbn; ring.
Qed.

(** A cell on a CAD surface is refined exactly if it is larger than ten tolerances and fewer than [cpc] cells of its size
    fit on the circle of the largest curvature (of curvature tol if the surface is flatter than that). *)
Theorem C78_flag_iff : forall tol cpc c, 0 < tol -> 0 < cpc ->
  (curvature_flag tol cpc c <> None <->
   10 * tol < cc_diam c /\
   2 * PI < cpc * cc_diam c * (if cc_shape c then Rmax (Rmax (Rabs (cc_k1 c)) (Rabs (cc_k2 c))) tol else tol)).
Proof.
  intros tol cpc c Ht Hc. unfold curvature_flag. set (d := cc_diam c). set (k := if cc_shape c then Rmax (Rmax (Rabs (cc_k1 c)) (Rabs (cc_k2 c))) tol else tol).
  assert (Kp : 0 < k) by (unfold k; destruct (cc_shape c); auto; eapply Rlt_le_trans; [exact Ht|apply Rmax_r]).
  assert (E : target_size (cc_shape c) (cc_k1 c) (cc_k2 c) tol cpc = Some (2 * PI / (cpc * k))).
  { unfold target_size, k in *. unfold pdiv. destruct (Req_EM_T cpc 0); [lra|]. destruct (cc_shape c).
    - destruct (Req_EM_T _ 0); [lra|]. f_equal. field. split; lra.
    - destruct (Req_EM_T tol 0); [lra|]. f_equal. field. split; lra. }
  rewrite E. unfold exceeds. assert (Ck : 0 < cpc * k) by (apply Rmult_lt_0_compat; auto).
  assert (Q : 2 * PI / (cpc * k) < d <-> 2 * PI < cpc * d * k).
  { split; intros L.
    - apply (Rmult_lt_compat_r (cpc * k)) in L; auto. unfold Rdiv in L. rewrite Rmult_assoc, Rinv_l, Rmult_1_r in L by lra. lra.
    - apply (Rmult_lt_reg_r (cpc * k)); auto. unfold Rdiv. rewrite Rmult_assoc, Rinv_l, Rmult_1_r by lra. lra. }
  destruct (Rlt_dec (2 * PI / (cpc * k)) d) as [A|A], (Rlt_dec (10 * tol) d) as [B|B]; cbn; split; try (intros _; tauto); try congruence; try tauto; intros (X & Y); tauto.
Qed.
(** When the loop stops before its bound after two or more cycles, every cell of the mesh is small enough. *)
Theorem C78_cells_per_circle_reached : forall (M : Type) (cells : M -> list ccell) (execute : M -> list (ccell * unit) -> M) (conform : M -> M) tol cpc bound m n m' r,
  0 < tol -> 0 < cpc -> (forall m, conform (conform m) = conform m) -> (forall m, execute m [] = m) ->
  refinement_loop M ccell unit cells (curvature_flag tol cpc) execute conform bound m = (m', n, r) -> (2 <= n < bound)%nat ->
  forall c, In c (cells m') -> cc_diam c <= 10 * tol \/
    cpc * cc_diam c * (if cc_shape c then Rmax (Rmax (Rabs (cc_k1 c)) (Rabs (cc_k2 c))) tol else tol) <= 2 * PI.
Proof.
  intros M cells execute conform tol cpc bound m n m' r Ht Hc Hi He E Hn c Ic.
  assert (N := proj1 (C45_early_stop_establishes_goal M ccell unit cells (curvature_flag tol cpc) execute conform bound m n m' r Hi He E Hn) c Ic).
  destruct (Rle_dec (cc_diam c) (10 * tol)) as [|L]; auto. right. apply Rnot_lt_le. intros Q. apply (proj2 (C78_flag_iff tol cpc c Ht Hc)); auto. split; auto. lra.
Qed.
(** A cell without a CAD surface is treated as if its surface had curvature tol: it is not true that it is never refined. *)
Theorem C78_cells_without_surface_never_refined_refuted : exists tol cpc c, 0 < tol /\ 0 < cpc /\ cc_shape c = false /\ curvature_flag tol cpc c <> None.
Proof.
  exists 1, 12, {| cc_diam := 11; cc_shape := false; cc_k1 := 0; cc_k2 := 0 |}. split; [lra|]. split; [lra|]. split; [reflexivity|].
  apply C78_flag_iff; [lra|lra|]. cbn. assert (A := PI_4). lra.
Qed.
Theorem C78_cells_without_surface : forall tol cpc d k1 k2, 0 < tol -> 0 < cpc ->
  (curvature_flag tol cpc {| cc_diam := d; cc_shape := false; cc_k1 := k1; cc_k2 := k2 |} <> None <->
   curvature_flag tol cpc {| cc_diam := d; cc_shape := true; cc_k1 := 0; cc_k2 := 0 |} <> None).
Proof.
  intros tol cpc d k1 k2 Ht Hc. rewrite !C78_flag_iff by auto. cbn. rewrite Rabs_R0. replace (Rmax (Rmax 0 0) tol) with tol; [tauto|].
  unfold Rmax at 2. destruct (Rle_dec 0 0); rewrite Rmax_right; lra.
Qed.
(** Refinement asked for never removes a flag: more cells per circle or a more curved surface flags at least the same cells. *)
Theorem C78_flag_monotone : forall tol cpc cpc' c c', 0 < tol -> 0 < cpc -> cpc <= cpc' -> cc_diam c <= cc_diam c' -> cc_shape c = cc_shape c' ->
  Rabs (cc_k1 c) <= Rabs (cc_k1 c') -> Rabs (cc_k2 c) <= Rabs (cc_k2 c') -> curvature_flag tol cpc c <> None -> curvature_flag tol cpc' c' <> None.
Proof.
  intros tol cpc cpc' c c' Ht Hc L1 L2 Es K1 K2 F. apply C78_flag_iff in F; auto. destruct F as (F1 & F2). apply C78_flag_iff; [auto|lra|]. split; [lra|].
  eapply Rlt_le_trans; [exact F2|]. rewrite Es.
  assert (D : 0 < cc_diam c) by lra. set (k := if cc_shape c' then Rmax (Rmax (Rabs (cc_k1 c)) (Rabs (cc_k2 c))) tol else tol). set (k' := if cc_shape c' then Rmax (Rmax (Rabs (cc_k1 c')) (Rabs (cc_k2 c'))) tol else tol).
  assert (Kp : 0 < k) by (unfold k; destruct (cc_shape c'); auto; eapply Rlt_le_trans; [exact Ht|apply Rmax_r]).
  assert (Kk : k <= k') by (unfold k, k'; destruct (cc_shape c'); [apply Rle_max_compat_r|]; [|lra]; apply Rmax_lub; [eapply Rle_trans; [exact K1|apply Rmax_l]|eapply Rle_trans; [exact K2|apply Rmax_r]]).
  apply Rmult_le_compat; try lra; [apply Rmult_le_pos; lra|]. apply Rmult_le_compat; lra.
Qed.

Definition unit_square : quad := {| q0 := (0, 0, 0); q1 := (1, 0, 0); q2 := (0, 1, 0); q3 := (1, 1, 0) |}.
Example C78_nonvacuous : planar (0, 0, 1) unit_square /\ convex (0, 0, 1) unit_square /\ cell_normal unit_square = Some (0, 0, 1).
Proof.
  assert (P : planar (0, 0, 1) unit_square) by (unfold planar, vdot, vadd, vscal, vx, vy, vz; cbn; repeat split; ring).
  assert (C : convex (0, 0, 1) unit_square) by (unfold convex, area, cross, vdot, vadd, vscal, vx, vy, vz; cbn; repeat split; lra).
  split; auto. split; auto. apply C78_normal_of_a_convex_cell; auto.
Qed.
(** two vertices exchanged, or two vertices at the same place: no normal *)
Example C78_undefined_normals :
  cell_normal {| q0 := (0, 0, 0); q1 := (1, 0, 0); q2 := (1, 1, 0); q3 := (0, 1, 0) |} = None /\
  cell_normal {| q0 := (0, 0, 0); q1 := (1, 0, 0); q2 := (0, 1, 0); q3 := (0, 1, 0) |} = None.
Proof.
  split; rewrite (C78_normal_of_a_planar_cell (0, 0, 1)) by (unfold planar, vdot, vadd, vscal, vx, vy, vz; cbn; repeat split; ring).
  - match goal with |- (if Req_EM_T ?x 0 then _ else _) = _ => destruct (Req_EM_T x 0) as [|N] end; auto. exfalso. apply N.
    replace (slice (0, 0, 1) {| q0 := (0, 0, 0); q1 := (1, 0, 0); q2 := (1, 1, 0); q3 := (0, 1, 0) |} 1) with 0; [ring|].
    unfold slice, area, center, cross, vdot, vadd, vscal, vx, vy, vz; cbn. field.
  - match goal with |- (if Req_EM_T ?x 0 then _ else _) = _ => destruct (Req_EM_T x 0) as [|N] end; auto. exfalso. apply N.
    replace (slice (0, 0, 1) {| q0 := (0, 0, 0); q1 := (1, 0, 0); q2 := (0, 1, 0); q3 := (0, 1, 0) |} 2) with 0; [ring|].
    unfold slice, area, center, cross, vdot, vadd, vscal, vx, vy, vz; cbn. field.
Qed.
(** a cell of diameter 1 on a sphere of radius 1, twelve cells per circle: refined; of diameter 1/2: not *)
Example C78_sphere : curvature_flag (1 / 1000) 12 {| cc_diam := 1; cc_shape := true; cc_k1 := 1; cc_k2 := -1 |} <> None /\
  curvature_flag (1 / 1000) 12 {| cc_diam := 1 / 2; cc_shape := true; cc_k1 := 1; cc_k2 := -1 |} = None.
Proof.
  assert (K : Rmax (Rmax (Rabs 1) (Rabs (-1))) (1 / 1000) = 1) by (rewrite (Rabs_pos_eq 1), (Rabs_left (-1)) by lra; unfold Rmax; repeat (destruct (Rle_dec _ _)); lra).
  split.
  - apply C78_flag_iff; [lra|lra|]. cbn. rewrite K. assert (A := PI_4). lra.
  - destruct (curvature_flag (1 / 1000) 12 {| cc_diam := 1 / 2; cc_shape := true; cc_k1 := 1; cc_k2 := -1 |}) eqn:E; auto. exfalso.
    assert (F : curvature_flag (1 / 1000) 12 {| cc_diam := 1 / 2; cc_shape := true; cc_k1 := 1; cc_k2 := -1 |} <> None) by congruence.
    apply C78_flag_iff in F; [|lra|lra]. cbn in F. rewrite K in F. assert (A := PI2_3_2). unfold PI2 in A. lra.
Qed.
