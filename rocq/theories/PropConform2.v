(** * C45, third part: what the conformity loop achieves along an edge, and what it does not. *)
From Coq Require Import QArith List Lia Lqa Arith Bool.
From Verif Require Import ModelOctree ModelConform PropConform.
Import ListNotations.
Local Open Scope nat_scope.

Definition same_place (a b : pt) : Prop := (px a == px b /\ py a == py b /\ pz a == pz b)%Q.
(** refinement keeps the vertices it has and puts a new one in the middle of every face of a cell that is cut across that
    face (deal.II, execute_coarsening_and_refinement on straight faces) *)
Definition refines (m : tmesh) (fl : list (tcell * flag)) (m' : tmesh) : Prop :=
  t_nv m <= t_nv m' /\ (forall i, i < t_nv m -> t_pos m' i = t_pos m i) /\
  (forall c f d, In (c, f) fl -> d < 4 -> f = Isotropic \/ f = Cut (if Nat.ltb d 2 then 1 else 0) ->
     exists j, t_nv m <= j < t_nv m' /\ same_place (t_pos m' j) (mid (fpoint m c d 0) (fpoint m c d 1))).
(** vertex i halves the boundary face d of cell c, which belongs to the other side: two cells of its own side meet at i, their edges leave
    it to the two ends of the face, and i is in the middle *)
Definition halves (m : tmesh) (i : nat) (c : tcell) (d : nat) : Prop :=
  exists c1 c2 k, elems m i = [c1; c2] /\ bface m c d /\ k < 2 /\
    only_edge_to m i c1 (fpoint m c d k) /\ only_edge_to m i c2 (fpoint m c d (1 - k)) /\ same_place (t_pos m i) (mid (fpoint m c d 0) (fpoint m c d 1)).

Lemma close_self a b : (px a == px b)%Q -> (py a == py b)%Q -> (pz a == pz b)%Q -> (d2 a b == 0)%Q.
Proof. intros E1 E2 E3. unfold d2, sq. rewrite E1, E2, E3. ring. Qed.
Lemma halves_ends m i c d : halves m i c d -> exists k, k < 2 /\ end_nodes m i = Some (fpoint m c d k, fpoint m c d (1 - k)).
Proof.
  intros (c1 & c2 & k & E & F & Hk & O1 & O2 & P). exists k. split; auto.
  unfold end_nodes. rewrite E. cbn [skipn existsb nth_error]. rewrite (far_end_only _ _ _ _ O1), (far_end_only _ _ _ _ O2). reflexivity.
Qed.

(** A face that was cut in the middle on one side of an edge only is cut on the other side by the next pass: the hanging vertex has a partner
    afterwards. *)
Theorem C45_a_halved_face_is_restored : forall iso m fl m' i c d, pass iso m = Some fl -> refines m fl m' ->
  i < t_nv m -> boundary_vertex m i -> unmatched m i -> halves m i c d ->
  In (c, if iso then Isotropic else Cut (if Nat.ltb d 2 then 1 else 0)) fl /\
  exists j, j < t_nv m' /\ j <> i /\ same_place (t_pos m' j) (t_pos m' i).
Proof.
  intros iso m fl m' i c d P (R1 & R2 & R3) Hi B U Hv.
  assert (I : In (c, if iso then Isotropic else Cut (if Nat.ltb d 2 then 1 else 0)) fl).
  { apply (C45_pass_sets_exactly_these_flags iso m fl c _ P). destruct (halves_ends m i c d Hv) as (k & Hk & E).
    destruct Hv as (c1 & c2 & k' & _ & F & _). exists i, (fpoint m c d k), (fpoint m c d (1 - k)), d. repeat split; auto; try apply F.
    unfold close. assert (Z : (d2 (mid (fpoint m c d k) (fpoint m c d (1 - k))) (mid (fpoint m c d 0) (fpoint m c d 1)) == 0)%Q).
    { assert (k = 0 \/ k = 1) as [-> | ->] by lia; cbn [Nat.sub]; apply close_self; cbn [mid px py pz]; try reflexivity; ring. }
    rewrite Z. reflexivity. }
  split; auto. destruct Hv as (c1 & c2 & k & E & (F1 & F2 & F3) & Hk & O1 & O2 & Pm).
  destruct (R3 c _ d I F2) as (j & Hj & Pj); [destruct iso; auto|].
  exists j. split; [lia|]. split; [lia|]. rewrite (R2 i Hi). destruct Pj as (P1 & P2 & P3), Pm as (Q1 & Q2 & Q3). split; [|split]; etransitivity; eauto; symmetry; auto.
Qed.

(** A face that is cut twice on one side is not: the loop stops at once and both vertices stay without a partner. *)
Definition gr_v (i : nat) : pt :=
  match i with
  | 0 => mkpt 1 0 1 | 1 => mkpt 2 0 1 | 2 => mkpt 1 2 1 | 3 => mkpt 2 2 1 | 4 => mkpt 1 3 1 | 5 => mkpt 2 3 1 | 6 => mkpt 1 4 1 | 7 => mkpt 2 4 1
  | 8 => mkpt 2 0 1 | 9 => mkpt 3 0 1 | 10 => mkpt 2 4 1 | _ => mkpt 3 4 1 end.
Definition graded : tmesh := {| t_nv := 12; t_pos := gr_v;
  t_cells := [quad 0 1 2 3 (fun f => negb (Nat.eqb f 3)); quad 2 3 4 5 (fun f => Nat.ltb f 2); quad 4 5 6 7 (fun f => negb (Nat.eqb f 2)); quad 8 9 10 11 (fun _ => true)] |}.
Theorem C45_a_face_cut_twice_stays_nonconforming_refuted :
  (forall execute iso, make_edges_conformal execute iso 1 graded = Done graded) /\
  exists i c d, (i < t_nv graded) /\ boundary_vertex graded i /\ unmatched graded i /\ bface graded c d /\
    (* i is inside the face d of c: a point of the segment between its ends, at a quarter from one of them *)
    t_pos graded i = mkpt 2 3 1 /\ fpoint graded c d 0 = mkpt 2 0 1 /\ fpoint graded c d 1 = mkpt 2 4 1.
Proof.
  split.
  - intros execute iso. cbn [make_edges_conformal]. replace (pass iso graded) with (Some (@nil (tcell * flag))); [reflexivity|]. destruct iso; vm_compute; reflexivity.
  - exists 5, (quad 8 9 10 11 (fun _ => true)), 0. split; [vm_compute; lia|]. split; [apply on_boundary_iff; vm_compute; reflexivity|].
    split; [apply unmatched_iff; [vm_compute; lia|vm_compute; reflexivity]|]. split; [|repeat split]. split; [right; right; right; left; reflexivity|]. split; [lia|reflexivity].
Qed.

(** At a corner of an open surface that belongs to one cell and lies at the origin, the middle between the far end and the "second end" (C45_corner_is_paired_with_the_origin) is the
    middle of the cell's own edge: the loop cuts that cell again and again, and when it stops some vertex is within 1e-7 of the corner. *)
Theorem C45_corner_at_the_origin_is_cut_to_the_tolerance_refuted :
  (forall execute iso fuel m m', make_edges_conformal execute iso fuel m = Done m' ->
    forall i c f k, i < t_nv m' -> elems m' i = [c] -> bface m' c f -> k < 2 -> (forall v, v < 4 -> c_vert c v < t_nv m') -> c_vert c (face_vert f k) = i ->
      (forall f' k', f' < 4 -> k' < 2 -> c_bnd c f' = true -> close (t_pos m' i) (fpoint m' c f' k') -> c_vert c (face_vert f' k') = i) ->
      t_pos m' i = mkpt 0 0 0 ->
      exists j, j < t_nv m' /\ j <> i /\ (d2 (t_pos m' j) (mkpt 0 0 0) <= (1 # 10000000) * (1 # 10000000))%Q) /\
  (exists m, t_cells m = [quad 0 1 2 3 (fun _ => true)] /\ t_nv m = 4 /\ t_pos m 0 = mkpt 0 0 0 /\ t_pos m 1 = mkpt 1 0 0 /\ t_pos m 2 = mkpt 0 1 0 /\ t_pos m 3 = mkpt 1 1 0 /\
     option_map (map snd) (pass false m) = Some [Cut 0; Cut 1]).
Proof.
  split.
  - intros execute iso fuel m m' Hd i c f k Hi E F Hk Hv Ev Only Po.
    assert (P : pass iso m' = Some []).
    { revert m Hd. induction fuel as [|n IH]; intros m H; simpl in H; [discriminate|].
      destruct (pass iso m) as [[|x l]|] eqn:Q; try discriminate; eauto. injection H as ->. auto. }
    destruct F as (F1 & F2 & F3).
    assert (Fp : fpoint m' c f k = t_pos m' i) by (unfold fpoint; rewrite Ev; reflexivity).
    assert (Fe : exists p, far_end m' i c = Some p).
    { apply far_end_some. exists f, k. repeat split; auto. rewrite Fp. unfold close. rewrite d2_refl. reflexivity. }
    assert (Own : forall p, far_end m' i c = Some p -> exists f' k', f' < 4 /\ k' < 2 /\ c_bnd c f' = true /\ c_vert c (face_vert f' k') = i /\ p = fpoint m' c f' (1 - k')).
    { intros p. unfold far_end.
      assert (X : forall l r, (forall x, In x l -> x < 4) -> fold_left (fun r f0 => if c_bnd c f0 then if ltb_tol (t_pos m' i) (fpoint m' c f0 0) then Some (fpoint m' c f0 1)
          else if ltb_tol (t_pos m' i) (fpoint m' c f0 1) then Some (fpoint m' c f0 0) else r else r) l r = Some p ->
        r = Some p \/ exists f' k', f' < 4 /\ k' < 2 /\ c_bnd c f' = true /\ c_vert c (face_vert f' k') = i /\ p = fpoint m' c f' (1 - k')).
      { induction l as [|f0 l IH]; intros r L X; [left; exact X|]. cbn [fold_left] in X. apply IH in X; [|intros; apply L; right; auto]. destruct X as [X|X]; [|right; exact X].
        assert (L0 : f0 < 4) by (apply L; left; auto). destruct (c_bnd c f0) eqn:B0; [|left; exact X].
        destruct (ltb_tol (t_pos m' i) (fpoint m' c f0 0)) eqn:T0.
        - right. exists f0, 0. apply some_inj in X. apply ltb_tol_iff in T0. split; [exact L0|]. split; [lia|]. split; [exact B0|]. split; [apply Only; auto; lia|]. cbn [Nat.sub]. auto.
        - destruct (ltb_tol (t_pos m' i) (fpoint m' c f0 1)) eqn:T1; [|left; exact X].
          right. exists f0, 1. apply some_inj in X. apply ltb_tol_iff in T1. split; [exact L0|]. split; [lia|]. split; [exact B0|]. split; [apply Only; auto; lia|]. cbn [Nat.sub]. auto. }
      intros H. destruct (X (seq 0 4) None) as [Y|Y]; auto; [intros x Hx; apply in_seq in Hx; lia|discriminate]. }
    destruct Fe as (p & Fe). destruct (Own p Fe) as (f' & k' & A1 & A2 & A3 & A4 & A5).
    assert (Eq : forall q, { (d2 (t_pos m' q) (mkpt 0 0 0) <= (1 # 10000000) * (1 # 10000000))%Q } + { ~ (d2 (t_pos m' q) (mkpt 0 0 0) <= (1 # 10000000) * (1 # 10000000))%Q }).
    { intros q. destruct (Qlt_le_dec ((1 # 10000000) * (1 # 10000000)) (d2 (t_pos m' q) (mkpt 0 0 0))) as [L|L]; [right; intros X; apply (Qlt_not_le _ _ L X)|left; exact L]. }
    destruct (existsb (fun q => negb (Nat.eqb q i) && if Eq q then true else false) (seq 0 (t_nv m'))) eqn:Ex.
    + apply existsb_exists in Ex as (q & Q1 & Q2). apply andb_true_iff in Q2 as (Q2 & Q3). apply in_seq in Q1. exists q. split; [lia|]. split.
      * intros ->. rewrite Nat.eqb_refl in Q2. discriminate.
      * destruct (Eq q); [auto|discriminate].
    + exfalso. assert (U : unmatched m' i).
      { intros q Hq Dq. destruct (Nat.eq_dec q i) as [|Nq]; auto. exfalso. assert (T : existsb (fun q => negb (Nat.eqb q i) && if Eq q then true else false) (seq 0 (t_nv m')) = true).
        { apply existsb_exists. exists q. split; [apply in_seq; lia|]. apply Nat.eqb_neq in Nq. rewrite Nq. cbn [negb andb].
          destruct (Eq q) as [|N]; auto. exfalso. apply N. rewrite Po in Dq. unfold d2, sq in *. cbn [px py pz] in *. lra. }
        congruence. }
      assert (B : boundary_vertex m' i).
      { exists c, f, (face_vert f k), k. split; [repeat split; auto|]. split; [destruct f as [|[|[|[|f]]]], k as [|[|k]]; cbn; lia|]. split; [auto|]. split; [auto|]. cbv zeta. rewrite Fp. repeat split; reflexivity. }
      assert (X := C45_pass_sets_exactly_these_flags iso m' [] c (if iso then Isotropic else Cut (if Nat.ltb f' 2 then 1 else 0)) P).
      apply X. exists i, p, (mkpt 0 0 0), f'. split; auto. split; auto. split; auto. split; [apply C45_corner_is_paired_with_the_origin with c; auto|].
      split; [repeat split; auto|]. split; auto. subst p.
      assert (Fi : fpoint m' c f' k' = mkpt 0 0 0) by (unfold fpoint; rewrite A4; exact Po).
      unfold close. assert (Z : (d2 (mid (fpoint m' c f' (1 - k')) (mkpt 0 0 0)) (mid (fpoint m' c f' 0) (fpoint m' c f' 1)) == 0)%Q).
      { assert (k' = 0 \/ k' = 1) as [-> | ->] by lia; cbn [Nat.sub]; rewrite Fi; apply close_self; cbn [mid px py pz]; try reflexivity; ring. }
      rewrite Z. reflexivity.
  - exists {| t_nv := 4; t_pos := fun i => match i with 0 => mkpt 0 0 0 | 1 => mkpt 1 0 0 | 2 => mkpt 0 1 0 | _ => mkpt 1 1 0 end; t_cells := [quad 0 1 2 3 (fun _ => true)] |}.
    repeat split.
Qed.

(** The hypotheses of C45_a_halved_face_is_restored: the mesh of C45_conform_nonvacuous, refined once. *)
Definition ex_restored : tmesh := {| t_nv := 12; t_pos := fun i => match i with 10 => mid (ex_v 6) (ex_v 8) | 11 => mid (ex_v 7) (ex_v 9) | _ => ex_v i end; t_cells := t_cells ex_mesh |}.
Example C45_halved_nonvacuous : exists fl i c d, pass false ex_mesh = Some fl /\ refines ex_mesh fl ex_restored /\ i < t_nv ex_mesh /\ boundary_vertex ex_mesh i /\ unmatched ex_mesh i /\ halves ex_mesh i c d.
Proof.
  exists [(quad 6 7 8 9 (fun _ => true), Cut 1)], 3, (quad 6 7 8 9 (fun _ => true)), 0.
  split; [vm_compute; reflexivity|]. split; [|split; [cbn; lia|split; [apply C45_conform_nonvacuous|split; [apply C45_conform_nonvacuous|]]]].
  - split; [cbn; lia|]. split; [intros i Hi; do 10 (destruct i as [|i]; [reflexivity|]); cbn in Hi; lia|].
    intros c f d [E|[]] Hd Hf. injection E as <- <-. destruct d as [|[|[|[|d]]]]; cbn in Hf; try lia; try (destruct Hf; discriminate).
    + exists 10. cbn. split; [lia|repeat split; reflexivity].
    + exists 11. cbn. split; [lia|repeat split; reflexivity].
  - assert (Un : forall c, (c = quad 0 1 2 3 (fun f => negb (Nat.eqb f 3)) \/ c = quad 2 3 4 5 (fun f => negb (Nat.eqb f 2))) -> forall f k, f < 4 -> k < 2 -> c_bnd c f = true -> close (t_pos ex_mesh 3) (fpoint ex_mesh c f k) ->
       f = 1 /\ (c = quad 0 1 2 3 (fun f => negb (Nat.eqb f 3)) -> k = 1) /\ (c = quad 2 3 4 5 (fun f => negb (Nat.eqb f 2)) -> k = 0)).
    { intros c Hc f k Hf Hk B Cl. apply ltb_tol_iff in Cl.
      assert (K : k = 0 \/ k = 1) by lia. assert (Fc : f = 0 \/ f = 1 \/ f = 2 \/ f = 3) by lia.
      destruct Hc as [-> | ->], Fc as [-> |[-> |[-> | ->]]], K as [-> | ->]; vm_compute in B, Cl; try discriminate; split; auto; split; auto; intros X; exfalso;
        apply (f_equal (fun x => c_vert x 0)) in X; discriminate X. }
    exists (quad 0 1 2 3 (fun f => negb (Nat.eqb f 3))), (quad 2 3 4 5 (fun f => negb (Nat.eqb f 2))), 0.
    split; [vm_compute; reflexivity|]. split; [split; [right; right; left; reflexivity|split; [lia|reflexivity]]|]. split; [lia|]. split; [|split].
    + exists 1, 1. split; [lia|]. split; [lia|]. split; [reflexivity|]. split; [apply ltb_tol_iff; vm_compute; reflexivity|]. split; [reflexivity|].
      intros f' k' A1 A2 A3 A4. destruct (Un _ (or_introl eq_refl) f' k' A1 A2 A3 A4) as (X & Y & _). split; auto.
    + exists 1, 0. split; [lia|]. split; [lia|]. split; [reflexivity|]. split; [apply ltb_tol_iff; vm_compute; reflexivity|]. split; [reflexivity|].
      intros f' k' A1 A2 A3 A4. destruct (Un _ (or_intror eq_refl) f' k' A1 A2 A3 A4) as (X & _ & Y). split; auto.
    + repeat split; vm_compute; reflexivity.
Qed.
