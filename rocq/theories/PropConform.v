(** * C45, second part: the conformity loop. *)
From Coq Require Import QArith List Lia Arith Bool.
From Verif Require Import ModelOctree ModelConform.
Import ListNotations.
Local Open Scope nat_scope.

(** ** Specification *)
Definition close (a b : pt) : Prop := (d2 a b < (1 # 10000000) * (1 # 10000000))%Q.       (* distance < 1e-7 *)
Definition bface (m : tmesh) (c : tcell) (f : nat) : Prop := In c (t_cells m) /\ f < 4 /\ c_bnd c f = true.
(** vertex i is, by coordinates, an end of a boundary face of one of its cells *)
Definition boundary_vertex (m : tmesh) (i : nat) : Prop :=
  exists c f v k, bface m c f /\ v < 4 /\ k < 2 /\ c_vert c v = i /\
    let p := fpoint m c f k in let q := t_pos m i in (px p == px q /\ py p == py q /\ pz p == pz q)%Q.
(** no other vertex within 1e-7 *)
Definition unmatched (m : tmesh) (i : nat) : Prop :=
  forall j, j < t_nv m -> (d2 (t_pos m i) (t_pos m j) <= (1 # 10000000) * (1 # 10000000))%Q -> j = i.
(** the only boundary face of cell c that ends at vertex i has its other end at p *)
Definition only_edge_to (m : tmesh) (i : nat) (c : tcell) (p : pt) : Prop :=
  exists f k, f < 4 /\ k < 2 /\ c_bnd c f = true /\ close (t_pos m i) (fpoint m c f k) /\ p = fpoint m c f (1 - k) /\
    forall f' k', f' < 4 -> k' < 2 -> c_bnd c f' = true -> close (t_pos m i) (fpoint m c f' k') -> f' = f /\ k' = k.

(** ** Lemmas *)
Lemma some_inj (A : Type) (x y : A) : Some x = Some y -> x = y.
Proof. congruence. Qed.
Lemma ltb_tol_iff a b : ltb_tol a b = true <-> close a b.
Proof.
  unfold ltb_tol, close. rewrite negb_true_iff. change ((1 # 10000000) * (1 # 10000000))%Q with tol2. split.
  - intros H. apply Qnot_le_lt. intros L. apply Qle_bool_iff in L. congruence.
  - intros H. destruct (Qle_bool tol2 (d2 a b)) eqn:E; auto. apply Qle_bool_iff in E. exfalso. exact (Qlt_not_le _ _ H E).
Qed.
Lemma peqb_iff a b : peqb a b = true <-> (px a == px b /\ py a == py b /\ pz a == pz b)%Q.
Proof. unfold peqb. rewrite !andb_true_iff, !Qeq_bool_iff. tauto. Qed.
Lemma on_boundary_iff m i : on_boundary m i = true <-> boundary_vertex m i.
Proof.
  unfold on_boundary, boundary_vertex, bface. rewrite existsb_exists. split.
  - intros (c & Hc & H). apply andb_true_iff in H. destruct H as (_ & H). apply existsb_exists in H. destruct H as (f & Hf & H).
    apply andb_true_iff in H. destruct H as (B & H). apply existsb_exists in H. destruct H as (v & Hv & H).
    apply andb_true_iff in H. destruct H as (P & E). apply Nat.eqb_eq in E. apply in_seq in Hf, Hv. apply orb_true_iff in P.
    rewrite E in P. destruct P as [P|P]; apply peqb_iff in P; [exists c, f, v, 0|exists c, f, v, 1]; repeat split; auto; try lia; tauto.
  - intros (c & f & v & k & (Hc & Hf & B) & Hv & Hk & E & P). exists c. split; auto. apply andb_true_iff. split.
    + apply existsb_exists. exists f. split; auto. apply in_seq. lia.
    + apply existsb_exists. exists f. split; [apply in_seq; lia|]. rewrite B. apply existsb_exists. exists v. split; [apply in_seq; lia|].
      rewrite E, Nat.eqb_refl, andb_true_r. apply orb_true_iff. assert (k = 0 \/ k = 1) as [-> | ->] by lia; [left|right]; apply peqb_iff; exact P.
Qed.
Lemma d2_refl a : (d2 a a == 0)%Q.
Proof. unfold d2, sq. ring. Qed.
Lemma unmatched_iff m i : i < t_nv m -> (Nat.eqb (length (doubles m i)) 1 = true <-> unmatched m i).
Proof.
  intros Hi. rewrite Nat.eqb_eq. unfold unmatched, doubles.
  assert (I : In i (filter (fun j => leb_tol (t_pos m i) (t_pos m j)) (seq 0 (t_nv m)))).
  { apply filter_In. split; [apply in_seq; lia|]. unfold leb_tol. apply Qle_bool_iff. rewrite d2_refl. discriminate. }
  assert (D : NoDup (filter (fun j => leb_tol (t_pos m i) (t_pos m j)) (seq 0 (t_nv m)))) by (apply NoDup_filter, seq_NoDup).
  split.
  - intros L j Hj Hd. destruct (filter _ _) as [|x [|y l]] eqn:E; simpl in L; try discriminate.
    assert (J : In j [x]). { rewrite <- E. apply filter_In. split; [apply in_seq; lia|]. unfold leb_tol. apply Qle_bool_iff. exact Hd. }
    destruct I as [I|[]], J as [J|[]]. congruence.
  - intros H. assert (A : forall x, In x (filter (fun j => leb_tol (t_pos m i) (t_pos m j)) (seq 0 (t_nv m))) -> x = i).
    { intros x Hx. apply filter_In in Hx. destruct Hx as (X1 & X2). apply in_seq in X1. apply H; [lia|]. apply Qle_bool_iff in X2. exact X2. }
    destruct (filter _ _) as [|x [|y l]]; [destruct I|reflexivity|]. exfalso.
    assert (x = i) by (apply A; left; auto). assert (y = i) by (apply A; right; left; auto). subst. inversion D. apply H2. left. auto.
Qed.
Lemma far_end_only m i c p : only_edge_to m i c p -> far_end m i c = Some p.
Proof.
  intros (f & k & Hf & Hk & B & Cl & -> & U). unfold far_end.
  assert (No : forall f' k', f' < 4 -> k' < 2 -> c_bnd c f' = true -> (f' <> f \/ k' <> k) -> ltb_tol (t_pos m i) (fpoint m c f' k') = false).
  { intros f' k' A1 A2 A3 A4. destruct (ltb_tol _ _) eqn:E; auto. apply ltb_tol_iff in E. destruct (U f' k' A1 A2 A3 E). lia. }
  assert (Y : ltb_tol (t_pos m i) (fpoint m c f k) = true) by (apply ltb_tol_iff; auto).
  set (g := fun r f0 => if c_bnd c f0 then
        if ltb_tol (t_pos m i) (fpoint m c f0 0) then Some (fpoint m c f0 1)
        else if ltb_tol (t_pos m i) (fpoint m c f0 1) then Some (fpoint m c f0 0) else r
      else r).
  assert (G1 : forall r, g r f = Some (fpoint m c f (1 - k))).
  { intros r. unfold g. rewrite B. assert (k = 0 \/ k = 1) as [-> | ->] by lia.
    - rewrite Y. reflexivity.
    - rewrite (No f 0) by (auto; lia). rewrite Y. reflexivity. }
  assert (G2 : forall r f', f' < 4 -> f' <> f -> g r f' = r).
  { intros r f' A N. unfold g. destruct (c_bnd c f') eqn:Bf; auto. rewrite (No f' 0), (No f' 1) by (auto; lia). reflexivity. }
  cbn [seq fold_left]. fold (g None 0). fold (g (g None 0) 1). fold (g (g (g None 0) 1) 2). fold (g (g (g (g None 0) 1) 2) 3).
  destruct f as [|[|[|[|f]]]]; try lia.
  - rewrite (G2 _ 3), (G2 _ 2), (G2 _ 1) by lia. apply G1.
  - rewrite (G2 _ 3), (G2 _ 2) by lia. apply G1.
  - rewrite (G2 _ 3) by lia. apply G1.
  - apply G1.
Qed.
Lemma far_end_some m i c : (exists p, far_end m i c = Some p) <-> exists f k, f < 4 /\ k < 2 /\ c_bnd c f = true /\ close (t_pos m i) (fpoint m c f k).
Proof.
  unfold far_end.
  set (g := fun r f0 => if c_bnd c f0 then
        if ltb_tol (t_pos m i) (fpoint m c f0 0) then Some (fpoint m c f0 1)
        else if ltb_tol (t_pos m i) (fpoint m c f0 1) then Some (fpoint m c f0 0) else r
      else r).
  assert (X : forall l r, (exists p, fold_left g l r = Some p) <-> (exists p, r = Some p) \/ exists f k, In f l /\ k < 2 /\ c_bnd c f = true /\ close (t_pos m i) (fpoint m c f k)).
  { induction l as [|f l IH]; intros r; cbn [fold_left].
    - split; [auto|]. intros [H|(f & k & [] & _)]; auto.
    - rewrite IH. split.
      + intros [(p & H)|(f' & k & A & B)]; [|right; exists f', k; split; [right; auto|auto]].
        unfold g in H. destruct (c_bnd c f) eqn:Bf; [|left; eauto].
        destruct (ltb_tol (t_pos m i) (fpoint m c f 0)) eqn:E0.
        * right. exists f, 0. split; [left; auto|]. split; [lia|]. split; auto. apply ltb_tol_iff; auto.
        * destruct (ltb_tol (t_pos m i) (fpoint m c f 1)) eqn:E1; [|left; eauto].
          right. exists f, 1. split; [left; auto|]. split; [lia|]. split; auto. apply ltb_tol_iff; auto.
      + intros [(p & ->)|(f' & k & [<-|A] & Hk & B & Cl)].
        * left. unfold g. destruct (c_bnd c f); eauto. destruct (ltb_tol _ _); eauto. destruct (ltb_tol _ _); eauto.
        * left. unfold g. rewrite B. apply ltb_tol_iff in Cl. destruct (ltb_tol _ (fpoint m c f 0)) eqn:E0; eauto.
          assert (k = 1) by (destruct k as [|[|k]]; try lia; congruence). subst k. rewrite Cl. eauto.
        * right. exists f', k. auto. }
  rewrite X. split.
  - intros [(p & H)|(f & k & A & B)]; [discriminate|]. exists f, k. apply in_seq in A. split; [lia|auto].
  - intros (f & k & A & B). right. exists f, k. split; [apply in_seq; lia|auto].
Qed.
Lemma pass_from_some iso m l fl : pass_from iso m l = Some fl ->
  forall x, In x fl <-> exists i g, In i l /\ flags_for iso m i = Some g /\ In x g.
Proof.
  revert fl. induction l as [|i l IH]; intros fl H x; simpl in H.
  - injection H as <-. split; [intros []|intros (i & g & [] & _)].
  - destruct (flags_for iso m i) as [a|] eqn:E; [|discriminate]. destruct (pass_from iso m l) as [b|]; [|discriminate]. injection H as <-.
    rewrite in_app_iff, (IH b eq_refl). split.
    + intros [H|(j & g & A & B)]; [exists i, a; split; [left; auto|auto]|exists j, g; split; [right; auto|auto]].
    + intros (j & g & [<-|A] & B & C); [left; rewrite E in B; injection B as <-; auto|right; eauto].
Qed.
Lemma pass_from_none iso m l : pass_from iso m l = None <-> exists i, In i l /\ flags_for iso m i = None.
Proof.
  induction l as [|i l IH]; simpl; [split; [discriminate|intros (i & [] & _)]|].
  destruct (flags_for iso m i) as [a|] eqn:E.
  - destruct (pass_from iso m l) as [b|]; split; try discriminate.
    + intros (j & [<-|A] & B); [congruence|]. assert (X : Some b = None) by (apply IH; eauto). discriminate.
    + intros _. destruct (proj1 IH eq_refl) as (j & A & B). eauto.
    + intros _; reflexivity.
  - split; [intros _; eauto|reflexivity].
Qed.
Lemma edge_cells_in m c : In c (edge_cells m) <-> exists f, bface m c f.
Proof.
  unfold edge_cells, bface, at_boundary. rewrite filter_In, existsb_exists. split.
  - intros (A & f & B & C). apply in_seq in B. exists f. repeat split; auto; lia.
  - intros (f & A & B & C). split; auto. exists f. split; auto. apply in_seq. lia.
Qed.

(** ** Theorems *)
(** The geometry the statements below speak about: the ends of the faces of a cell in the library's numbering (face
    0, 1: first coordinate 0, 1; face 2, 3: second coordinate 0, 1), the squared distance and the middle of two points. *)
Theorem C45_faces_distances_and_middles :
  (forall m c f k, f < 4 -> k < 2 -> fpoint m c f k = t_pos m (c_vert c (if Nat.ltb f 2 then f + 2 * k else 2 * (f - 2) + k))) /\
  (forall a b, (d2 a b == (px a - px b) * (px a - px b) + (py a - py b) * (py a - py b) + (pz a - pz b) * (pz a - pz b))%Q) /\
  (forall a b, (2 * px (mid a b) == px a + px b /\ 2 * py (mid a b) == py a + py b /\ 2 * pz (mid a b) == pz a + pz b)%Q).
Proof.
  split; [|split].
  - intros m c f k Hf Hk. unfold fpoint. f_equal. f_equal.
    destruct f as [|[|[|[|f]]]]; try lia; destruct k as [|[|k]]; try lia; reflexivity.
  - intros. unfold d2, sq. reflexivity.
  - intros. unfold mid. cbn. repeat split; ring.
Qed.

(** A pass sets a flag exactly for a boundary face whose midpoint is the middle between the far ends
    of the two cells at an unmatched boundary vertex; without the isotropic option the cell is cut
    across that very face: axis 1 for the faces 0 and 1, which run along axis 1, else axis 0. *)
Theorem C45_pass_sets_exactly_these_flags : forall iso m fl c fg, pass iso m = Some fl ->
  (In (c, fg) fl <-> exists i a b d, i < t_nv m /\ boundary_vertex m i /\ unmatched m i /\ end_nodes m i = Some (a, b) /\
     bface m c d /\ close (mid a b) (mid (fpoint m c d 0) (fpoint m c d 1)) /\
     fg = if iso then Isotropic else Cut (if Nat.ltb d 2 then 1 else 0)).
Proof.
  intros iso m fl c fg H. rewrite (pass_from_some iso m _ fl H (c, fg)). split.
  - intros (i & g & A & B & D). apply in_seq in A. unfold flags_for in B.
    destruct (on_boundary m i && Nat.eqb (length (doubles m i)) 1) eqn:E; [|injection B as <-; destruct D].
    apply andb_true_iff in E. destruct E as (E1 & E2). apply on_boundary_iff in E1. apply unmatched_iff in E2; [|lia].
    destruct (end_nodes m i) as [[a b]|] eqn:N; [|discriminate]. apply some_inj in B. subst g.
    apply in_flat_map in D. destruct D as (c' & C1 & D). apply in_flat_map in D. destruct D as (d & D1 & D).
    destruct (c_bnd c' d && _) eqn:F; [|destruct D]. apply andb_true_iff in F. destruct F as (F1 & F2). destruct D as [D|[]].
    injection D as -> <-. apply ltb_tol_iff in F2. apply edge_cells_in in C1. destruct C1 as (f & C1 & _). apply in_seq in D1.
    exists i, a, b, d. repeat split; auto; try lia. destruct iso; auto. destruct d as [|[|d]]; auto.
  - intros (i & a & b & d & Hi & B & U & N & (C1 & C2 & C3) & Cl & ->).
    exists i. eexists. split; [apply in_seq; lia|]. unfold flags_for. apply on_boundary_iff in B. rewrite B.
    apply unmatched_iff in U; auto. rewrite U, N. cbn [andb]. split; [reflexivity|].
    apply in_flat_map. exists c. split; [apply edge_cells_in; exists d; repeat split; auto|].
    apply in_flat_map. exists d. split; [apply in_seq; lia|]. rewrite C3. apply ltb_tol_iff in Cl. rewrite Cl. left.
    destruct iso; auto. destruct d as [|[|d]]; auto.
Qed.
(** When the loop stops, no unmatched boundary vertex between two boundary edges that leave it to a
    and b faces a boundary edge with the same midpoint as a b. *)
Theorem C45_conformity_loop_exit : forall execute iso fuel m m', make_edges_conformal execute iso fuel m = Done m' ->
  forall i c1 c2 a b, i < t_nv m' -> boundary_vertex m' i -> unmatched m' i -> elems m' i = [c1; c2] ->
    only_edge_to m' i c1 a -> only_edge_to m' i c2 b ->
    forall c d, bface m' c d -> ~ close (mid a b) (mid (fpoint m' c d 0) (fpoint m' c d 1)).
Proof.
  intros execute iso fuel m m' H i c1 c2 a b Hi B U E O1 O2 c d F Cl.
  assert (P : pass iso m' = Some []).
  { revert m H. induction fuel as [|n IH]; intros m H; simpl in H; [discriminate|].
    destruct (pass iso m) as [[|x l]|] eqn:Q; try discriminate; eauto. injection H as ->. auto. }
  assert (X := C45_pass_sets_exactly_these_flags iso m' [] c (if iso then Isotropic else Cut (if Nat.ltb d 2 then 1 else 0)) P).
  apply X. exists i, a, b, d. repeat split; auto; try apply F.
  unfold end_nodes. rewrite E. cbn [skipn existsb nth_error]. rewrite (far_end_only _ _ _ _ O1), (far_end_only _ _ _ _ O2). reflexivity.
Qed.
(** Applied again it changes nothing. *)
Theorem C45_conformity_loop_idempotent : forall execute iso fuel m m' fuel', make_edges_conformal execute iso fuel m = Done m' -> 0 < fuel' ->
  make_edges_conformal execute iso fuel' m' = Done m'.
Proof.
  intros execute iso fuel m m' fuel' H L.
  assert (P : pass iso m' = Some []).
  { revert m H. induction fuel as [|n IH]; intros m H; simpl in H; [discriminate|].
    destruct (pass iso m) as [[|x l]|] eqn:Q; try discriminate; eauto. injection H as ->. auto. }
  destruct fuel' as [|n]; [lia|]. simpl. rewrite P. reflexivity.
Qed.
(** A pass writes outside its two-element vector exactly when some unmatched boundary vertex has a
    third (or later) incident cell with a boundary edge at that vertex. *)
Theorem C45_out_of_bounds_iff : forall iso m, pass iso m = None <->
  exists i c, i < t_nv m /\ boundary_vertex m i /\ unmatched m i /\ In c (skipn 2 (elems m i)) /\
    exists f k, f < 4 /\ k < 2 /\ c_bnd c f = true /\ close (t_pos m i) (fpoint m c f k).
Proof.
  intros iso m. unfold pass. rewrite pass_from_none. split.
  - intros (i & A & H). apply in_seq in A. unfold flags_for in H.
    destruct (on_boundary m i && Nat.eqb (length (doubles m i)) 1) eqn:E; [|discriminate].
    apply andb_true_iff in E. destruct E as (E1 & E2). apply on_boundary_iff in E1. apply unmatched_iff in E2; [|lia].
    destruct (end_nodes m i) as [[a b]|] eqn:N; [discriminate|]. unfold end_nodes in N.
    destruct (existsb _ (skipn 2 (elems m i))) eqn:X; [|discriminate]. apply existsb_exists in X. destruct X as (c & C1 & C2).
    exists i, c. repeat split; auto; try lia. apply far_end_some. destruct (far_end m i c); [eauto|discriminate].
  - intros (i & c & Hi & B & U & C1 & C2). exists i. split; [apply in_seq; lia|]. unfold flags_for.
    apply on_boundary_iff in B. apply unmatched_iff in U; auto. rewrite B, U. cbn [andb].
    assert (X : end_nodes m i = None).
    { unfold end_nodes. replace (existsb _ (skipn 2 (elems m i))) with true; auto. symmetry. apply existsb_exists. exists c. split; auto.
      apply far_end_some in C2. destruct C2 as (p & ->). reflexivity. }
    rewrite X. reflexivity.
Qed.
(** At a corner that belongs to a single cell the missing second end is taken to be the origin. *)
Theorem C45_corner_is_paired_with_the_origin : forall m i c p, elems m i = [c] -> far_end m i c = Some p ->
  end_nodes m i = Some (p, mkpt 0 0 0).
Proof. intros m i c p E F. unfold end_nodes. rewrite E. cbn [skipn existsb nth_error]. rewrite F. reflexivity. Qed.

(** three vertices on an edge x = 0 seen from the left by two cells, from the right by one *)
Definition ex_v (i : nat) : pt :=
  match i with
  | 0 => mkpt 1 0 0 | 1 => mkpt 2 0 0 | 2 => mkpt 1 1 0 | 3 => mkpt 2 1 0 | 4 => mkpt 1 2 0 | 5 => mkpt 2 2 0
  | 6 => mkpt 2 0 0 | 7 => mkpt 3 0 0 | 8 => mkpt 2 2 0 | _ => mkpt 3 2 0 end.
Definition quad (a b c d : nat) (bnd : nat -> bool) : tcell :=
  {| c_vert := fun v => match v with 0 => a | 1 => b | 2 => c | _ => d end; c_bnd := bnd |}.
Definition ex_mesh : tmesh := {| t_nv := 10; t_pos := ex_v;
  t_cells := [quad 0 1 2 3 (fun f => negb (Nat.eqb f 3)); quad 2 3 4 5 (fun f => negb (Nat.eqb f 2)); quad 6 7 8 9 (fun _ => true)] |}.
Example C45_conform_nonvacuous : option_map (map snd) (pass false ex_mesh) = Some [Cut 1] /\
  boundary_vertex ex_mesh 3 /\ unmatched ex_mesh 3 /\ end_nodes ex_mesh 3 = Some (ex_v 1, ex_v 5).
Proof.
  split; [vm_compute; reflexivity|]. split; [apply on_boundary_iff; vm_compute; reflexivity|].
  split; [apply unmatched_iff; [vm_compute; lia|vm_compute; reflexivity]|vm_compute; reflexivity].
Qed.
