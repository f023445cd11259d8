(** * Accuracy of the multipole and local expansions (C57, C58). *)
From Coq Require Import ZArith List Reals Lia Lra Bool.
From Coquelicot Require Import Coquelicot.
From Verif Require Import ModelLegendre ModelLegApi ModelExp SpecLegendre SpecExp SpecAcc ProofsLegendre ProofsLegCheck ProofsHarm ProofsHarm2 ProofsHarm3 ProofsExp ProofsExp2 ProofsExp3 ProofsExp4 ProofsAcc1 ProofsAcc2 ProofsAcc3 ProofsAcc4 ProofsAcc5 ProofsAcc6 ProofsAcc7 ProofsAcc8 ProofsAcc9 ProofsAcc10.
Import ListNotations.
Local Open Scope R_scope.

(** The dipole potential of the specification is the derivative of the charge potential with respect to
    the source position along the unit vector of the direction. *)
Theorem C57_dipole_is_the_derivative_of_a_charge : forall x y v, x <> y ->
  is_derive (fun t => potential (Charge 1 (line y (unit_vector v) t)) x) 0 (potential (Dipole 1 y v) x).
Proof.
  intros x y v N. rewrite potential_dpot, Rmult_1_l, <- unit_vector_unit.
  apply (is_derive_ext (fun t => / rho_ (psub x (along y (unit_vector v) t)))); [intros t; cbn [potential]; unfold Rdiv; rewrite Rmult_1_l; reflexivity|].
  apply d_inv_rho. apply rho_sub. auto.
Qed.

(** ** C57 *)
(** Outside the smallest ball about the centre that contains the sources, the value differs from the exact
    potential by at most the sum of the error bounds of the sources, whatever history of additions,
    scalings and translations produced the expansion. *)
Theorem C57_multipole_accuracy : forall p c sources e x, (p <= 20)%nat -> multipole_of p c sources e -> x <> c ->
  List.Forall (fun s => distance (position s) c < distance x c) sources ->
  exists v, m_evaluate e x = Some v /\ Rabs (v - potentials sources x) <= sum_over sources (fun s => error s p (distance (position s) c) (distance x c)).
Proof. intros p c l e x Lp M. apply multipole_accuracy; auto. apply multipole_carries; auto. Qed.
(** The bound grows with the radius of the sources and decreases with the distance of the point. *)
Lemma error_mono s p k r k' r' : 0 <= k <= k' -> k' < r' -> r' <= r -> error s p k r <= error s p k' r'.
Proof.
  intros K1 K2 K3. unfold error. apply Rmult_le_compat_l; [apply Rabs_pos|]. destruct s; cbn [unit_error].
  - apply geo_mono; auto.
  - apply Rmult_le_compat_l; [apply sqrt_pos|]. apply (G_mono p k r k' r'); auto.
Qed.
Theorem C57_error_is_monotone : forall s p k r k' r', 0 <= k <= k' -> k' < r' -> r' <= r -> 0 <= error s p k r <= error s p k' r'.
Proof.
  intros s p k r k' r' K1 K2 K3. split; [|apply error_mono; auto]. unfold error. apply Rmult_le_pos; [apply Rabs_pos|]. destruct s; cbn [unit_error].
  - apply (Gc_pos p k r). lra.
  - apply Rmult_le_pos; [apply sqrt_pos|]. apply (G_pos p k r). lra.
Qed.
Lemma sum_over_le {A} (l : list A) f g : (forall a, In a l -> f a <= g a) -> sum_over l f <= sum_over l g.
Proof. rewrite !sum_over_rsum. apply rsum_le. Qed.
Theorem C57_multipole_accuracy_uniform : forall p c sources e x a r, (p <= 20)%nat -> multipole_of p c sources e ->
  0 <= a < r -> r <= distance x c -> List.Forall (fun s => distance (position s) c <= a) sources ->
  exists v, m_evaluate e x = Some v /\ Rabs (v - potentials sources x) <= sum_over sources (fun s => error s p a r).
Proof.
  intros p c l e x a r Lp M A R F. rewrite Forall_forall in F. destruct (C57_multipole_accuracy p c l e x Lp M) as (v & E & B).
  - intros ->. assert (Z : distance c c = 0) by (rewrite distance_rho; apply rho_0, psub_0; reflexivity). lra.
  - apply Forall_forall. intros s Hs. specialize (F s Hs). lra.
  - exists v. split; auto. eapply Rle_trans; [exact B|]. apply sum_over_le. intros s Hs. apply error_mono; try lra. split; [apply sqrt_pos|auto].
Qed.
(** The histories exist: every step of the class's interface succeeds. *)
Theorem C57_histories_are_defined : forall p c sources e, (p <= 20)%nat -> multipole_of p c sources e ->
  (forall s, regular c s -> exists e', add_source e s = Some e' /\ multipole_of p c (sources ++ [s]) e') /\
  (forall l' other k, multipole_of p c l' other -> exists e', m_add_scaled e other k = Some e' /\ multipole_of p c (sources ++ map (scale k) l') e') /\
  (forall c' l' other, multipole_of p c' l' other -> movable c' c -> exists e', m_translate e other = Some e' /\ multipole_of p c (sources ++ l') e').
Proof.
  intros p c l e Lp M. assert (Ca := multipole_carries p c l e Lp M). split; [|split].
  - intros s Rg. destruct (carries_source p c l e s Lp Ca Rg) as (e' & A & _). exists e'. split; auto. eapply mo_source; eauto.
  - intros l' other k M'. destruct (carries_scaled p c l e l' other k Ca (multipole_carries _ _ _ _ Lp M')) as (e' & A & _). exists e'. split; auto. eapply mo_scaled; eauto.
  - intros c' l' other M' Mv. destruct (carries_translate p c l e c' l' other Lp Ca (multipole_carries _ _ _ _ Lp M') Mv) as (e' & A & _). exists e'. split; auto. eapply mo_moved; eauto.
Qed.
Lemma sources_multipole p c l0 e l : (p <= 20)%nat -> multipole_of p c l0 e -> List.Forall (regular c) l -> exists e', add_sources e l = Some e' /\ multipole_of p c (l0 ++ l) e'.
Proof.
  intros Lp M F. revert l0 e M. induction F as [|s l Rg F IH]; intros l0 e M.
  - exists e. split; [reflexivity|]. rewrite app_nil_r. auto.
  - destruct (C57_histories_are_defined p c l0 e Lp M) as (A & _). destruct (A s Rg) as (e1 & E1 & M1). destruct (IH _ _ M1) as (e' & E' & M'). exists e'. split.
    + unfold add_sources in *. cbn [fold_left bind]. rewrite E1. exact E'.
    + rewrite <- app_assoc in M'. exact M'.
Qed.
(** The usual history: add the sources about one centre, translate, evaluate. *)
Theorem C57_sources_moved_and_evaluated : forall p c1 c2 sources x, (p <= 20)%nat -> List.Forall (regular c1) sources -> movable c1 c2 -> x <> c2 ->
  List.Forall (fun s => distance (position s) c2 < distance x c2) sources ->
  exists e1 e2 v, add_sources (fresh p c1) sources = Some e1 /\ m_translate (fresh p c2) e1 = Some e2 /\ m_evaluate e2 x = Some v /\
    Rabs (v - potentials sources x) <= sum_over sources (fun s => error s p (distance (position s) c2) (distance x c2)).
Proof.
  intros p c1 c2 l x Lp F Mv Nx Cl. destruct (sources_multipole p c1 [] _ l Lp (mo_new p c1) F) as (e1 & A1 & M1).
  destruct (C57_histories_are_defined p c2 [] _ Lp (mo_new p c2)) as (_ & _ & T). destruct (T c1 l e1 M1 Mv) as (e2 & A2 & M2).
  destruct (C57_multipole_accuracy p c2 l e2 x Lp M2 Nx Cl) as (v & Ev & B). exists e1, e2, v. auto.
Qed.

(** ** C58 *)
(** Inside, at a point that is separated from the sources of every conversion, the value of a local
    expansion differs from the exact potential of all those sources by at most the sum of their bounds. *)
Theorem C58_local_accuracy : forall p c groups e x, (p <= 10)%nat -> local_of p c groups e -> x <> c -> List.Forall (separated x) groups ->
  exists v, l_evaluate e x = Some v /\ Rabs (v - potentials (all_sources groups) x) <= sum_over groups (group_error p x).
Proof. exact local_accuracy. Qed.
Theorem C58_histories_are_defined : forall p c groups e, (p <= 10)%nat -> local_of p c groups e -> List.Forall (fun t => fst (fst t) <> snd (fst t)) groups ->
  (forall c' l m, multipole_of p c' l m -> c' <> c -> exists e', l_convert e m = Some e' /\ local_of p c (groups ++ [(c', c, l)]) e') /\
  (forall c' g' other, local_of p c' g' other -> List.Forall (fun t => fst (fst t) <> snd (fst t)) g' -> movable c' c -> exists e', l_translate e other = Some e' /\ local_of p c (groups ++ g') e').
Proof.
  intros p c g e Lp M F. assert (Ca := local_carries p c g e Lp F M). split.
  - intros c' l m Mm N. destruct (lcarries_convert p c g e c' l m Lp Ca (multipole_carries p c' l m ltac:(lia) Mm) N) as (e' & A & _). exists e'. split; auto. eapply lo_converted; eauto.
  - intros c' g' other M' F' Mv. destruct (lcarries_translate p c g e c' g' other Lp Ca (local_carries _ _ _ _ Lp F' M') Mv) as (e' & A & _). exists e'. split; auto. eapply lo_moved; eauto.
Qed.
(** The whole chain of the fast multipole method for one pair of clusters: add the sources about c1,
    translate to c2, convert to a local expansion about c3, translate to c4, evaluate at x.  All sources are
    within b of c2, x is within a of c3, and c2, c3 are at least r > a + b apart. *)
Theorem C58_far_field_chain : forall p c1 c2 c3 c4 sources x a b r, (p <= 10)%nat -> List.Forall (regular c1) sources -> movable c1 c2 -> movable c3 c4 -> x <> c4 ->
  distance x c3 <= a -> List.Forall (fun s => distance (position s) c2 <= b) sources -> a + b < r -> 0 <= b -> r <= distance c2 c3 ->
  exists e1 e2 l1 l2 v, add_sources (fresh p c1) sources = Some e1 /\ m_translate (fresh p c2) e1 = Some e2 /\ l_convert (fresh p c3) e2 = Some l1 /\
    l_translate (fresh p c4) l1 = Some l2 /\ l_evaluate l2 x = Some v /\
    Rabs (v - potentials sources x) <= INR (p + 1) * sum_over sources (fun s => error s p (a + b) r).
Proof.
  intros p c1 c2 c3 c4 l x a b r Lp F Mv Mv' Nx Da Db Ab B0 Dr. assert (Lp' : (p <= 20)%nat) by lia. rewrite Forall_forall in Db.
  assert (A0 : 0 <= distance x c3) by apply sqrt_pos.
  assert (N23 : c2 <> c3). { intros E. rewrite E in Dr. assert (Z : distance c3 c3 = 0) by (rewrite distance_rho; apply rho_0, psub_0; reflexivity). lra. }
  destruct (sources_multipole p c1 [] _ l Lp' (mo_new p c1) F) as (e1 & A1 & M1).
  destruct (C57_histories_are_defined p c2 [] _ Lp' (mo_new p c2)) as (_ & _ & T). destruct (T c1 l e1 M1 Mv) as (e2 & A2 & M2). cbn [app] in *.
  destruct (C58_histories_are_defined p c3 [] _ Lp (lo_new p c3) ltac:(constructor)) as (Cv & _). destruct (Cv c2 l e2 M2 N23) as (l1 & A3 & M3). cbn [app] in *.
  assert (Fd : List.Forall (fun t : pt * pt * list source => fst (fst t) <> snd (fst t)) [(c2, c3, l)]) by (constructor; [exact N23|constructor]).
  destruct (C58_histories_are_defined p c4 [] _ Lp (lo_new p c4) ltac:(constructor)) as (_ & Tv). destruct (Tv c3 _ l1 M3 Fd Mv') as (l2 & A4 & M4). cbn [app] in *.
  destruct (C58_local_accuracy p c4 _ l2 x Lp M4 Nx) as (v & Ev & B).
  { constructor; [|constructor]. split; [auto|]. apply Forall_forall. intros s Hs. specialize (Db s Hs). lra. }
  exists e1, e2, l1, l2, v. repeat split; auto. unfold all_sources in B. cbn [flat_map snd app] in B. rewrite app_nil_r in B. eapply Rle_trans; [exact B|]. cbn [sum_over group_error]. rewrite Rplus_0_r.
  rewrite !sum_over_rsum. rewrite <- rsum_scal. apply rsum_le. intros s Hs. specialize (Db s Hs). apply Rmult_le_compat_l; [apply pos_INR|]. apply error_mono; try lra.
  assert (Q : 0 <= distance (position s) c2) by apply sqrt_pos. lra.
Qed.
(** Above order 10 the conversion reads outside its table. *)
Theorem C58_beyond_order_10_is_undefined : forall e m, (10 < e_p e)%nat -> e_zero m = false -> l_convert e m = None.
Proof.
  intros e m L Z. unfold l_convert. rewrite Z. destruct (spher (psub (e_center m) (e_center e))) as [[[rho c] beta]|]; [|reflexivity]. cbn [bind].
  rewrite (add_loop_none _ _ _ 11 0); [reflexivity|lia|]. unfold m2l_coeff. apply (osum_none _ _ _ 0%nat); [apply in_seq; lia|]. apply (osum_none _ _ _ 0%Z); [apply sym_in; lia|].
  unfold m2l_term. cbv zeta. destruct (get_coeff m 0 (absn 0)); [|reflexivity]. cbn [bind]. destruct (GetAssLegFunSph _ _ _); [|reflexivity]. cbn [bind]. reflexivity.
Qed.

(** ** A non-trivial case *)
Definition ex_sources : list source := [Charge 2 (Pt 1 0 0); Dipole (-3) (Pt 0 1 0) (Pt 1 1 1)].
Lemma dist_axis a b c d : b = 0 -> c = 0 -> 0 <= d -> a * a = d * d -> sqrt (a * a + b * b + c * c) = d.
Proof. intros -> -> D E. replace (a * a + 0 * 0 + 0 * 0) with (d * d) by lra. apply sqrt_square. auto. Qed.
Example C57_nonvacuous : exists e1 e2 v, add_sources (fresh 7 (Pt 0 0 0)) ex_sources = Some e1 /\ m_translate (fresh 7 (Pt (-1) 0 0)) e1 = Some e2 /\ m_evaluate e2 (Pt 9 0 0) = Some v /\
  Rabs (v - potentials ex_sources (Pt 9 0 0)) <= sum_over ex_sources (fun s => error s 7 (distance (position s) (Pt (-1) 0 0)) (distance (Pt 9 0 0) (Pt (-1) 0 0))).
Proof.
  apply C57_sources_moved_and_evaluated; [lia| | |intros Q; inversion Q; lra|].
  - constructor; [|constructor; [|constructor]]; cbn; right; [intros Q; inversion Q; lra|]. split; [right; lra|intros Q; inversion Q; lra].
  - right. unfold distance, square, psub. cbn. rewrite (dist_axis (0 - -1) (0 - 0) (0 - 0) 1); lra.
  - assert (D : distance (Pt 9 0 0) (Pt (-1) 0 0) = 10) by (unfold distance, square, psub; cbn; apply dist_axis; lra).
    constructor; [|constructor; [|constructor]]; cbn [position]; rewrite D.
    + unfold distance, square, psub. cbn. rewrite (dist_axis (1 - -1) (0 - 0) (0 - 0) 2); lra.
    + unfold distance, square, psub. cbn. apply Rlt_trans with (sqrt (4 * 4)); [apply sqrt_lt_1_alt; lra|]. rewrite sqrt_square; lra.
Qed.
Example C58_nonvacuous : exists e1 e2 l1 l2 v, add_sources (fresh 7 (Pt 0 0 0)) ex_sources = Some e1 /\ m_translate (fresh 7 (Pt (-1) 0 0)) e1 = Some e2 /\ l_convert (fresh 7 (Pt 9 0 0)) e2 = Some l1 /\
  l_translate (fresh 7 (Pt 8 0 0)) l1 = Some l2 /\ l_evaluate l2 (Pt 7 0 0) = Some v /\
  Rabs (v - potentials ex_sources (Pt 7 0 0)) <= INR (7 + 1) * sum_over ex_sources (fun s => error s 7 (2 + 2) 10).
Proof.
  apply C58_far_field_chain; try lra; try lia.
  - constructor; [|constructor; [|constructor]]; cbn; right; [intros Q; inversion Q; lra|]. split; [right; lra|intros Q; inversion Q; lra].
  - right. unfold distance, square, psub. cbn. rewrite (dist_axis (0 - -1) (0 - 0) (0 - 0) 1); lra.
  - right. unfold distance, square, psub. cbn. rewrite (dist_axis (9 - 8) (0 - 0) (0 - 0) 1); lra.
  - intros Q; inversion Q; lra.
  - right. unfold distance, square, psub. cbn. apply dist_axis; lra.
  - constructor; [|constructor; [|constructor]]; cbn [position].
    + right. unfold distance, square, psub. cbn. apply dist_axis; lra.
    + unfold distance, square, psub. cbn. apply Rle_trans with (sqrt (2 * 2)); [apply sqrt_le_1_alt; lra|]. rewrite sqrt_square; lra.
  - right. symmetry. unfold distance, square, psub. cbn. apply dist_axis; lra.
Qed.
