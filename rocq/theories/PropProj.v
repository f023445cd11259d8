(** * C61: nodal normals, surface gradients and gradients are L2 projections. *)
From Coq Require Import Reals List Arith Bool Lia Lra.
From Verif Require Import LibSum ModelProj SpecProj ProofsProj.
Import ListNotations.
Local Open Scope R_scope.

(** the projected vector solves the weak form against every admissible finite element field *)
Theorem C61_projection_is_the_weak_form P dim np (W : well_formed P dim np) G x :
  solves P G np x <-> forall y, inner P dim (value P (distribute P y)) (fun c q k => value P (distribute P x) c q k - G c q k) = 0.
Proof. exact (galerkin P dim np W G x). Qed.

(** no admissible finite element field is closer to the projected field *)
Theorem C61_projection_is_the_best_approximation P dim np (W : well_formed P dim np) G x :
  (forall c q, (c < p_cells P)%nat -> (q < p_points P)%nat -> 0 <= p_jxw P c q) -> solves P G np x -> forall y,
  let dist z := inner P dim (fun c q k => value P (distribute P z) c q k - G c q k) (fun c q k => value P (distribute P z) c q k - G c q k) in
  dist x <= dist y.
Proof.
  intros J Hs y dist. unfold dist.
  assert (E := proj1 (galerkin P dim np W G x) Hs (fun d => 1 * y d + (-1) * x d)).
  assert (N := sq_nonneg P dim (fun c q k => value P (distribute P (fun d => 1 * y d + (-1) * x d)) c q k) J).
  assert (X : inner P dim (fun c q k => value P (distribute P y) c q k - G c q k) (fun c q k => value P (distribute P y) c q k - G c q k) =
    inner P dim (fun c q k => value P (distribute P x) c q k - G c q k) (fun c q k => value P (distribute P x) c q k - G c q k) +
    2 * inner P dim (value P (distribute P (fun d => 1 * y d + (-1) * x d))) (fun c q k => value P (distribute P x) c q k - G c q k) +
    sq P dim (fun c q k => value P (distribute P (fun d => 1 * y d + (-1) * x d)) c q k)).
  { unfold sq, inner. rewrite <- suml_scal, <- !suml_plus. apply suml_ext. intros c _. rewrite <- suml_scal, <- !suml_plus. apply suml_ext. intros q _.
    replace (2 * (p_jxw P c q * suml (seq 0 dim) (fun k => value P (distribute P (fun d => 1 * y d + -1 * x d)) c q k * (value P (distribute P x) c q k - G c q k))))
      with (p_jxw P c q * (2 * suml (seq 0 dim) (fun k => value P (distribute P (fun d => 1 * y d + -1 * x d)) c q k * (value P (distribute P x) c q k - G c q k)))) by ring.
    rewrite <- !Rmult_plus_distr_l. f_equal. rewrite <- suml_scal, <- !suml_plus. apply suml_ext. intros k _. rewrite (value_dist_lin P 1 y (-1) x). ring. }
  rewrite X, E. lra.
Qed.

(** the values of a projection on a part of the surface that shares no unconstrained dof with the rest
    depend only on the field on that part *)
Theorem C61_projection_is_local P dim np (W : well_formed P dim np) (t : nat -> bool) G G' x x' :
  (forall c q, (c < p_cells P)%nat -> (q < p_points P)%nat -> 0 < p_jxw P c q) -> separated P t ->
  (forall c q k, (c < p_cells P)%nat -> t c = true -> (q < p_points P)%nat -> (k < dim)%nat -> G c q k = G' c q k) ->
  solves P G np x -> solves P G' np x' ->
  forall c q k, (c < p_cells P)%nat -> t c = true -> (q < p_points P)%nat -> (k < dim)%nat ->
    value P (distribute P x) c q k = value P (distribute P x') c q k.
Proof. exact (local_projection P dim np W t G G' x x'). Qed.
(** ... and so do the dof values when the quadrature determines a finite element field on each cell *)
Theorem C61_nodal_values_are_local P dim np (W : well_formed P dim np) (t : nat -> bool) G G' x x' :
  (forall c q, (c < p_cells P)%nat -> (q < p_points P)%nat -> 0 < p_jxw P c q) -> separated P t -> unisolvent P dim t ->
  (forall c q k, (c < p_cells P)%nat -> t c = true -> (q < p_points P)%nat -> (k < dim)%nat -> G c q k = G' c q k) ->
  solves P G np x -> solves P G' np x' ->
  forall c i, (c < p_cells P)%nat -> t c = true -> (i < length (p_cdofs P c))%nat -> distribute P x (gdof P c i) = distribute P x' (gdof P c i).
Proof.
  intros J S U E X X' c i Hc Ht Hi.
  enough (Z : (fun d => 1 * distribute P x d + (-1) * distribute P x' d) (gdof P c i) = 0) by (cbn beta in Z; lra).
  refine (U (fun d => 1 * distribute P x d + (-1) * distribute P x' d) _ c i Hc Ht Hi). intros c' q k Hc' Ht' Hq Hk. rewrite value_lin, (C61_projection_is_local P dim np W t G G' x x' J S E X X' c' q k Hc' Ht' Hq Hk). ring.
Qed.
(** a field that is a finite element field on such a part is reproduced there *)
Theorem C61_finite_element_fields_reproduced P dim np (W : well_formed P dim np) (t : nat -> bool) G z x :
  (forall c q, (c < p_cells P)%nat -> (q < p_points P)%nat -> 0 < p_jxw P c q) -> separated P t -> unisolvent P dim t ->
  (forall c q k, (c < p_cells P)%nat -> t c = true -> (q < p_points P)%nat -> (k < dim)%nat -> G c q k = value P (distribute P z) c q k) ->
  solves P G np x ->
  forall c i, (c < p_cells P)%nat -> t c = true -> (i < length (p_cdofs P c))%nat -> distribute P x (gdof P c i) = distribute P z (gdof P c i).
Proof.
  intros J S U E X. apply (C61_nodal_values_are_local P dim np W t G (value P (distribute P z)) x z J S U E X).
  apply (galerkin P dim np W). intros y. unfold inner. apply suml_zero. intros c _. apply suml_zero. intros q _. rewrite (suml_zero (seq 0 dim)); [ring|]. intros k _. ring.
Qed.
(** two solutions of the projection have the same nodal values *)
Theorem C61_projection_is_unique P dim np (W : well_formed P dim np) G x x' :
  (forall c q, (c < p_cells P)%nat -> (q < p_points P)%nat -> 0 < p_jxw P c q) -> unisolvent P dim (fun _ => true) ->
  solves P G np x -> solves P G np x' ->
  forall c i, (c < p_cells P)%nat -> (i < length (p_cdofs P c))%nat -> distribute P x (gdof P c i) = distribute P x' (gdof P c i).
Proof.
  intros J U X X' c i Hc Hi. refine (C61_nodal_values_are_local P dim np W (fun _ => true) G G x x' J _ U _ X X' c i Hc eq_refl Hi); [|reflexivity]. intros ? ? ? ? ? ? _ F. discriminate F.
Qed.

(** the assembled system does not depend on how the cells are divided among the processes *)
Theorem C61_partition_independent P dim np np' s G : well_formed P dim np -> (forall c, (c < p_cells P)%nat -> (s c < np')%nat) ->
  (forall d e, matrix_entry (with_sub P s) np' d e = matrix_entry P np d e) /\ (forall d, rhs_entry (with_sub P s) G np' d = rhs_entry P G np d).
Proof.
  intros W S. assert (W' : well_formed (with_sub P s) dim np') by (destruct W as (W1 & W2 & W3); split; [exact S|split; [exact W2|exact W3]]).
  split; intros; unfold matrix_entry, rhs_entry, matrix_adds, rhs_adds.
  - rewrite (over_processes (with_sub P s) dim np' W'), (over_processes P dim np W). reflexivity.
  - rewrite (over_processes (with_sub P s) dim np' W'), (over_processes P dim np W). reflexivity.
Qed.

(** the field projected by compute_gradients: normal part dphi_dn, tangential part the surface gradient of phi *)
Theorem C61_gradient_field_parts n dn sg c q dim : suml (seq 0 dim) (fun k => n c q k * n c q k) = 1 -> suml (seq 0 dim) (fun k => sg c q k * n c q k) = 0 ->
  let g := gradient_field n dn sg in let gn := suml (seq 0 dim) (fun k => g c q k * n c q k) in
  gn = dn c q /\ forall k, g c q k - gn * n c q k = sg c q k.
Proof.
  intros N S g gn. assert (E : gn = dn c q).
  { unfold gn, g, gradient_field. rewrite (suml_ext _ _ (fun k => dn c q * (n c q k * n c q k) + sg c q k * n c q k)) by (intros; ring). rewrite suml_plus, suml_scal, N, S. ring. }
  split; [exact E|]. intros k. rewrite E. unfold g, gradient_field. ring.
Qed.
(** phi with constant gradient a: the recovered nodal gradient is a, for every geometry, when the element holds the constants *)
Theorem C61_gradient_of_a_linear_potential P dim np (W : well_formed P dim np) (a : nat -> R) n dn sg z x :
  (forall c q, (c < p_cells P)%nat -> (q < p_points P)%nat -> 0 < p_jxw P c q) -> unisolvent P dim (fun _ => true) ->
  (forall c q k, (c < p_cells P)%nat -> (q < p_points P)%nat -> (k < dim)%nat -> value P (distribute P z) c q k = a k) ->
  (forall c q, (c < p_cells P)%nat -> (q < p_points P)%nat -> dn c q = suml (seq 0 dim) (fun k => a k * n c q k)) ->
  (forall c q k, (c < p_cells P)%nat -> (q < p_points P)%nat -> (k < dim)%nat -> sg c q k = a k - suml (seq 0 dim) (fun j => a j * n c q j) * n c q k) ->
  solves P (gradient_field n dn sg) np x ->
  forall c i, (c < p_cells P)%nat -> (i < length (p_cdofs P c))%nat -> distribute P x (gdof P c i) = distribute P z (gdof P c i).
Proof.
  intros J U Z Hn Hs X c i Hc Hi. refine (C61_finite_element_fields_reproduced P dim np W (fun _ => true) (gradient_field n dn sg) z x J _ U _ X c i Hc eq_refl Hi).
  - intros ? ? ? ? ? ? _ F. discriminate F.
  - intros c' q k Hc' _ Hq Hk. rewrite Z by auto. unfold gradient_field. rewrite Hn, Hs by auto. ring.
Qed.
(** on a flat part that shares no dof with the rest the nodal normals are the normal of the plane *)
Theorem C61_flat_parts_have_exact_normals P dim np (W : well_formed P dim np) (t : nat -> bool) (a : nat -> R) n z x :
  (forall c q, (c < p_cells P)%nat -> (q < p_points P)%nat -> 0 < p_jxw P c q) -> separated P t -> unisolvent P dim t ->
  (forall c q k, (c < p_cells P)%nat -> t c = true -> (q < p_points P)%nat -> (k < dim)%nat -> value P (distribute P z) c q k = a k) ->
  (forall c q k, (c < p_cells P)%nat -> t c = true -> (q < p_points P)%nat -> (k < dim)%nat -> n c q k = a k) ->
  solves P (normals_field n) np x ->
  forall c i, (c < p_cells P)%nat -> t c = true -> (i < length (p_cdofs P c))%nat -> distribute P x (gdof P c i) = distribute P z (gdof P c i).
Proof.
  intros J S U Z Hn X. apply (C61_finite_element_fields_reproduced P dim np W t (normals_field n) z x J S U); auto.
  intros c q k Hc Ht Hq Hk. rewrite Z by auto. apply Hn; auto.
Qed.

(** non-vacuity: two straight cells in the plane meeting at a right angle with a doubled node, linear vector element,
    the second dof of the first cell hanging halfway between two others *)
Definition ex_proj : projection := {|
  p_dofs := 10; p_cells := 2; p_cdofs := fun c => match c with O => [0; 1; 2; 3] | _ => [4; 5; 6; 7] end%nat;
  p_comp := fun i => Nat.modulo i 2; p_points := 2;
  p_shape := fun _ i q => if Nat.eqb (Nat.div2 i) q then 3/4 else 1/4;
  p_jxw := fun _ _ => 1/2; p_sub := fun c => c;
  p_con := fun d => if Nat.eqb d 1 then [(3%nat, 1/2); (9%nat, 1/2)] else [(d, 1)] |}.
Definition ex_const (d : nat) : R := if Nat.even d then 1 else 2.
Lemma ex_proj_wf : well_formed ex_proj 2 2.
Proof.
  split; [intros c Hc; exact Hc|]. split; [intros i; apply Nat.mod_upper_bound; lia|].
  intros c i Hc Hi ew He. cbn in Hc. destruct c as [|[|c]]; [| |lia]; cbn in Hi;
    (do 4 (destruct i as [|i]; [cbn in He; intuition (subst; cbn; lia)|])); lia.
Qed.
Lemma ex_proj_uni t : unisolvent ex_proj 2 t.
Proof.
  intros x V c i Hc Ht Hi. cbn in Hc.
  assert (V00 := V c 0%nat 0%nat Hc Ht ltac:(cbn; lia) ltac:(lia)). assert (V01 := V c 0%nat 1%nat Hc Ht ltac:(cbn; lia) ltac:(lia)).
  assert (V10 := V c 1%nat 0%nat Hc Ht ltac:(cbn; lia) ltac:(lia)). assert (V11 := V c 1%nat 1%nat Hc Ht ltac:(cbn; lia) ltac:(lia)).
  destruct c as [|[|c]]; [| |lia]; unfold value, locals, suml, gdof in *; cbn in V00, V01, V10, V11, Hi;
    (do 4 (destruct i as [|i]; [cbn; lra|])); lia.
Qed.
Example C61_nonvacuous :
  well_formed ex_proj 2 2 /\ separated ex_proj (Nat.eqb 0) /\ unisolvent ex_proj 2 (Nat.eqb 0) /\
  (forall c q, (c < 2)%nat -> (q < 2)%nat -> 0 < p_jxw ex_proj c q) /\
  (forall c q k, (c < 2)%nat -> (q < 2)%nat -> (k < 2)%nat -> value ex_proj (distribute ex_proj ex_const) c q k = INR (S k)) /\
  solves ex_proj (fun _ _ k => INR (S k)) 2 ex_const /\
  (exists d e, matrix_entry ex_proj 2 d e <> 0).
Proof.
  assert (Vc : forall c q k, (c < 2)%nat -> (q < 2)%nat -> (k < 2)%nat -> value ex_proj (distribute ex_proj ex_const) c q k = INR (S k)).
  { intros c q k Hc Hq Hk. destruct c as [|[|c]]; [| |lia]; (destruct q as [|[|q]]; [| |lia]); (destruct k as [|[|k]]; [| |lia]);
      unfold value, distribute, locals, suml, gdof, ex_const; cbn; lra. }
  split; [exact ex_proj_wf|]. split; [|split; [apply ex_proj_uni|split; [intros; cbn; lra|split; [exact Vc|split]]]].
  - intros c c' i j Hc Hc' Ht Ht' Hi Hj ew ew' He He'. cbn in Hc, Hc'. destruct c as [|[|c]]; [|discriminate|lia]. destruct c' as [|[|c']]; [discriminate| |lia].
    cbn in Hi, Hj. (do 4 (destruct i as [|i]; [(do 4 (destruct j as [|j]; [cbn in He, He'; repeat match goal with X : _ \/ _ |- _ => destruct X as [<-|X] | X : False |- _ => destruct X end; cbn; lia|])); lia|])); lia.
  - apply (galerkin ex_proj 2 2 ex_proj_wf). intros y. unfold inner. apply suml_zero. intros c Hc. apply suml_zero. intros q Hq. rewrite (suml_zero (seq 0 2)); [ring|]. intros k Hk.
    apply in_seq in Hc, Hq, Hk. cbn in Hc, Hq. rewrite Vc by lia. ring.
  - exists 4%nat, 4%nat. unfold matrix_entry, matrix_adds, local_matrix, suml. cbn. lra.
Qed.
