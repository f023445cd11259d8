(** * Projected normals and gradients of a moved mesh (C76). *)
From Coq Require Import Reals List Lia Lra Arith Bool.
From Verif Require Import LibSum ModelProj SpecProj ProofsProj PropProj SpecUnits.
Import ListNotations.
Local Open Scope R_scope.

(** the projection on the moved mesh: areas multiplied by a, everything else the same *)
Definition moved_projection (a : R) (P : projection) : projection :=
  {| p_dofs := p_dofs P; p_cells := p_cells P; p_cdofs := p_cdofs P; p_comp := p_comp P; p_points := p_points P;
     p_shape := p_shape P; p_jxw := fun c q => a * p_jxw P c q; p_sub := p_sub P; p_con := p_con P |}.
(** T turns the dof values of a field so that the field itself is turned by A: exists when the components use the same
    scalar element and the same constraints *)
Definition turns (P : projection) (dim : nat) (A : nat -> nat -> R) (T : (nat -> R) -> nat -> R) : Prop := forall y c q k,
  (c < p_cells P)%nat -> (q < p_points P)%nat -> (k < dim)%nat -> value P (distribute P (T y)) c q k = turned dim A (value P (distribute P y) c q) k.
Definition transposed (A : nat -> nat -> R) : nat -> nat -> R := fun i j => A j i.

Lemma dot_transposed dim A u v : suml (seq 0 dim) (fun k => u k * turned dim A v k) = suml (seq 0 dim) (fun k => turned dim (transposed A) u k * v k).
Proof.
  unfold turned, transposed. rewrite (suml_ext (seq 0 dim) _ (fun k => suml (seq 0 dim) (fun j => u k * (A k j * v j)))) by (intros; rewrite suml_scal; reflexivity).
  rewrite suml_swap. apply suml_ext. intros j _. rewrite (suml_ext (seq 0 dim) (fun k => u k * (A k j * v j)) (fun k => v j * (A k j * u k))) by (intros; ring). rewrite suml_scal. ring.
Qed.
Lemma turned_minus dim A u v k : turned dim A (fun j => u j - v j) k = turned dim A u k - turned dim A v k.
Proof.
  unfold turned. rewrite (suml_ext _ (fun j => A k j * (u j - v j)) (fun j => A k j * u j + (-1) * (A k j * v j))) by (intros; ring). rewrite suml_plus, suml_scal. ring.
Qed.
Lemma value_scal P f y c q k : value P (distribute P (fun d => f * y d)) c q k = f * value P (distribute P y) c q k.
Proof.
  unfold value, distribute. rewrite <- suml_scal. apply suml_ext. intros i _. destruct (Nat.eqb _ _); [|ring].
  rewrite (suml_ext _ _ (fun ew => f * (snd ew * y (fst ew)))) by (intros; ring). rewrite suml_scal. ring.
Qed.
Lemma inner_moved a P dim u v : inner (moved_projection a P) dim u v = a * inner P dim u v.
Proof.
  unfold inner. cbn [moved_projection p_cells p_points p_jxw]. rewrite <- suml_scal. apply suml_ext. intros c _. rewrite <- suml_scal. apply suml_ext. intros q _. ring.
Qed.
Lemma inner_ext P dim u u' v v' : (forall c q k, (c < p_cells P)%nat -> (q < p_points P)%nat -> (k < dim)%nat -> u c q k = u' c q k) ->
  (forall c q k, (c < p_cells P)%nat -> (q < p_points P)%nat -> (k < dim)%nat -> v c q k = v' c q k) -> inner P dim u v = inner P dim u' v'.
Proof.
  intros U V. unfold inner. apply suml_ext. intros c Hc. apply in_seq in Hc. apply suml_ext. intros q Hq. apply in_seq in Hq. f_equal. apply suml_ext. intros k Hk. apply in_seq in Hk. rewrite U, V by lia. reflexivity.
Qed.
Lemma moved_solves a f P dim np A T T' G G' x : well_formed P dim np -> turns P dim A T -> turns P dim (transposed A) T' ->
  (forall c q k, (c < p_cells P)%nat -> (q < p_points P)%nat -> (k < dim)%nat -> G' c q k = f * turned dim A (G c q) k) ->
  solves P G np x -> solves (moved_projection a P) G' np (fun d => f * T x d).
Proof.
  intros W HT HT' HG X. assert (W' : well_formed (moved_projection a P) dim np) by exact W.
  apply (C61_projection_is_the_weak_form _ dim np W'). intros y. rewrite inner_moved.
  change (value (moved_projection a P)) with (value P). change (distribute (moved_projection a P)) with (distribute P).
  assert (E := proj1 (C61_projection_is_the_weak_form P dim np W G x) X (T' y)).
  transitivity (a * (f * inner P dim (value P (distribute P (T' y))) (fun c q k => value P (distribute P x) c q k - G c q k))); [f_equal|rewrite E; ring].
  unfold inner. rewrite <- suml_scal. apply suml_ext. intros c Hc. apply in_seq in Hc. rewrite <- suml_scal. apply suml_ext. intros q Hq. apply in_seq in Hq.
  transitivity (p_jxw P c q * (f * suml (seq 0 dim) (fun k => value P (distribute P y) c q k * turned dim A (fun j => value P (distribute P x) c q j - G c q j) k))).
  - f_equal. rewrite <- suml_scal. apply suml_ext. intros k Hk. apply in_seq in Hk. rewrite value_scal, HT, HG, turned_minus by lia. ring.
  - rewrite dot_transposed. rewrite (suml_ext _ (fun k => value P (distribute P (T' y)) c q k * (value P (distribute P x) c q k - G c q k)) (fun k => turned dim (transposed A) (value P (distribute P y) c q) k * (value P (distribute P x) c q k - G c q k))).
    + ring.
    + intros k Hk. apply in_seq in Hk. rewrite HT' by lia. reflexivity.
Qed.
(** The projection of the turned and scaled field on the moved mesh is the turned and scaled projection, everywhere on
    the surface: f = 1 for normals, f = 1/s for gradients ... *)
Theorem C76_projected_fields_turn_with_the_mesh : forall a f P dim np A T T' G G' x x', 0 < a -> well_formed P dim np ->
  (forall c q, (c < p_cells P)%nat -> (q < p_points P)%nat -> 0 < p_jxw P c q) -> turns P dim A T -> turns P dim (transposed A) T' ->
  (forall c q k, (c < p_cells P)%nat -> (q < p_points P)%nat -> (k < dim)%nat -> G' c q k = f * turned dim A (G c q) k) ->
  solves P G np x -> solves (moved_projection a P) G' np x' ->
  forall c q k, (c < p_cells P)%nat -> (q < p_points P)%nat -> (k < dim)%nat ->
    value P (distribute P x') c q k = f * turned dim A (value P (distribute P x) c q) k.
Proof.
  intros a f P dim np A T T' G G' x x' Ha W J HT HT' HG X X' c q k Hc Hq Hk.
  assert (Z := moved_solves a f P dim np A T T' G G' x W HT HT' HG X).
  rewrite <- HT, <- value_scal by auto.
  refine (C61_projection_is_local (moved_projection a P) dim np W (fun _ => true) G' G' x' (fun d => f * T x d) _ _ _ X' Z c q k Hc eq_refl Hq Hk); auto.
  - intros c' q' Hc' Hq'. cbn [moved_projection p_jxw]. apply Rmult_lt_0_compat; auto.
  - intros ? ? ? ? ? ? _ F. discriminate F.
Qed.
(** ... and so are its nodal values when the quadrature determines a finite element field. *)
Theorem C76_nodal_values_turn_with_the_mesh : forall a f P dim np A T T' G G' x x', 0 < a -> well_formed P dim np ->
  (forall c q, (c < p_cells P)%nat -> (q < p_points P)%nat -> 0 < p_jxw P c q) -> unisolvent P dim (fun _ => true) -> turns P dim A T -> turns P dim (transposed A) T' ->
  (forall c q k, (c < p_cells P)%nat -> (q < p_points P)%nat -> (k < dim)%nat -> G' c q k = f * turned dim A (G c q) k) ->
  solves P G np x -> solves (moved_projection a P) G' np x' ->
  forall c i, (c < p_cells P)%nat -> (i < length (p_cdofs P c))%nat -> distribute P x' (gdof P c i) = f * distribute P (T x) (gdof P c i).
Proof.
  intros a f P dim np A T T' G G' x x' Ha W J U HT HT' HG X X' c i Hc Hi.
  assert (Z := moved_solves a f P dim np A T T' G G' x W HT HT' HG X).
  transitivity (distribute P (fun d => f * T x d) (gdof P c i)).
  - refine (C61_projection_is_unique (moved_projection a P) dim np W G' x' (fun d => f * T x d) _ U X' Z c i Hc Hi).
    intros c' q' Hc' Hq'. cbn [moved_projection p_jxw]. apply Rmult_lt_0_compat; auto.
  - unfold distribute. rewrite <- suml_scal. apply suml_ext. intros; ring.
Qed.
(** the gradient field of a scaled and turned potential problem, with the fluxes in the new unit *)
Theorem C76_gradient_field_in_other_units : forall s A dim n n' dn dn' sg sg' c q k, 0 < s ->
  (forall j, (j < dim)%nat -> n' c q j = turned dim A (n c q) j) -> (forall j, (j < dim)%nat -> sg' c q j = / s * turned dim A (sg c q) j) -> dn' c q = dn c q / s -> (k < dim)%nat ->
  gradient_field n' dn' sg' c q k = / s * turned dim A (gradient_field n dn sg c q) k.
Proof.
  intros s A dim n n' dn dn' sg sg' c q k Hs Hn Hg Hd Hk. unfold gradient_field. rewrite Hn, Hg, Hd by auto. unfold turned.
  rewrite (suml_ext _ (fun j => A k j * (n c q j * dn c q + sg c q j)) (fun j => dn c q * (A k j * n c q j) + A k j * sg c q j)) by (intros; ring).
  rewrite suml_plus, suml_scal. unfold Rdiv. ring.
Qed.

(** ** Concrete case: one cell, two points, two components with two linear functions each, dof 4 c + 2 component + function *)
Definition pu_ex : projection := {|
  p_dofs := 4; p_cells := 1; p_cdofs := fun _ => [0; 1; 2; 3]%nat; p_comp := fun i => (i / 2)%nat mod 2; p_points := 2;
  p_shape := fun _ i q => if Nat.eqb (i mod 2) q then 1 else 0; p_jxw := fun _ q => 1 + INR q; p_sub := fun _ => 0%nat; p_con := fun d => [(d, 1)] |}.
Definition pu_turn (A : nat -> nat -> R) (y : nat -> R) (d : nat) : R := A (d / 2)%nat 0%nat * y (d mod 2)%nat + A (d / 2)%nat 1%nat * y (2 + d mod 2)%nat.
Example C76_projection_nonvacuous : forall A, well_formed pu_ex 2 1 /\ turns pu_ex 2 A (pu_turn A) /\ unisolvent pu_ex 2 (fun _ => true) /\
  (forall c q, (c < p_cells pu_ex)%nat -> (q < p_points pu_ex)%nat -> 0 < p_jxw pu_ex c q).
Proof.
  intros A. split; [|split; [|split]].
  - split; [intros; cbn; lia|]. split; [intros i; cbn [pu_ex p_comp]; apply Nat.mod_upper_bound; lia|]. intros c i Hc Hi ew He. cbn [pu_ex p_con p_dofs p_cdofs gdof length] in *. destruct He as [<-|[]]. cbn [fst].
    unfold gdof. cbn [p_cdofs pu_ex]. do 4 (destruct i as [|i]; [cbn; lia|]). lia.
  - intros y c q k Hc Hq Hk. cbn in Hc, Hq. destruct q as [|[|q]]; try lia; destruct k as [|[|k]]; try lia; unfold value, distribute, turned, suml, pu_turn; cbn; ring.
  - intros x V c i Hc _ Hi. assert (V00 := V c 0%nat 0%nat Hc eq_refl ltac:(cbn; lia) ltac:(lia)). assert (V01 := V c 0%nat 1%nat Hc eq_refl ltac:(cbn; lia) ltac:(lia)).
    assert (V10 := V c 1%nat 0%nat Hc eq_refl ltac:(cbn; lia) ltac:(lia)). assert (V11 := V c 1%nat 1%nat Hc eq_refl ltac:(cbn; lia) ltac:(lia)).
    unfold value, suml in *. cbn in *. do 4 (destruct i as [|i]; [cbn; lra|]). lia.
  - intros c q _ _. cbn. assert (P := pos_INR q). lra.
Qed.
