(** * Units and placement of the mesh (C76). *)
From Coq Require Import Reals List Lia Lra Arith Bool.
From Verif Require Import LibSum ModelOctree ModelFmm ModelAssemble ModelRules ModelBem ModelSolve SpecSolve ProofsSolve PropSolve SpecUnits ProofsFmmDirect ProofsBem PropBem.
From Verif Require ModelKernel.
Import ListNotations.
Local Open Scope R_scope.

Lemma suml3 f : suml (seq 0 3) f = f 0%nat + f 1%nat + f 2%nat.
Proof. unfold suml. cbn. ring. Qed.
Lemma suml2 f : suml (seq 0 2) f = f 0%nat + f 1%nat.
Proof. unfold suml. cbn. ring. Qed.

(** ** the entries *)
Lemma entry_local I K S owned i d : (i < o_nd I)%nat -> owned i = true ->
  entry (assemble_adds I K S owned) i d =
  suml (seq 0 (o_nc I)) (fun c => suml (seq 0 (length (o_cdofs I c))) (fun j => if Nat.eqb (nth j (o_cdofs I c) 0%nat) d then local_row I K S i c j else 0)).
Proof.
  intros Hi Ho. rewrite entry_sum. unfold assemble_adds. rewrite suml_flat_map. apply suml_ext. intros c _. rewrite suml_flat_map, suml_seq, (sumn_single _ i); auto.
  - rewrite Ho, suml_map. apply suml_ext. intros j _. cbn [fst snd]. rewrite Nat.eqb_refl. reflexivity.
  - intros k Hk Nk. destruct (owned k); [|reflexivity]. rewrite suml_map. apply suml_zero. intros j _. cbn [fst snd]. apply Nat.eqb_neq in Nk. rewrite Nk. reflexivity.
Qed.
Lemma local_row_sum I K S i c j : local_row I K S i c j =
  match singular_index I i c with
  | None => suml (quads_of_cell I c) (fun q => kd K i q * shp K q j * jxw K q)
  | Some idx => suml (seq 0 (sr_n S idx)) (fun q => sr_kernel S i c idx q * sr_shape S idx q j * sr_jxw S c idx q)
  end.
Proof. unfold local_row, singular_row. cbn [aadd amul exact_arith]. destruct (singular_index I i c); rewrite fold_left_plus; ring. Qed.
Lemma quads_lt I c q : (c < o_nc I)%nat -> In q (quads_of_cell I c) -> (q < o_nq I)%nat.
Proof. intros Hc Hq. unfold quads_of_cell in Hq. apply in_seq in Hq. unfold o_nq. assert ((c * o_nqc I + o_nqc I <= o_nc I * o_nqc I)%nat); [|lia]. replace (c * o_nqc I + o_nqc I)%nat with (S c * o_nqc I)%nat by lia. apply Nat.mul_le_mono_r. lia. Qed.

(** kernels of a scaled and turned difference *)
Lemma turn_dot dim A u v : orthogonal dim A -> (dim = 2 \/ dim = 3)%nat -> suml (seq 0 dim) (fun k => turned dim A u k * turned dim A v k) = suml (seq 0 dim) (fun k => u k * v k).
Proof.
  intros O [-> | ->].
  - assert (O00 := O 0%nat 0%nat ltac:(lia) ltac:(lia)). assert (O01 := O 0%nat 1%nat ltac:(lia) ltac:(lia)). assert (O11 := O 1%nat 1%nat ltac:(lia) ltac:(lia)).
    unfold turned. rewrite !suml2 in *. cbn [Nat.eqb] in *. 
    set (a := A 0%nat 0%nat) in *; set (b := A 0%nat 1%nat) in *; set (d := A 1%nat 0%nat) in *; set (e := A 1%nat 1%nat) in *.
    transitivity ((a * a + d * d) * (u 0%nat * v 0%nat) + (a * b + d * e) * (u 0%nat * v 1%nat + u 1%nat * v 0%nat) + (b * b + e * e) * (u 1%nat * v 1%nat)); [ring|].
    rewrite O00, O01, O11. ring.
  - assert (O00 := O 0%nat 0%nat ltac:(lia) ltac:(lia)). assert (O01 := O 0%nat 1%nat ltac:(lia) ltac:(lia)). assert (O02 := O 0%nat 2%nat ltac:(lia) ltac:(lia)).
    assert (O11 := O 1%nat 1%nat ltac:(lia) ltac:(lia)). assert (O12 := O 1%nat 2%nat ltac:(lia) ltac:(lia)). assert (O22 := O 2%nat 2%nat ltac:(lia) ltac:(lia)).
    unfold turned. rewrite !suml3 in *. cbn [Nat.eqb] in *.
    set (a := A 0%nat 0%nat) in *; set (b := A 0%nat 1%nat) in *; set (c := A 0%nat 2%nat) in *; set (d := A 1%nat 0%nat) in *; set (e := A 1%nat 1%nat) in *; set (f := A 1%nat 2%nat) in *;
    set (g := A 2%nat 0%nat) in *; set (h := A 2%nat 1%nat) in *; set (m := A 2%nat 2%nat) in *.
    transitivity ((a * a + d * d + g * g) * (u 0%nat * v 0%nat) + (a * b + d * e + g * h) * (u 0%nat * v 1%nat + u 1%nat * v 0%nat) + (a * c + d * f + g * m) * (u 0%nat * v 2%nat + u 2%nat * v 0%nat)
      + (b * b + e * e + h * h) * (u 1%nat * v 1%nat) + (b * c + e * f + h * m) * (u 1%nat * v 2%nat + u 2%nat * v 1%nat) + (c * c + f * f + m * m) * (u 2%nat * v 2%nat)); [ring|].
    rewrite O00, O01, O02, O11, O12, O22. ring.
Qed.
Lemma dotn_sum dim u v : dotn dim u v = suml (seq 0 dim) (fun k => u k * v k).
Proof. unfold dotn. rewrite fold_left_plus. ring. Qed.
Lemma square_sum dim v : ModelKernel.square dim v = suml (seq 0 dim) (fun k => v k * v k).
Proof. unfold ModelKernel.square. rewrite fold_left_plus. ring. Qed.
Lemma norm_scaled dim s A r r' : 0 < s -> orthogonal dim A -> (dim = 2 \/ dim = 3)%nat -> (forall k, (k < dim)%nat -> r' k = s * turned dim A r k) ->
  ModelKernel.norm dim r' = s * ModelKernel.norm dim r.
Proof.
  intros Hs O D E. unfold ModelKernel.norm. rewrite !square_sum.
  rewrite (suml_ext _ _ (fun k => (s * s) * (turned dim A r k * turned dim A r k))) by (intros k Hk; apply in_seq in Hk; rewrite E by lia; ring).
  rewrite suml_scal, turn_dot by auto. rewrite sqrt_mult_alt by nra. rewrite sqrt_square by lra. reflexivity.
Qed.
Lemma difference_image dim s A t x x' y y' : (dim = 2 \/ dim = 3)%nat -> image dim s A t x x' -> image dim s A t y y' ->
  forall k, (k < dim)%nat -> difference x' y' k = s * turned dim A (difference x y) k.
Proof. intros D X Y k Hk. unfold difference. rewrite (X k Hk), (Y k Hk). unfold turned. destruct D as [-> | ->]; rewrite ?suml2, ?suml3; ring. Qed.

Lemma double_layer_image dim s A t x x' n n' y y' : 0 < s -> orthogonal dim A -> (dim = 2 \/ dim = 3)%nat -> image dim s A t x x' -> image dim s A t y y' ->
  (forall k, (k < dim)%nat -> n' k = turned dim A n k) ->
  s ^ (dim - 1) * point_kernel dim neumann_matrix x' n' y' = point_kernel dim neumann_matrix x n y.
Proof.
  intros Hs O D X Y Nn. assert (E := difference_image dim s A t x x' y y' D X Y). assert (N := norm_scaled dim s A (difference x y) (difference x' y') Hs O D E).
  cbn [point_kernel]. rewrite !dotn_sum.
  assert (T := turn_dot dim A (difference x y) n O D).
  assert (Si : s * / s = 1) by (field; lra).
  destruct D as [-> | ->]; unfold kernel_D; cbn [Nat.eqb].
  - unfold ModelKernel.kernels2_D. cbv zeta. rewrite N. set (r := ModelKernel.norm 2 (difference x y)) in *.
    transitivity (s ^ (2 - 1) * ((s * / (-2 * PI * (s * r * (s * r)))) * suml (seq 0 2) (fun k => turned 2 A (difference x y) k * turned 2 A n k))).
    { f_equal. rewrite <- suml_scal. apply suml_ext. intros k Hk. apply in_seq in Hk. rewrite E, Nn by lia. unfold Rdiv. ring. }
    rewrite T. transitivity (/ (-2 * PI * (r * r)) * suml (seq 0 2) (fun k => difference x y k * n k)); [|rewrite <- suml_scal; apply suml_ext; intros; unfold Rdiv; ring].
    rewrite !Rinv_mult. cbn [Nat.sub pow]. set (w := suml _ _). set (u := / s) in *. set (z := / r). set (p := / -2 * / PI).
    transitivity ((s * u) * (s * u) * (p * (z * z) * w)); [ring|rewrite Si; ring].
  - unfold ModelKernel.kernels3_D. cbv zeta. rewrite N. set (r := ModelKernel.norm 3 (difference x y)) in *.
    transitivity (s ^ (3 - 1) * ((s * / (-4 * PI * (s * r * (s * r)) * (s * r))) * suml (seq 0 3) (fun k => turned 3 A (difference x y) k * turned 3 A n k))).
    { f_equal. rewrite <- suml_scal. apply suml_ext. intros k Hk. apply in_seq in Hk. rewrite E, Nn by lia. unfold Rdiv. ring. }
    rewrite T. transitivity (/ (-4 * PI * (r * r) * r) * suml (seq 0 3) (fun k => difference x y k * n k)); [|rewrite <- suml_scal; apply suml_ext; intros; unfold Rdiv; ring].
    rewrite !Rinv_mult. cbn [Nat.sub pow]. set (w := suml _ _). set (u := / s) in *. set (z := / r). set (p := / -4 * / PI).
    transitivity ((s * u) * (s * u) * (s * u) * (p * (z * z * z) * w)); [ring|rewrite Si; ring].
Qed.
Lemma single_layer_image3 s A t x x' n n' y y' : 0 < s -> orthogonal 3 A -> image 3 s A t x x' -> image 3 s A t y y' ->
  s ^ (3 - 1) * point_kernel 3 dirichlet_matrix x' n' y' = s * point_kernel 3 dirichlet_matrix x n y.
Proof.
  intros Hs O X Y. assert (D : (3 = 2 \/ 3 = 3)%nat) by auto. assert (E := difference_image 3 s A t x x' y y' D X Y). assert (N := norm_scaled 3 s A (difference x y) (difference x' y') Hs O D E).
  assert (Si : s * / s = 1) by (field; lra).
  cbn [point_kernel]. unfold kernel_s. cbn [Nat.eqb]. unfold ModelKernel.kernels3_d. cbv zeta. rewrite N. unfold Rdiv. rewrite !Rinv_mult. cbn [Nat.sub pow].
  set (z := / ModelKernel.norm 3 _). set (u := / s) in *. transitivity ((s * u) * (s * z * / 4 * / PI)); [ring|rewrite Si; ring].
Qed.
Lemma off_norm dim x y : (dim = 2 \/ dim = 3)%nat -> off_node dim x y -> 0 < ModelKernel.norm dim (difference x y).
Proof.
  intros D (k & Hk & N). unfold ModelKernel.norm. apply sqrt_lt_R0. rewrite square_sum.
  assert (P : 0 < difference x y k * difference x y k) by (apply Rsqr_pos_lt; unfold difference; lra).
  assert (Q : forall j, 0 <= difference x y j * difference x y j) by (intros j; apply Rle_0_sqr).
  assert (Q0 := Q 0%nat). assert (Q1 := Q 1%nat). assert (Q2 := Q 2%nat).
  destruct D as [-> | ->]; rewrite ?suml2, ?suml3; destruct k as [|[|[|k]]]; try lia; lra.
Qed.
Lemma single_layer_image2 s A t x x' n n' y y' : 0 < s -> orthogonal 2 A -> image 2 s A t x x' -> image 2 s A t y y' -> off_node 2 x y ->
  s ^ (2 - 1) * point_kernel 2 dirichlet_matrix x' n' y' = s * (point_kernel 2 dirichlet_matrix x n y - ln s / (2 * PI)).
Proof.
  intros Hs O X Y F. assert (D : (2 = 2 \/ 2 = 3)%nat) by auto. assert (E := difference_image 2 s A t x x' y y' D X Y). assert (N := norm_scaled 2 s A (difference x y) (difference x' y') Hs O D E).
  assert (P := off_norm 2 x y D F).
  cbn [point_kernel]. unfold kernel_s. cbn [Nat.eqb]. unfold ModelKernel.kernels2_d. cbv zeta. rewrite N, ln_mult by auto. cbn [Nat.sub pow]. unfold Rdiv. ring.
Qed.

(** rows of the matrix with factors *)
Lemma row_image I K K' S S' i c j f g : (c < o_nc I)%nat ->
  (forall q, (q < o_nq I)%nat -> kd K' i q * shp K' q j * jxw K' q = f * (kd K i q * shp K q j * jxw K q) + g * (shp K q j * jxw K q)) ->
  (forall idx, sr_n S' idx = sr_n S idx) ->
  (forall idx q, sr_kernel S' i c idx q * sr_shape S' idx q j * sr_jxw S' c idx q = f * (sr_kernel S i c idx q * sr_shape S idx q j * sr_jxw S c idx q) + g * (sr_shape S idx q j * sr_jxw S c idx q)) ->
  local_row I K' S' i c j = f * local_row I K S i c j + g * match singular_index I i c with
    | Some idx => suml (seq 0 (sr_n S idx)) (fun q => sr_shape S idx q j * sr_jxw S c idx q)
    | None => suml (quads_of_cell I c) (fun q => shp K q j * jxw K q) end.
Proof.
  intros Hc R N Sg. rewrite !local_row_sum. destruct (singular_index I i c) as [idx|].
  - rewrite N, <- !suml_scal, <- suml_plus. apply suml_ext. intros q _. apply Sg.
  - rewrite <- !suml_scal, <- suml_plus. apply suml_ext. intros q Hq. apply R. apply (quads_lt I c); auto.
Qed.
Lemma entry_image I K K' S S' owned owned' i d f : (i < o_nd I)%nat -> owned i = true -> owned' i = true ->
  (forall c j, (c < o_nc I)%nat -> local_row I K' S' i c j = f * local_row I K S i c j) ->
  entry (assemble_adds I K' S' owned') i d = f * entry (assemble_adds I K S owned) i d.
Proof.
  intros Hi Ho Ho' R. rewrite !entry_local by auto. rewrite <- suml_scal. apply suml_ext. intros c Hc. apply in_seq in Hc. rewrite <- suml_scal. apply suml_ext. intros j _.
  destruct (Nat.eqb _ _); [apply R; lia|ring].
Qed.

(** ** C76 *)
(** The double layer matrix does not depend on where the mesh is, how it is turned and in which unit lengths are
    given. *)
Theorem C76_neumann_matrix_has_no_units : forall dim I s A t node node' P P' S S' owned owned' i d, (dim = 2 \/ dim = 3)%nat -> 0 < s -> orthogonal dim A ->
  (forall k, (k < o_nd I)%nat -> image dim s A t (node k) (node' k)) -> image_regular dim s A t (o_nq I) P P' -> image_singular dim s A t S S' ->
  (i < o_nd I)%nat -> owned i = true -> owned' i = true ->
  stored dim neumann_matrix I node' P' S' owned' i d = stored dim neumann_matrix I node P S owned i d.
Proof.
  intros dim I s A t node node' P P' S S' owned owned' i d D Hs O Hn HP (S1 & S2 & S3) Hi Ho Ho'. unfold stored. rewrite (entry_image I (regular_kern dim neumann_matrix node P) _ (rule_at dim neumann_matrix node S) _ owned owned' i d 1); auto; [ring|].
  intros c j Hc. rewrite (row_image I (regular_kern dim neumann_matrix node P) _ (rule_at dim neumann_matrix node S) _ i c j 1 0); auto; [ring| |].
  - intros q Hq. cbn [regular_kern kd shp jxw]. destruct (HP q Hq) as (X & N & J & Sh). rewrite J, Sh, <- (double_layer_image dim s A t _ (rp_at P' q) (rp_normal P q) (rp_normal P' q) (node i) (node' i) Hs O D X (Hn i Hi) N). ring.
  - intros idx q. cbn [rule_at sr_kernel sr_shape sr_jxw]. destruct (S3 c idx q) as (X & N & J). rewrite J, S2, <- (double_layer_image dim s A t _ (sp_at S' c idx q) (sp_normal S c idx q) (sp_normal S' c idx q) (node i) (node' i) Hs O D X (Hn i Hi) N). ring.
Qed.
(** The single layer matrix is a length in 3D ... *)
Theorem C76_dirichlet_matrix_is_a_length : forall I s A t node node' P P' S S' owned owned' i d, 0 < s -> orthogonal 3 A ->
  (forall k, (k < o_nd I)%nat -> image 3 s A t (node k) (node' k)) -> image_regular 3 s A t (o_nq I) P P' -> image_singular 3 s A t S S' ->
  (i < o_nd I)%nat -> owned i = true -> owned' i = true ->
  stored 3 dirichlet_matrix I node' P' S' owned' i d = s * stored 3 dirichlet_matrix I node P S owned i d.
Proof.
  intros I s A t node node' P P' S S' owned owned' i d Hs O Hn HP (S1 & S2 & S3) Hi Ho Ho'. unfold stored. rewrite (entry_image I (regular_kern 3 dirichlet_matrix node P) _ (rule_at 3 dirichlet_matrix node S) _ owned owned' i d s); auto.
  intros c j Hc. rewrite (row_image I (regular_kern 3 dirichlet_matrix node P) _ (rule_at 3 dirichlet_matrix node S) _ i c j s 0); auto; [ring| |].
  - intros q Hq. cbn [regular_kern kd shp jxw]. destruct (HP q Hq) as (X & N & J & Sh). rewrite J, Sh.
    assert (E := single_layer_image3 s A t _ (rp_at P' q) (rp_normal P q) (rp_normal P' q) (node i) (node' i) Hs O X (Hn i Hi)).
    transitivity ((s ^ (3 - 1) * point_kernel 3 dirichlet_matrix (rp_at P' q) (rp_normal P' q) (node' i)) * (rp_shape P q j * rp_jxw P q)); [ring|rewrite E; ring].
  - intros idx q. cbn [rule_at sr_kernel sr_shape sr_jxw]. destruct (S3 c idx q) as (X & N & J). rewrite J, S2.
    assert (E := single_layer_image3 s A t _ (sp_at S' c idx q) (sp_normal S c idx q) (sp_normal S' c idx q) (node i) (node' i) Hs O X (Hn i Hi)).
    transitivity ((s ^ (3 - 1) * point_kernel 3 dirichlet_matrix (sp_at S' c idx q) (sp_normal S' c idx q) (node' i)) * (sp_shape S idx q j * sp_jxw S c idx q)); [ring|rewrite E; ring].
Qed.
(** ... but not in 2D, where the logarithm adds a multiple of the integral of the shape function: only fluxes of zero
    total are free of it. *)
Theorem C76_dirichlet_matrix_in_the_plane : forall I s A t node node' P P' S S' owned owned' i d, 0 < s -> orthogonal 2 A ->
  (forall k, (k < o_nd I)%nat -> image 2 s A t (node k) (node' k)) -> image_regular 2 s A t (o_nq I) P P' -> image_singular 2 s A t S S' ->
  points_off_node 2 I node P S i -> (i < o_nd I)%nat -> owned i = true -> owned' i = true ->
  stored 2 dirichlet_matrix I node' P' S' owned' i d = s * (stored 2 dirichlet_matrix I node P S owned i d - ln s / (2 * PI) * shape_integral I P S i d).
Proof.
  intros I s A t node node' P P' S S' owned owned' i d Hs O Hn HP (S1 & S2 & S3) (F1 & F2) Hi Ho Ho'. unfold stored, shape_integral. rewrite !entry_local by auto.
  assert (M : forall a b, s * (a - ln s / (2 * PI) * b) = s * a + (- s * ln s / (2 * PI)) * b) by (intros; unfold Rdiv; ring). rewrite M. clear M.
  rewrite <- !suml_scal, <- suml_plus. apply suml_ext. intros c Hc. apply in_seq in Hc. rewrite <- !suml_scal, <- suml_plus. apply suml_ext. intros j _.
  destruct (Nat.eqb _ _); [|ring].
  rewrite (row_image I (regular_kern 2 dirichlet_matrix node P) _ (rule_at 2 dirichlet_matrix node S) _ i c j s (- s * ln s / (2 * PI))); auto; [lia| |].
  - intros q Hq. cbn [regular_kern kd shp jxw]. destruct (HP q Hq) as (X & N & J & Sh). rewrite J, Sh.
    assert (E := single_layer_image2 s A t _ (rp_at P' q) (rp_normal P q) (rp_normal P' q) (node i) (node' i) Hs O X (Hn i Hi) (F1 q Hq)).
    transitivity ((s ^ (2 - 1) * point_kernel 2 dirichlet_matrix (rp_at P' q) (rp_normal P' q) (node' i)) * (rp_shape P q j * rp_jxw P q)); [ring|rewrite E; unfold Rdiv; ring].
  - intros idx q. cbn [rule_at sr_kernel sr_shape sr_jxw]. destruct (S3 c idx q) as (X & N & J). rewrite J, S2.
    assert (E := single_layer_image2 s A t _ (sp_at S' c idx q) (sp_normal S c idx q) (sp_normal S' c idx q) (node i) (node' i) Hs O X (Hn i Hi) (F2 c idx q)).
    transitivity ((s ^ (2 - 1) * point_kernel 2 dirichlet_matrix (sp_at S' c idx q) (sp_normal S' c idx q) (node' i)) * (sp_shape S idx q j * sp_jxw S c idx q)); [ring|rewrite E; unfold Rdiv; ring].
Qed.

(** ** the whole problem *)
Lemma dot_turned A u v : orthogonal 3 A -> dot3 (turned 3 A u) (turned 3 A v) = dot3 u v.
Proof. intros O. assert (T := turn_dot 3 A u v O ltac:(auto)). rewrite !suml_seq in T. exact T. Qed.
Lemma dot3_ext u u' v v' : (forall k, (k < 3)%nat -> u k = u' k) -> (forall k, (k < 3)%nat -> v k = v' k) -> dot3 u v = dot3 u' v'.
Proof. intros U V. unfold dot3. apply sumn_ext. intros k Hk. rewrite U, V by auto. reflexivity. Qed.
Lemma omul_units a b s x : 0 < s -> omul a (b / s) = Some (x / s) <-> omul a b = Some x.
Proof.
  intros Hs. destruct a as [a|]; cbn [omul]; [|split; discriminate]. split; intros E; f_equal; injection E as E.
  - apply (Rmult_eq_reg_r (/ s)); [|apply Rinv_neq_0_compat; lra]. unfold Rdiv in E. lra.
  - rewrite <- E. unfold Rdiv. ring.
Qed.
Lemma gradients_units s A n m u v n' m' u' v' x : 0 < s -> orthogonal 3 A ->
  (forall k, (k < 3)%nat -> n' k = turned 3 A n k) -> (forall k, (k < 3)%nat -> m' k = turned 3 A m k) ->
  (forall k, (k < 3)%nat -> u' k = turned 3 A u k / s) -> (forall k, (k < 3)%nat -> v' k = turned 3 A v k / s) ->
  (other_normal_gradient n' m' u' v' = Some (x / s) <-> other_normal_gradient n m u v = Some x) /\
  (this_normal_gradient n' m' u' v' = Some (x / s) <-> this_normal_gradient n m u v = Some x).
Proof.
  intros Hs O En Em Eu Ev.
  assert (C : dot3 n' m' = dot3 n m) by (rewrite (dot3_ext n' (turned 3 A n) m' (turned 3 A m)) by auto; apply dot_turned; auto).
  assert (G : forall w w' p p', (forall k, (k < 3)%nat -> w' k = turned 3 A w k / s) -> (forall k, (k < 3)%nat -> p' k = turned 3 A p k) -> dot3 w' p' = dot3 w p / s).
  { intros w w' p p' Ew Ep. rewrite <- (dot_turned A w p O). unfold dot3, Rdiv. rewrite <- sumn_scal_r. apply sumn_ext. intros k Hk. rewrite Ew, Ep by auto. unfold Rdiv. ring. }
  unfold other_normal_gradient, this_normal_gradient. cbv zeta. rewrite C, (G u u' m m' Eu Em), (G v v' n n' Ev En).
  split.
  - replace (dot3 u m / s + dot3 v n / s * dot3 n m) with ((dot3 u m + dot3 v n * dot3 n m) / s) by (unfold Rdiv; ring). apply omul_units; auto.
  - replace (dot3 v n / s + dot3 u m / s * dot3 n m) with ((dot3 v n + dot3 u m * dot3 n m) / s) by (unfold Rdiv; ring). apply omul_units; auto.
Qed.
(** The same problem in other units: the vector solves the system of the moved mesh with the converted data exactly when
    it is the converted solution ... *)
Theorem C76_solution_in_other_units : forall s A S S' owns rhs sol, 0 < s -> orthogonal 3 A -> moved_system s A rhs S S' -> plain_hanging S ->
  s_have_dirichlet S = true -> linear_op (s_n S) (s_N S) -> linear_op (s_n S) (s_D S) -> coincidence (s_n S) (s_doubles S) -> partition (s_n S) owns ->
  (forall c, merge (s_n S) (node_constraints S rhs) (s_hanging S) = Some c -> closes (s_n S) c (s_close S c)) ->
  (forall c, merge (s_n S') (node_constraints S' (in_units s (s_dir S) rhs)) (s_hanging S') = Some c -> closes (s_n S') c (s_close S' c)) ->
  (solves S' owns (in_units s (s_dir S) rhs) (in_units s (fun i => negb (s_dir S i)) sol) <-> solves S owns rhs sol).
Proof.
  intros s A S S' owns rhs sol Hs O M Hh Hd LN LD C HP Cl Cl'.
  set (rhs' := in_units s (s_dir S) rhs) in *. set (sol' := in_units s (fun i => negb (s_dir S i)) sol) in *.
  assert (LN' : linear_op (s_n S') (s_N S')).
  { rewrite (ms_n _ _ _ _ _ M). destruct LN as (L1 & L2 & L3). repeat split; intros; rewrite ?(ms_N _ _ _ _ _ M) by auto; auto. }
  assert (LD' : linear_op (s_n S') (s_D S')).
  { rewrite (ms_n _ _ _ _ _ M). destruct LD as (L1 & L2 & L3). repeat split; intros; rewrite ?(ms_D _ _ _ _ _ M) by auto; [rewrite L1 by auto; ring|rewrite L2 by auto; ring|rewrite (L3 x y) by auto; reflexivity]. }
  assert (Im : imposed S rhs rhs rhs) by (intros i _; destruct (s_dir S i); reflexivity).
  assert (Im' : imposed S' rhs' rhs' rhs') by (intros i _; destruct (s_dir S' i); reflexivity).
  assert (Hd' : s_have_dirichlet S' = true) by (rewrite (ms_have _ _ _ _ _ M); auto).
  assert (C' : coincidence (s_n S') (s_doubles S')) by (rewrite (ms_n _ _ _ _ _ M), (ms_doubles _ _ _ _ _ M); auto).
  assert (HP' : partition (s_n S') owns) by (rewrite (ms_n _ _ _ _ _ M); auto).
  rewrite (C65_solve_system S owns rhs rhs rhs sol Hd LN LD C HP Im Cl).
  rewrite (C65_solve_system S' owns rhs' rhs' rhs' sol' Hd' LN' LD' C' HP' Im' Cl').
  set (phi := solved_phi S rhs sol). set (dphi := solved_dphi S rhs sol). set (phi' := solved_phi S' rhs' sol'). set (dphi' := solved_dphi S' rhs' sol').
  assert (Ep : forall i, phi' i = phi i).
  { intros i. unfold phi', phi. rewrite (proj1 (solved_at S' rhs' rhs' sol' i)), (proj1 (solved_at S rhs rhs sol i)), (ms_dir _ _ _ _ _ M).
    unfold rhs', sol', in_units. destruct (s_dir S i); reflexivity. }
  assert (Ed : forall i, dphi' i = dphi i / s).
  { intros i. unfold dphi', dphi. rewrite (proj2 (solved_at S' rhs' rhs' sol' i)), (proj2 (solved_at S rhs rhs sol i)), (ms_dir _ _ _ _ _ M).
    unfold rhs', sol', in_units. destruct (s_dir S i); reflexivity. }
  clearbody phi phi' dphi dphi'.
  assert (FD : forall i f, first_dirichlet S' i f <-> first_dirichlet S i f).
  { intros i f. unfold first_dirichlet. rewrite (ms_doubles _ _ _ _ _ M), (ms_dir _ _ _ _ _ M). tauto. }
  assert (NG : forall i, neumann_group S' i <-> neumann_group S i).
  { intros i. unfold neumann_group. rewrite (ms_doubles _ _ _ _ _ M), (ms_dir _ _ _ _ _ M). tauto. }
  assert (FO : forall i, free_of_doubles S' i <-> free_of_doubles S i).
  { intros i. unfold free_of_doubles, neumann_group, other_dirichlet. rewrite (ms_doubles _ _ _ _ _ M), (ms_dir _ _ _ _ _ M), (ms_cont _ _ _ _ _ M). tauto. }
  assert (Bi : forall i, (i < s_n S)%nat -> bie_row S' phi' dphi' i <-> bie_row S phi dphi i).
  { intros i Hi. unfold bie_row. rewrite !(ms_N _ _ _ _ _ M), (ms_D _ _ _ _ _ M), Ep by auto. destruct LN as (_ & _ & N3). destruct LD as (_ & D2 & D3).
    rewrite (N3 phi' phi) by auto. rewrite (D3 dphi' (fun k => / s * dphi k)) by (auto; intros; rewrite Ed; unfold Rdiv; ring). rewrite D2 by auto.
    replace (s * (/ s * s_D S dphi i)) with (s_D S dphi i) by (field; lra). tauto. }
  assert (Rd : forall f, s_dir S f = true -> rhs' f = rhs f) by (intros f Df; unfold rhs', in_units; rewrite Df; auto).
  assert (Un : forall i, unknown S' phi' dphi' i = if s_dir S i then unknown S phi dphi i / s else unknown S phi dphi i).
  { intros i. unfold unknown. rewrite (ms_dir _ _ _ _ _ M). destruct (s_dir S i); auto. }
  assert (Gr : forall i j x, (i < s_n S)%nat -> (j < s_n S)%nat -> s_dir S i = true -> s_dir S j = true ->
    (other_normal_gradient (s_normal S' i) (s_normal S' j) (s_sgrad S' rhs' i) (s_sgrad S' rhs' j) = Some (x / s) <->
     other_normal_gradient (s_normal S i) (s_normal S j) (s_sgrad S rhs i) (s_sgrad S rhs j) = Some x) /\
    (this_normal_gradient (s_normal S' i) (s_normal S' j) (s_sgrad S' rhs' i) (s_sgrad S' rhs' j) = Some (x / s) <->
     this_normal_gradient (s_normal S i) (s_normal S j) (s_sgrad S rhs i) (s_sgrad S rhs j) = Some x)).
  { intros i j x Hi Hj Di Dj. apply (gradients_units s A); auto; intros k Hk; first [apply (ms_normal _ _ _ _ _ M)|apply (ms_sgrad _ _ _ _ _ M)]; auto. }
  assert (Hf : forall i f, (i < s_n S)%nat -> first_dirichlet S i f -> (f < s_n S)%nat /\ s_dir S f = true).
  { intros i f Hi (pre & post & E & Df & _). split; auto. destruct C as (_ & C2 & _). apply (C2 i f Hi). rewrite E. apply in_elt. }
  assert (Hin : forall h l, (h < s_n S)%nat -> s_hanging S h = Some l ->
    ((exists v, l_inhom l = Some v /\ unknown S' phi' dphi' h = suml (l_entries l) (fun e => snd e * unknown S' phi' dphi' (fst e)) + v) <->
     (exists v, l_inhom l = Some v /\ unknown S phi dphi h = suml (l_entries l) (fun e => snd e * unknown S phi dphi (fst e)) + v))).
  { intros h l Hl El. destruct (Hh h l Hl El) as (I0 & Sm). rewrite I0. rewrite Un.
    rewrite (suml_ext _ (fun e => snd e * unknown S' phi' dphi' (fst e)) (fun e => if s_dir S h then / s * (snd e * unknown S phi dphi (fst e)) else snd e * unknown S phi dphi (fst e))).
    2:{ intros e He. rewrite Un, (Sm e He). destruct (s_dir S h); [unfold Rdiv; ring|reflexivity]. }
    destruct (s_dir S h).
    - rewrite suml_scal. split; intros (v & Ev & E); injection Ev as <-; exists 0; split; auto.
      + apply (Rmult_eq_reg_r (/ s)); [|apply Rinv_neq_0_compat; lra]. unfold Rdiv in E. lra.
      + rewrite E. unfold Rdiv. ring.
    - tauto. }
  unfold discrete_problem, discrete_problem_with. rewrite (ms_n _ _ _ _ _ M), (ms_hanging _ _ _ _ _ M), (ms_cont _ _ _ _ _ M), (ms_dir _ _ _ _ _ M), (ms_doubles _ _ _ _ _ M).
  unfold equation_node. rewrite (ms_hanging _ _ _ _ _ M).
  split; intros (H0 & H1 & H2 & H3 & H4 & H5 & H6).
  - split; [intros; apply FO; auto|]. split; [intros i Hi (E1 & E2); apply Bi; auto; apply H1; auto; split; auto; apply FO; auto|].
    split; [intros i f Hi Di Ff; rewrite <- Ep, <- (Rd f) by (apply (Hf i f Hi Ff)); apply H2; auto; apply FD; auto|].
    split; [intros i f post Hi Ng E; rewrite <- !Ep; apply (H3 i f post); auto; apply NG; auto|].
    split; [|split].
    + intros Hc i f Hi Di Ff Ne. destruct (Hf i f Hi Ff) as (Lf & Df). apply (Gr f i); auto. rewrite <- Ed. apply H4; auto. apply FD; auto.
    + intros Hc i j pre post Hi Fi E Dj Nj Bj. destruct (Hf i i Hi Fi) as (_ & Di). assert (Lj : (j < s_n S)%nat) by (destruct C as (_ & C2 & _); apply (C2 i j Hi); rewrite E; apply in_elt).
      apply (Gr i j); auto. rewrite <- Ed. apply (H5 Hc i j pre post); auto. apply FD; auto.
    + intros h l Hl El. apply Hin; auto.
  - split; [intros; apply FO; auto|]. split; [intros i Hi (E1 & E2); apply Bi; auto; apply H1; auto; split; auto; apply FO; auto|].
    split; [intros i f Hi Di Ff; apply FD in Ff; rewrite Ep, (Rd f) by (apply (Hf i f Hi Ff)); apply H2; auto|].
    split; [intros i f post Hi Ng E; rewrite !Ep; apply (H3 i f post); auto; apply NG; auto|].
    split; [|split].
    + intros Hc i f Hi Di Ff Ne. apply FD in Ff. destruct (Hf i f Hi Ff) as (Lf & Df). rewrite Ed. apply (Gr f i); auto.
    + intros Hc i j pre post Hi Fi E Dj Nj Bj. apply FD in Fi. destruct (Hf i i Hi Fi) as (_ & Di). assert (Lj : (j < s_n S)%nat) by (destruct C as (_ & C2 & _); apply (C2 i j Hi); rewrite E; apply in_elt).
      rewrite Ed. apply (Gr i j); auto. apply (H5 Hc i j pre post); auto.
    + intros h l Hl El. apply Hin; auto.
Qed.
(** ... and then the potential handed back is the same and the flux is divided by s, everywhere. *)
Theorem C76_returned_values_in_other_units : forall s A S S' rhs sol i, moved_system s A rhs S S' ->
  let rhs' := in_units s (s_dir S) rhs in let sol' := in_units s (fun k => negb (s_dir S k)) sol in
  solved_phi S' rhs' sol' i = solved_phi S rhs sol i /\ solved_dphi S' rhs' sol' i = solved_dphi S rhs sol i / s.
Proof.
  intros s A S S' rhs sol i M rhs' sol'. destruct (solved_at S' rhs' rhs' sol' i) as [-> ->]. destruct (solved_at S rhs rhs sol i) as [-> ->].
  rewrite (ms_dir _ _ _ _ _ M). unfold rhs', sol', in_units. destruct (s_dir S i); cbn [negb]; auto.
Qed.

(** ** products, double nodes, hanging nodes *)
(** So the products of the stored matrices are those of a [moved_system] ... *)
Theorem C76_products_in_other_units : forall I s A t node node' P P' S S' owned owned' v i, 0 < s -> orthogonal 3 A ->
  (forall k, (k < o_nd I)%nat -> image 3 s A t (node k) (node' k)) -> image_regular 3 s A t (o_nq I) P P' -> image_singular 3 s A t S S' ->
  (i < o_nd I)%nat -> owned i = true -> owned' i = true ->
  stored_vmult 3 neumann_matrix I node' P' S' owned' v i = stored_vmult 3 neumann_matrix I node P S owned v i /\
  stored_vmult 3 dirichlet_matrix I node' P' S' owned' v i = s * stored_vmult 3 dirichlet_matrix I node P S owned v i.
Proof.
  intros I s A t node node' P P' S S' owned owned' v i Hs O Hn HP HS Hi Ho Ho'. unfold stored_vmult, direct_vmult. cbn [aadd amul exact_arith]. rewrite !fold_left_plus, !Rplus_0_l. split.
  - apply suml_ext. intros d _. f_equal. exact (C76_neumann_matrix_has_no_units 3 I s A t node node' P P' S S' owned owned' i d (or_intror eq_refl) Hs O Hn HP HS Hi Ho Ho').
  - rewrite <- suml_scal. apply suml_ext. intros d _. rewrite <- Rmult_assoc. f_equal. exact (C76_dirichlet_matrix_is_a_length I s A t node node' P P' S S' owned owned' i d Hs O Hn HP HS Hi Ho Ho').
Qed.
(** ... and in 2D the single layer product changes by the logarithm of the factor times the total flux seen by the row. *)
Theorem C76_single_layer_in_the_plane : forall I s A t node node' P P' S S' owned owned' v i, 0 < s -> orthogonal 2 A ->
  (forall k, (k < o_nd I)%nat -> image 2 s A t (node k) (node' k)) -> image_regular 2 s A t (o_nq I) P P' -> image_singular 2 s A t S S' ->
  points_off_node 2 I node P S i -> (i < o_nd I)%nat -> owned i = true -> owned' i = true ->
  stored_vmult 2 dirichlet_matrix I node' P' S' owned' v i =
  s * (stored_vmult 2 dirichlet_matrix I node P S owned v i - ln s / (2 * PI) * suml (seq 0 (o_nd I)) (fun d => shape_integral I P S i d * v d)).
Proof.
  intros I s A t node node' P P' S S' owned owned' v i Hs O Hn HP HS HF Hi Ho Ho'. unfold stored_vmult, direct_vmult. cbn [aadd amul exact_arith]. rewrite !fold_left_plus, !Rplus_0_l.
  assert (M : forall a b, s * (a - ln s / (2 * PI) * b) = s * a + (- s * ln s / (2 * PI)) * b) by (intros; unfold Rdiv; ring). rewrite M. clear M.
  rewrite <- !suml_scal, <- suml_plus. apply suml_ext. intros d _.
  assert (E := C76_dirichlet_matrix_in_the_plane I s A t node node' P P' S S' owned owned' i d Hs O Hn HP HS HF Hi Ho Ho'). unfold stored in E. rewrite E. unfold Rdiv. ring.
Qed.
(** The double nodes stay the same as long as no distance crosses the absolute tolerance 1e-10: e.g. when distinct
    points are apart by more in both units ... *)
Theorem C76_double_nodes_in_other_units : forall s n dist edge i, 0 < s ->
  (forall j, (j < n)%nat -> dist i j = 0 \/ 1 / 10 ^ 10 <= dist i j /\ 1 / 10 ^ 10 <= s * dist i j) ->
  double_nodes n (fun a b => s * dist a b) edge i = double_nodes n dist edge i.
Proof.
  intros s n dist edge i Hs D. unfold double_nodes. apply filter_ext_in. intros j Hj. apply in_seq in Hj. destruct (j =? i)%nat; [reflexivity|]. cbn [orb].
  destruct (existsb (Nat.eqb i) edge && existsb (Nat.eqb j) edge); [|reflexivity]. cbn [andb]. assert (P : 0 < 1 / 10 ^ 10) by (apply Rdiv_lt_0_compat; [lra|apply pow_lt; lra]).
  destruct (D j ltac:(lia)) as [E|(E1 & E2)]; [rewrite E, Rmult_0_r; reflexivity|].
  destruct (Rlt_dec (s * dist i j) (1 / 10 ^ 10)), (Rlt_dec (dist i j) (1 / 10 ^ 10)); auto; lra.
Qed.
(** ... but not in general. *)
Theorem C76_double_nodes_refuted : exists s n dist edge i j, 0 < s /\ (forall a b, 0 <= dist a b) /\ (i < n)%nat /\ In j (double_nodes n (fun a b => s * dist a b) edge i) /\ ~ In j (double_nodes n dist edge i).
Proof.
  exists (1 / 10 ^ 11), 2%nat, (fun a b => if (a =? b)%nat then 0 else 1), [0; 1]%nat, 0%nat, 1%nat.
  assert (P : 1 / 10 ^ 11 < 1 / 10 ^ 10) by lra.
  split; [apply Rdiv_lt_0_compat; [lra|apply pow_lt; lra]|]. split; [intros a b; destruct (a =? b)%nat; lra|]. split; [lia|]. split.
  - unfold double_nodes. apply filter_In. split; [cbn; auto|]. cbn [Nat.eqb existsb orb andb]. rewrite Rmult_1_r. destruct (Rlt_dec _ _); [reflexivity|contradiction].
  - unfold double_nodes. intros X. apply filter_In in X. destruct X as (_ & X). cbn [Nat.eqb existsb orb andb] in X. destruct (Rlt_dec _ _); [|discriminate]. lra.
Qed.
(** [plain_hanging] is needed: a hanging Neumann node between a Dirichlet and a Neumann node gets the mean of a flux
    and a potential, which changes with the unit (compare C65_mixed_hanging_refuted). *)
Definition mx_hn : line := {| l_entries := [(0%nat, 1 / 2); (1%nat, 1 / 2)]; l_inhom := Some 0 |}.
Definition mx_N (i j : nat) : R := match i, j with 0%nat, 1%nat => 1 | 1%nat, 0%nat => -1 | _, _ => 0 end.
Definition mx_sys (s : R) : system := {|
  s_n := 3; s_direct := true; s_N := matvec 3 mx_N; s_D := matvec 3 (fun i j => if (i =? j)%nat then s else 0);
  s_dir := (fun i => i =? 0)%nat; s_have_dirichlet := true; s_doubles := fun i => [i]; s_normal := fun _ _ => 0; s_sgrad := fun _ _ _ => 0; s_cont := false;
  s_hanging := fun i => if (i =? 2)%nat then Some mx_hn else None; s_close := fun c => c |}.
Definition mx_rhs : vec := fun i => if (i =? 1)%nat then 1 else 0.
Definition mx_owns : list (nat -> bool) := [fun _ => true].
Definition identity3 (i j : nat) : R := if (i =? j)%nat then 1 else 0.
Lemma identity_orthogonal : orthogonal 3 identity3.
Proof. intros j k Hj Hk. unfold suml, identity3. destruct j as [|[|[|j]]]; try lia; destruct k as [|[|[|k]]]; try lia; cbn; ring. Qed.
Lemma mx_moved s rhs : s <> 0 -> moved_system s identity3 rhs (mx_sys 1) (mx_sys s).
Proof.
  intros Hs. constructor; try reflexivity.
  - intros v i Hi. cbn [s_D mx_sys s_n] in *. unfold matvec. cbn [sumn]. destruct i as [|[|[|i]]]; [| | |lia]; cbn; ring.
  - intros i k Hi Hk. cbn [s_normal mx_sys]. unfold turned, suml. cbn. ring.
  - intros i k Hi Hk D. cbn [s_sgrad mx_sys]. unfold turned, suml. cbn. unfold Rdiv. ring.
Qed.
Lemma mx_coincidence : coincidence 3 (fun i => [i]).
Proof.
  split; [|split]; intros i; try (cbn; auto).
  - intros j Hi [<-|[]]. split; auto.
  - intros _. repeat constructor; auto.
Qed.
Theorem C76_mixed_hanging_nodes_refuted : exists s A S S' owns rhs sol, 0 < s /\ orthogonal 3 A /\ moved_system s A rhs S S' /\
  s_have_dirichlet S = true /\ linear_op (s_n S) (s_N S) /\ linear_op (s_n S) (s_D S) /\ coincidence (s_n S) (s_doubles S) /\ partition (s_n S) owns /\
  (forall c, merge (s_n S) (node_constraints S rhs) (s_hanging S) = Some c -> closes (s_n S) c (s_close S c)) /\
  (forall c, merge (s_n S') (node_constraints S' (in_units s (s_dir S) rhs)) (s_hanging S') = Some c -> closes (s_n S') c (s_close S' c)) /\
  (forall h l, (h < s_n S)%nat -> s_hanging S h = Some l -> l_inhom l = Some 0) /\
  solves S owns rhs sol /\ ~ solves S' owns (in_units s (s_dir S) rhs) (in_units s (fun i => negb (s_dir S i)) sol).
Proof.
  exists 2, identity3, (mx_sys 1), (mx_sys 2), mx_owns, mx_rhs, (fun _ => 1).
  assert (HP : partition 3 mx_owns) by (intros i Hi; reflexivity).
  split; [lra|]. split; [apply identity_orthogonal|]. split; [apply mx_moved; lra|]. split; [reflexivity|]. split; [apply matvec_linear|]. split; [apply matvec_linear|].
  split; [apply mx_coincidence|]. split; [exact HP|]. split; [intros; split; tauto|]. split; [intros; split; tauto|].
  split; [intros h l Hh El; cbn [s_hanging mx_sys] in El; destruct (h =? 2)%nat; [injection El as <-; reflexivity|discriminate]|].
  split.
  - set (S := mx_sys 1). set (sol := fun _ : nat => 1).
    assert (Cl : forall c, merge 3 (node_constraints S mx_rhs) (s_hanging S) = Some c -> closes 3 c (s_close S c)) by (intros; split; tauto).
    assert (Im : imposed S mx_rhs mx_rhs mx_rhs) by (intros i Hi; destruct (s_dir S i); reflexivity).
    assert (At : forall i, solved_phi S mx_rhs sol i = (if (i =? 0)%nat then 0 else 1) /\ solved_dphi S mx_rhs sol i = (if (i =? 0)%nat then 1 else mx_rhs i)).
    { intros i. destruct (solved_at S mx_rhs mx_rhs sol i) as [-> ->]. cbn [S s_dir mx_sys]. unfold sol, mx_rhs. destruct i as [|i]; cbn [Nat.eqb]; auto. }
    apply (C65_solve_system S _ mx_rhs mx_rhs mx_rhs sol eq_refl (matvec_linear _ _) (matvec_linear _ _) mx_coincidence HP Im Cl).
    split; [intros i Hi E; unfold free_of_doubles|unfold discrete_problem, discrete_problem_with; split; [|split; [|split; [|split; [|split]]]]].
    + do 2 (destruct i as [|i]; [discriminate E|]). destruct i as [|i]; [|cbn in Hi; lia]. cbn. split; [|eauto]. intros j [<-|[]]; reflexivity.
    + intros i Hi (E1 & E2). unfold bie_row. cbn [S s_N s_D mx_sys]. unfold matvec. cbn [sumn].
      rewrite !(proj1 (At _)), !(proj2 (At _)).
      destruct i as [|[|[|i]]].
      * cbn; unfold mx_rhs; cbn; lra.
      * cbn; unfold mx_rhs; cbn; lra.
      * discriminate E1.
      * cbn in Hi; lia.
    + intros i f Hi D (pre & post & E & Df & B). cbn [S s_dir s_doubles mx_sys] in *. apply Nat.eqb_eq in Df. subst f.
      destruct i as [|i]; [discriminate|]. exfalso. destruct pre as [|? [|? ?]]; discriminate.
    + intros i f post Hi N E. cbn [S s_doubles mx_sys] in E. injection E as <- _. reflexivity.
    + discriminate.
    + discriminate.
    + intros h l Hh El. cbn [S s_hanging mx_sys] in El. destruct (Nat.eqb_spec h 2) as [->|]; [|discriminate]. injection El as <-. exists 0. split; auto.
      rewrite unknown_sol. cbn [mx_hn l_entries]. unfold suml. cbn [fold_right fst snd]. rewrite !unknown_sol. unfold sol. lra.
  - intros X. set (S' := mx_sys 2) in *. set (rhs' := in_units 2 (s_dir (mx_sys 1)) mx_rhs) in *. set (sol' := in_units 2 (fun i => negb (s_dir (mx_sys 1) i)) (fun _ => 1)) in *.
    assert (Cl : forall c, merge 3 (node_constraints S' rhs') (s_hanging S') = Some c -> closes 3 c (s_close S' c)) by (intros; split; tauto).
    assert (Im : imposed S' rhs' rhs' rhs') by (intros i Hi; destruct (s_dir S' i); reflexivity).
    apply (C65_solve_system S' _ rhs' rhs' rhs' sol' eq_refl (matvec_linear _ _) (matvec_linear _ _) mx_coincidence HP Im Cl) in X.
    destruct X as (_ & _ & _ & _ & _ & _ & X). destruct (X 2%nat mx_hn ltac:(cbn; lia) eq_refl) as (v & Ev & E). injection Ev as <-.
    rewrite unknown_sol in E. cbn [mx_hn l_entries] in E. unfold suml in E. cbn [fold_right fst snd] in E. rewrite !unknown_sol in E. unfold sol', in_units in E. cbn in E. lra.
Qed.

(** ** Concrete cases *)
(** every mesh can be moved *)
Definition moved_regular (dim : nat) (s : R) (A : nat -> nat -> R) (t : nat -> R) (P : regular_points) : regular_points := {|
  rp_at := fun q k => s * turned dim A (rp_at P q) k + t k; rp_normal := fun q => turned dim A (rp_normal P q);
  rp_shape := rp_shape P; rp_jxw := fun q => s ^ (dim - 1) * rp_jxw P q |}.
Definition moved_singular (dim : nat) (s : R) (A : nat -> nat -> R) (t : nat -> R) (S : singular_points) : singular_points := {|
  sp_n := sp_n S; sp_at := fun c idx q k => s * turned dim A (sp_at S c idx q) k + t k; sp_normal := fun c idx q => turned dim A (sp_normal S c idx q);
  sp_shape := sp_shape S; sp_jxw := fun c idx q => s ^ (dim - 1) * sp_jxw S c idx q |}.
Example C76_meshes_can_be_moved : forall dim s A t nq P S,
  image_regular dim s A t nq P (moved_regular dim s A t P) /\ image_singular dim s A t S (moved_singular dim s A t S).
Proof. intros. split; [intros q Hq|]; repeat split; auto. Qed.
(** a rotation by a right angle about the z axis *)
Definition quarter (i j : nat) : R := match i, j with 0%nat, 1%nat => -1 | 1%nat, 0%nat => 1 | 2%nat, 2%nat => 1 | _, _ => 0 end.
Example C76_quarter_orthogonal : orthogonal 3 quarter.
Proof. intros j k Hj Hk. unfold suml, quarter. destruct j as [|[|[|j]]]; try lia; destruct k as [|[|[|k]]]; try lia; cbn; ring. Qed.
(** the system of C65_instance in other units *)
Definition scaled_ex (s : R) : system := {|
  s_n := 4; s_direct := true; s_N := s_N (ex_sys 1); s_D := matvec 4 (fun i j => if (i =? j)%nat then s else 0); s_dir := s_dir (ex_sys 1); s_have_dirichlet := true;
  s_doubles := s_doubles (ex_sys 1); s_normal := fun _ _ => 0; s_sgrad := fun _ _ _ => 0; s_cont := false; s_hanging := s_hanging (ex_sys 1); s_close := fun c => c |}.
Example C76_nonvacuous : moved_system 2 quarter ex_rhs (ex_sys 1) (scaled_ex 2) /\ plain_hanging (ex_sys 1) /\
  solves (scaled_ex 2) ex_owns (in_units 2 (s_dir (ex_sys 1)) ex_rhs) (in_units 2 (fun i => negb (s_dir (ex_sys 1) i)) (ex_sol 6)) /\
  in_units 2 (s_dir (ex_sys 1)) ex_rhs 2%nat = 1.
Proof.
  assert (M : moved_system 2 quarter ex_rhs (ex_sys 1) (scaled_ex 2)).
  { constructor; try reflexivity.
    - intros v i Hi. cbn [s_D scaled_ex ex_sys s_n] in *. unfold matvec. cbn [sumn]. destruct i as [|[|[|[|i]]]]; [| | | |lia]; cbn; ring.
    - intros i k Hi Hk. cbn [s_normal scaled_ex ex_sys]. unfold turned, suml. cbn. ring.
    - intros i k Hi Hk D. cbn [s_sgrad scaled_ex ex_sys]. unfold turned, suml. cbn. unfold Rdiv. ring. }
  assert (P : plain_hanging (ex_sys 1)).
  { intros h l Hh El. cbn [s_hanging ex_sys] in El. destruct (Nat.eqb_spec h 3) as [->|]; [|discriminate]. injection El as <-. split; [reflexivity|]. intros e [<-|[<-|[]]]; reflexivity. }
  destruct C65_instance as (A & B & D & E & F & G & H1 & H2 & _).
  split; [exact M|]. split; [exact P|]. split.
  - apply (C76_solution_in_other_units 2 quarter (ex_sys 1) (scaled_ex 2) ex_owns ex_rhs (ex_sol 6) ltac:(lra) C76_quarter_orthogonal M P B D E F G H2); [intros; split; tauto|exact A].
  - unfold in_units. cbn. unfold ex_rhs. cbn. lra.
Qed.
