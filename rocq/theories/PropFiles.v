(** Property theorems C84: the nodal fields of the result files, on any number of processes. *)
From Coq Require Import QArith Reals List Bool Arith Lia Lra FunctionalExtensionality.
From Verif Require Import LibSum ModelOctree ModelFmm ModelAssemble ModelRules.
From Verif Require ModelKernel ModelProj SpecProj ProofsProj PropProj.
From Verif Require Import ModelBem ProofsBem ModelBc PropBem PropBc ModelOwn SpecOwn ProofsOwn PropOwn ModelSolve SpecSolve ProofsSolve PropSolve SpecRenumber PropRenumber PropRenumMesh ModelRun PropRun ModelFiles.
Import ListNotations.
Local Open Scope nat_scope.

(** ** Vocabulary, in the numbering of the mesh *)
(** entry [d * n + j] of [X] is component [d] at node [j]; hanging nodes are combinations of others *)
Definition tied (f : surface) (X : vec) (e : nat) : R := suml (f_con f e) (fun x => snd x * X (fst x))%R.
(** component [k] at point [q] of cell [c] of the field with nodal values [X] *)
Definition field (p : problem) (f : surface) (X : vec) (c q k : nat) : R :=
  suml (seq 0 (length (p_vdofs p c))) (fun i => if Nat.eqb (f_comp f i) k then f_vshape f c i q * tied f X (nth i (p_vdofs p c) 0%nat) else 0)%R.
(** discrete integral of u . v *)
Definition integral (p : problem) (f : surface) (u v : nat -> nat -> nat -> R) : R :=
  suml (seq 0 (p_cells p)) (fun c => suml (seq 0 (f_points f)) (fun q => f_jxw f c q * suml (seq 0 (p_dim p)) (fun k => u c q k * v c q k)))%R.
(** [X] is the L2 projection of [G] *)
Definition projects (p : problem) (f : surface) (G : nat -> nat -> nat -> R) (X : vec) : Prop :=
  forall Y, integral p f (field p f Y) (fun c q k => field p f X c q k - G c q k)%R = 0%R.
(** a scalar function with nodal values [v], and its surface gradient *)
Definition scalar (p : problem) (f : surface) (v : vec) (c q : nat) : R := suml (seq 0 (length (p_dofs p c))) (fun i => f_shape f c i q * v (nth i (p_dofs p c) 0%nat))%R.
Definition sgradient (p : problem) (f : surface) (v : vec) (c q k : nat) : R := suml (seq 0 (length (p_dofs p c))) (fun i => f_grad f c i q k * v (nth i (p_dofs p c) 0%nat))%R.
(** [w j d] are the nodal values of the projection of [G] *)
Definition is_projection (p : problem) (f : surface) (G : nat -> nat -> nat -> R) (w : nat -> nat -> R) : Prop :=
  exists X, projects p f G X /\ forall j d, j < p_n p -> d < p_dim p -> w j d = tied f X (d * p_n p + j).
Record in_range (p : problem) (f : surface) : Prop := {
  ra_comp : forall i, f_comp f i < p_dim p;
  ra_con : forall e x, e < p_dim p * p_n p -> In x (f_con f e) -> fst x < p_dim p * p_n p }.
(** positive JxW; nodal values determined by the values at the quadrature points *)
Record fine_surface (p : problem) (f : surface) : Prop := {
  fs_range : in_range p f;
  fs_jxw : forall c q, c < p_cells p -> q < f_points f -> (0 < f_jxw f c q)%R;
  fs_uni : forall X : vec,
    (forall c q k, c < p_cells p -> q < f_points f -> k < p_dim p ->
       suml (seq 0 (length (p_vdofs p c))) (fun i => if Nat.eqb (f_comp f i) k then f_vshape f c i q * X (nth i (p_vdofs p c) 0%nat) else 0)%R = 0%R) ->
    forall c e, c < p_cells p -> In e (p_vdofs p c) -> X e = 0%R }.

Lemma integral_ext p f u u' v v' :
  (forall c q k, c < p_cells p -> q < f_points f -> k < p_dim p -> u c q k = u' c q k) ->
  (forall c q k, c < p_cells p -> q < f_points f -> k < p_dim p -> v c q k = v' c q k) -> integral p f u v = integral p f u' v'.
Proof.
  intros A B. unfold integral. apply suml_ext. intros c Hc. apply in_seq in Hc. apply suml_ext. intros q Hq. apply in_seq in Hq. f_equal.
  apply suml_ext. intros k Hk. apply in_seq in Hk. rewrite A, B by lia. reflexivity.
Qed.
Lemma projects_ext p f G G' X : (forall c q k, c < p_cells p -> q < f_points f -> k < p_dim p -> G c q k = G' c q k) -> projects p f G X -> projects p f G' X.
Proof. intros E Q Y. rewrite <- (Q Y). apply integral_ext; auto. intros. rewrite E; auto. Qed.

Section One.
  Variables (p : problem) (f : surface) (sub : nat -> nat) (np : nat).
  Notation U := (numbers p sub np).
  Notation n := (p_n p).
  Notation P := (run_projection p f sub np).
  Hypothesis W : well_numbered U.
  Hypothesis Ra : in_range p f.

  Lemma f_o2s j : j < p_dim p * n -> vo2s U j < p_dim p * n /\ vs2o U (vo2s U j) = j.
  Proof. intros Hj. destruct (proj1 (proj2 (C71_tables U W)) j Hj) as (A & B & _). auto. Qed.
  Lemma f_s2o j : j < p_dim p * n -> vs2o U j < p_dim p * n /\ vo2s U (vs2o U j) = j.
  Proof. intros Hj. destruct (proj1 (proj2 (C71_tables U W)) j Hj) as (_ & _ & A & B). auto. Qed.
  Lemma vdof_range c e : c < p_cells p -> In e (p_vdofs p c) -> e < p_dim p * n.
  Proof.
    intros Hc He. destruct W as (_ & _ & W2 & _ & W4). apply (W4 c e Hc) in He. destruct He as (d & i & Hd & Hi & ->).
    assert (X : i < n) by (apply (W2 c i); auto). cbn in Hd, X |- *. apply Nat.lt_le_trans with (S d * n); [cbn; lia|apply Nat.mul_le_mono_r; lia].
  Qed.
  Lemma vdof_all j d : j < n -> d < p_dim p -> exists c, c < p_cells p /\ In (d * n + j) (p_vdofs p c).
  Proof.
    intros Hj Hd. destruct W as (_ & _ & _ & W3 & W4). destruct (W3 j Hj) as (c & Hc & Hi). exists c. split; auto. apply (W4 c); eauto.
  Qed.
  Lemma f_gdof c i : i < length (p_vdofs p c) -> ModelProj.gdof P c i = vo2s U (nth i (p_vdofs p c) 0%nat).
  Proof.
    intros Hi. unfold ModelProj.gdof. cbn [run_projection ModelProj.p_cdofs]. unfold vdofs_now. cbn [numbers nu_vdofs].
    rewrite (nth_indep _ 0 (vo2s U 0)) by (rewrite map_length; auto). apply map_nth.
  Qed.
  Lemma f_tied x e : e < p_dim p * n -> ModelProj.distribute P x (vo2s U e) = tied f (fun j => x (vo2s U j)) e.
  Proof.
    intros He. unfold ModelProj.distribute, tied. cbn [run_projection ModelProj.p_con]. rewrite (proj2 (f_o2s e He)), suml_map. reflexivity.
  Qed.
  Lemma f_value x c q k : c < p_cells p -> SpecProj.value P (ModelProj.distribute P x) c q k = field p f (fun j => x (vo2s U j)) c q k.
  Proof.
    intros Hc. unfold SpecProj.value, field, ModelProj.locals.
    replace (length (ModelProj.p_cdofs P c)) with (length (p_vdofs p c)) by (cbn; unfold vdofs_now; rewrite map_length; reflexivity).
    apply suml_ext. intros i Hi. apply in_seq in Hi. rewrite f_gdof by lia. rewrite f_tied by (apply (vdof_range c); auto; apply nth_In; lia). reflexivity.
  Qed.
  Lemma f_wf : SpecProj.well_formed P (p_dim p) np.
  Proof.
    split; [|split].
    - intros c Hc. destruct W as (_ & W1 & _). apply (W1 c); auto.
    - exact (ra_comp p f Ra).
    - intros c i Hc Hi ew He. cbn in Hc. assert (Li : i < length (p_vdofs p c)) by (cbn in Hi; unfold vdofs_now in Hi; rewrite map_length in Hi; auto).
      assert (Le : nth i (p_vdofs p c) 0 < p_dim p * n) by (apply (vdof_range c); auto; apply nth_In; auto).
      rewrite f_gdof in He by auto. cbn [run_projection ModelProj.p_con] in He. rewrite (proj2 (f_o2s _ Le)) in He.
      apply in_map_iff in He as (x & <- & Hx). cbn [fst ModelProj.p_dofs run_projection]. apply f_o2s. apply (ra_con p f Ra _ x Le Hx).
  Qed.
  Lemma tied_ext X Y e : e < p_dim p * n -> (forall j, j < p_dim p * n -> X j = Y j) -> tied f X e = tied f Y e.
  Proof. intros He E. unfold tied. apply suml_ext. intros x Hx. rewrite E; auto. apply (ra_con p f Ra e x); auto. Qed.
  Lemma field_ext X Y c q k : c < p_cells p -> (forall j, j < p_dim p * n -> X j = Y j) -> field p f X c q k = field p f Y c q k.
  Proof.
    intros Hc E. unfold field. apply suml_ext. intros i Hi. apply in_seq in Hi. rewrite (tied_ext X Y); auto. apply (vdof_range c); auto. apply nth_In. lia.
  Qed.
  (** the system solved on the processes is the projection in the numbering of the mesh *)
  Lemma f_projects G x : ModelProj.solves P G np x <-> projects p f G (fun j => x (vo2s U j)).
  Proof.
    rewrite (PropProj.C61_projection_is_the_weak_form P (p_dim p) np f_wf G x).
    assert (E : forall y, SpecProj.inner P (p_dim p) (SpecProj.value P (ModelProj.distribute P y)) (fun c q k => SpecProj.value P (ModelProj.distribute P x) c q k - G c q k)%R =
      integral p f (field p f (fun j => y (vo2s U j))) (fun c q k => field p f (fun j => x (vo2s U j)) c q k - G c q k)%R).
    { intros y. change (SpecProj.inner P (p_dim p)) with (integral p f). apply integral_ext; intros; rewrite !f_value by auto; reflexivity. }
    split.
    - intros Q Y. rewrite <- (Q (fun d => Y (vs2o U d))), E. apply integral_ext; auto. intros c q k Hc _ _. apply field_ext; auto.
      intros j Hj. rewrite (proj2 (f_o2s j Hj)). reflexivity.
    - intros Q y. rewrite E. apply Q.
  Qed.
  Lemma f_nodal x j d : j < n -> d < p_dim p -> nodal p f sub np x j d = tied f (fun e => x (vo2s U e)) (d * n + j).
  Proof.
    intros Hj Hd. unfold nodal. replace (j <? n) with true by (symmetry; apply Nat.ltb_lt; auto). replace (d <? p_dim p) with true by (symmetry; apply Nat.ltb_lt; auto).
    apply f_tied. destruct (vdof_all j d Hj Hd) as (c & Hc & Hi). apply (vdof_range c); auto.
  Qed.
  Lemma f_solves G x : ModelProj.solves P G np x -> is_projection p f G (nodal p f sub np x).
  Proof. intros S. exists (fun e => x (vo2s U e)). split; [apply f_projects; auto|]. intros. apply f_nodal; auto. Qed.
  Lemma f_scalar v c q : c < p_cells p -> at_points p f sub np v c q = scalar p f (fun j => v (o2s U j)) c q.
  Proof.
    intros Hc. unfold at_points, scalar. apply suml_ext. intros i Hi. apply in_seq in Hi. unfold dofs_now. cbn [numbers nu_dofs].
    rewrite (nth_indep _ 0 (o2s U 0)) by (rewrite map_length; lia). rewrite map_nth. reflexivity.
  Qed.
  Lemma f_sgradient v c q k : c < p_cells p -> grad_at_points p f sub np v c q k = sgradient p f (fun j => v (o2s U j)) c q k.
  Proof.
    intros Hc. unfold grad_at_points, sgradient. apply suml_ext. intros i Hi. apply in_seq in Hi. unfold dofs_now. cbn [numbers nu_dofs].
    rewrite (nth_indep _ 0 (o2s U 0)) by (rewrite map_length; lia). rewrite map_nth. reflexivity.
  Qed.
  Lemma dof_range c i : c < p_cells p -> i < length (p_dofs p c) -> nth i (p_dofs p c) 0 < n.
  Proof. intros Hc Hi. destruct W as (_ & _ & W2 & _). apply (W2 c); auto. apply nth_In; auto. Qed.
  Lemma sgradient_ext u v c q k : c < p_cells p -> (forall j, j < n -> u j = v j) -> sgradient p f u c q k = sgradient p f v c q k.
  Proof. intros Hc E. unfold sgradient. apply suml_ext. intros i Hi. apply in_seq in Hi. rewrite E; auto. apply dof_range; auto; lia. Qed.
  Lemma scalar_ext u v c q : c < p_cells p -> (forall j, j < n -> u j = v j) -> scalar p f u c q = scalar p f v c q.
  Proof. intros Hc E. unfold scalar. apply suml_ext. intros i Hi. apply in_seq in Hi. rewrite E; auto. apply dof_range; auto; lia. Qed.
End One.

Lemma is_projection_ext p f G G' w : (forall c q k, c < p_cells p -> q < f_points f -> k < p_dim p -> G c q k = G' c q k) -> is_projection p f G w -> is_projection p f G' w.
Proof. intros E (X & A & B). exists X. split; auto. apply (projects_ext p f G); auto. Qed.

(** ** Theorems *)
(** the projection of a field is determined *)
Theorem C84_projection_is_determined : forall p f sub np G w w', well_numbered (numbers p sub np) -> fine_surface p f ->
  is_projection p f G w -> is_projection p f G w' -> forall j d, j < p_n p -> d < p_dim p -> w j d = w' j d.
Proof.
  intros p f sub np G w w' W Fs (X & PX & EX) (X' & PX' & EX') j d Hj Hd. assert (Ra := fs_range p f Fs). rewrite EX, EX' by auto.
  set (Z := fun e => (X e - X' e)%R).
  assert (Tz : forall e, tied f Z e = (tied f X e - tied f X' e)%R).
  { intros e. unfold tied, Z. replace (suml (f_con f e) (fun x => (snd x * X (fst x))%R) - suml (f_con f e) (fun x => (snd x * X' (fst x))%R))%R
      with (suml (f_con f e) (fun x => (snd x * X (fst x))%R) + (-1) * suml (f_con f e) (fun x => (snd x * X' (fst x))%R))%R by ring.
    rewrite <- suml_scal, <- suml_plus. apply suml_ext. intros. ring. }
  assert (Fz : forall c q k, field p f Z c q k = (field p f X c q k - field p f X' c q k)%R).
  { intros c q k. unfold field. match goal with |- _ = (?a - ?b)%R => replace (a - b)%R with (a + (-1) * b)%R by ring end.
    rewrite <- suml_scal, <- suml_plus. apply suml_ext. intros i _. rewrite Tz. destruct (_ =? _); ring. }
  assert (Zero : integral p f (field p f Z) (field p f Z) = 0%R).
  { assert (A := PX Z). assert (B := PX' Z). unfold integral in *.
    match type of A with ?a = _ => match type of B with ?b = _ => transitivity (a + (-1) * b)%R; [|rewrite A, B; ring] end end.
    rewrite <- suml_scal, <- suml_plus. apply suml_ext. intros c _. rewrite <- suml_scal, <- suml_plus. apply suml_ext. intros q _.
    match goal with |- (?j0 * ?a = ?j0 * ?b + -1 * (?j0 * ?c0))%R => replace (j0 * b + -1 * (j0 * c0))%R with (j0 * (b + (-1) * c0))%R by ring end.
    f_equal. rewrite <- suml_scal, <- suml_plus. apply suml_ext. intros k _. rewrite !Fz. ring. }
  assert (N0 : forall c q, (0 <= suml (seq 0 (p_dim p)) (fun k => field p f Z c q k * field p f Z c q k))%R).
  { intros. apply ProofsProj.suml_nonneg. intros. apply Rle_0_sqr. }
  assert (N1 : forall c q, c < p_cells p -> q < f_points f -> (0 <= f_jxw f c q * suml (seq 0 (p_dim p)) (fun k => field p f Z c q k * field p f Z c q k))%R).
  { intros c q Hc Hq. apply Rmult_le_pos; auto. left. apply (fs_jxw p f Fs); auto. }
  assert (V : forall c q k, c < p_cells p -> q < f_points f -> k < p_dim p -> field p f Z c q k = 0%R).
  { intros c q k Hc Hq Hk. unfold integral in Zero.
    assert (A : suml (seq 0 (f_points f)) (fun q => f_jxw f c q * suml (seq 0 (p_dim p)) (fun k => field p f Z c q k * field p f Z c q k))%R = 0%R).
    { apply (ProofsProj.suml_zero_inv (seq 0 (p_cells p)) (fun c => suml (seq 0 (f_points f)) (fun q => f_jxw f c q * suml (seq 0 (p_dim p)) (fun k => field p f Z c q k * field p f Z c q k))%R)); [|exact Zero|apply in_seq; lia].
      intros c' Hc'. apply in_seq in Hc'. apply ProofsProj.suml_nonneg. intros q' Hq'. apply in_seq in Hq'. apply N1; lia. }
    assert (B : (f_jxw f c q * suml (seq 0 (p_dim p)) (fun k => field p f Z c q k * field p f Z c q k))%R = 0%R).
    { apply (ProofsProj.suml_zero_inv (seq 0 (f_points f)) (fun q => f_jxw f c q * suml (seq 0 (p_dim p)) (fun k => field p f Z c q k * field p f Z c q k))%R); [|exact A|apply in_seq; lia].
      intros q' Hq'. apply in_seq in Hq'. apply N1; lia. }
    assert (J := fs_jxw p f Fs c q Hc Hq). apply Rmult_integral in B as [B|B]; [lra|].
    assert (C : (field p f Z c q k * field p f Z c q k)%R = 0%R).
    { apply (ProofsProj.suml_zero_inv (seq 0 (p_dim p)) (fun k => field p f Z c q k * field p f Z c q k)%R); [|exact B|apply in_seq; lia]. intros k' _. apply Rle_0_sqr. }
    apply Rmult_integral in C. tauto. }
  destruct (vdof_all p sub np W j d Hj Hd) as (c & Hc & He).
  assert (Q := fs_uni p f Fs (tied f Z) V c _ Hc He). rewrite Tz in Q. lra.
Qed.

Lemma data_of_a_flux_node p j : ~ on_dirichlet p j -> snd (fst (node_data p j)) = snd (node_data p j).
Proof.
  intros N. unfold node_data. assert (L : forall c, In c (seq 0 (p_cells p)) -> c < p_cells p) by (intros c Hc; apply in_seq in Hc; lia).
  assert (G : forall l t, (forall c, In c l -> c < p_cells p) -> snd (fst t) = snd t -> snd (fst (fold_left (node_step p j) l t)) = snd (fold_left (node_step p j) l t)); [|apply G; auto].
  induction l as [|c l IH]; intros t Hl E; [exact E|]. cbn [fold_left]. apply IH; [intros; apply Hl; right; auto|]. unfold node_step.
  destruct (existsb (Nat.eqb j) (p_dofs p c)) eqn:X; [|exact E]. destruct (is_in (p_dirichlet p) (p_mat p c)) eqn:D.
  - exfalso. apply N. apply existsb_exists in X as (y & Y1 & Y2). apply Nat.eqb_eq in Y2. subst y. unfold is_in in D. apply existsb_exists in D as (m & M1 & M2). apply Nat.eqb_eq in M2. subst m.
    exists c. split; [apply Hl; left; auto|]. auto.
  - destruct (is_in (p_neumann p) (p_mat p c)); reflexivity.
Qed.

(** What the vectors of the result files are: [normals_at_nodes] the projection of the unit normal; [phi_gradient] that of
    normal * dphi_dn + surface gradient of phi, with the phi and dphi_dn of the file. *)
Theorem C84_normals_and_gradient : forall p f sub np r, well_numbered (numbers p sub np) -> in_range p f -> is_run p f sub np r ->
  is_projection p f (f_normal f) (out_normals p f sub np r) /\
  is_projection p f (fun c q k => f_normal f c q k * scalar p f (out_dphi p f sub np r) c q + sgradient p f (out_phi p f sub np r) c q k)%R (out_gradient p f sub np r).
Proof.
  intros p f sub np r W Ra I. split.
  - apply (f_solves p f sub np W Ra _ _ (ir_normals p f sub np r I)).
  - assert (Q := f_solves p f sub np W Ra _ _ (ir_grad p f sub np r I)). revert Q. apply is_projection_ext. intros c q k Hc _ _. unfold ModelProj.gradient_field.
    rewrite f_scalar, f_sgradient by auto. reflexivity.
Qed.
(** [phi_surf_gradient] is the projection of the surface gradient, not of the potential, but of the data of the problem:
    the potential at Dirichlet nodes and the normal derivative at the other nodes. *)
Theorem C84_surface_gradient : forall p f sub np r, well_numbered (numbers p sub np) -> in_range p f -> one_kind p -> is_run p f sub np r ->
  forall w, (forall j, j < p_n p -> (on_dirichlet p j -> w j = out_phi p f sub np r j) /\ (~ on_dirichlet p j -> w j = out_dphi p f sub np r j)) ->
  is_projection p f (sgradient p f w) (out_surf_gradient p f sub np r).
Proof.
  intros p f sub np r W Ra K I w Hw. assert (Q := f_solves p f sub np W Ra _ _ (ir_surf p f sub np r I)). revert Q. apply is_projection_ext. intros c q k Hc _ _.
  unfold ModelProj.surface_gradient_field. rewrite f_sgradient by auto. apply (sgradient_ext p f sub np W); auto. intros j Hj. symmetry.
  set (p' := fields p f sub np r) in *. change (well_numbered (numbers p' sub np)) in W. change (one_kind p') in K.
  destruct (u_o2s p' sub np W j Hj) as [A B]. assert (E := u_vectors p' sub np W (o2s (numbers p sub np) j) A).
  change (s2o (numbers p sub np) (o2s (numbers p sub np) j) = j) in B. change (s2o (numbers p' sub np)) with (s2o (numbers p sub np)) in E. rewrite B in E.
  assert (Sa : forall i, s_dir (run_system p' sub np) i = true -> run_phi p' sub np (r_sol r) i = run_phi0 p' sub np i).
  { intros i Hi. unfold run_phi. rewrite (proj1 (solved_at (run_system p' sub np) (run_phi0 p' sub np) (fun _ => 0%R) (r_sol r) i)), Hi. reflexivity. }
  assert (Sb : forall i, s_dir (run_system p' sub np) i = false -> run_dphi p' sub np (r_sol r) i = run_dphi0 p' sub np i).
  { intros i Hi. unfold run_dphi. rewrite (proj2 (solved_at (run_system p' sub np) (fun _ => 0%R) (run_dphi0 p' sub np) (r_sol r) i)), Hi. reflexivity. }
  assert (D := u_dir p' sub np W K (o2s (numbers p sub np) j) A). change (s2o (numbers p' sub np)) with (s2o (numbers p sub np)) in D. rewrite B in D.
  destruct (s_dir (run_system p' sub np) (o2s (numbers p sub np) j)) eqn:Sd.
  - assert (O : on_dirichlet p j) by (apply D; auto). rewrite (proj1 (Hw j Hj) O). unfold out_phi, end_phi. fold p'. rewrite (Sa _ Sd).
    assert (O' : on_dirichlet p' (s2o (numbers p' sub np) (o2s (numbers p sub np) j))) by (change (s2o (numbers p' sub np)) with (s2o (numbers p sub np)); rewrite B; exact O).
    destruct (u_pot p' sub np W K (o2s (numbers p sub np) j) A O') as [E1 E2]. rewrite E1, E2. reflexivity.
  - assert (O : ~ on_dirichlet p j) by (intros O; apply D in O; discriminate). rewrite (proj2 (Hw j Hj) O). unfold out_dphi, end_dphi. fold p'. rewrite (Sb _ Sd).
    assert (X := data_of_a_flux_node p' j O). rewrite <- E in X. exact X.
Qed.
(** ... so it is the surface gradient of the potential if all nodes are Dirichlet nodes *)
Theorem C84_surface_gradient_of_dirichlet_problems : forall p f sub np r, well_numbered (numbers p sub np) -> in_range p f -> is_run p f sub np r ->
  (forall c, c < p_cells p -> In (p_mat p c) (p_dirichlet p)) ->
  is_projection p f (sgradient p f (out_phi p f sub np r)) (out_surf_gradient p f sub np r).
Proof.
  intros p f sub np r W Ra I All. apply (C84_surface_gradient p f sub np r W Ra); auto.
  - intros j c1 c2 _ H2 _ _ _. auto.
  - intros j Hj. split; [auto|]. intros N. exfalso. apply N. destruct W as (_ & _ & _ & W3 & _). destruct (W3 j Hj) as (c & Hc & Hi). exists c. split; [exact Hc|]. split; [exact Hi|auto].
Qed.

(** The files do not depend on the number of processes or on the partition of the cells. *)
Theorem C84_number_of_processes : forall p f sub np sub' np' r r',
  well_numbered (numbers p sub np) -> well_numbered (numbers p sub' np') -> fine_surface p f ->
  is_run p f sub np r -> is_run p f sub' np' r' ->
  fine_problem (fields p f sub np r) -> closing (fields p f sub np r) sub np -> closing (fields p f sub' np' r') sub' np' ->
  (forall s t, run_solves (fields p f sub np r) sub np s -> run_solves (fields p f sub np r) sub np t -> forall i, i < p_n p -> s i = t i) ->
  forall j, j < p_n p ->
    out_phi p f sub' np' r' j = out_phi p f sub np r j /\
    out_dphi p f sub' np' r' j = out_dphi p f sub np r j /\
    out_alpha p f sub' np' r' j = out_alpha p f sub np r j /\
    forall d, d < p_dim p ->
      out_gradient p f sub' np' r' j d = out_gradient p f sub np r j d /\
      out_surf_gradient p f sub' np' r' j d = out_surf_gradient p f sub np r j d /\
      out_normals p f sub' np' r' j d = out_normals p f sub np r j d.
Proof.
  intros p f sub np sub' np' r r' W W' Fs I I' Fp Cl Cl' Un. assert (Ra := fs_range p f Fs).
  assert (Nd : forall x x', (forall j d, j < p_n p -> d < p_dim p -> nodal p f sub np x j d = nodal p f sub' np' x' j d) -> nodal p f sub np x = nodal p f sub' np' x').
  { intros x x' E. apply functional_extensionality. intros j. apply functional_extensionality. intros d. specialize (E j d). unfold nodal in *.
    destruct (j <? p_n p) eqn:A, (d <? p_dim p) eqn:B; cbn [andb] in *; auto. apply E; [apply Nat.ltb_lt; auto|apply Nat.ltb_lt; auto]. }
  assert (En : nodal p f sub np (r_normals r) = nodal p f sub' np' (r_normals r')).
  { apply Nd. apply (C84_projection_is_determined p f sub np (f_normal f)); auto.
    - apply (f_solves p f sub np W Ra _ _ (ir_normals p f sub np r I)).
    - apply (f_solves p f sub' np' W' Ra _ _ (ir_normals p f sub' np' r' I')). }
  assert (Es : nodal p f sub np (r_surf r) = nodal p f sub' np' (r_surf r')).
  { apply Nd. apply (C84_projection_is_determined p f sub np (sgradient p f (node_rhs (fields p f sub np r)))); auto.
    - assert (Q := f_solves p f sub np W Ra _ _ (ir_surf p f sub np r I)). revert Q. apply is_projection_ext. intros c q k Hc _ _. unfold ModelProj.surface_gradient_field.
      rewrite f_sgradient by auto. apply (sgradient_ext p f sub np W); auto. intros j Hj. destruct (u_o2s p sub np W j Hj) as [A B]. rewrite (u_rhs (fields p f sub np r) sub np W _ A).
      change (node_rhs (fields p f sub np r) (s2o (numbers p sub np) (o2s (numbers p sub np) j)) = node_rhs (fields p f sub np r) j). rewrite B. reflexivity.
    - assert (Q := f_solves p f sub' np' W' Ra _ _ (ir_surf p f sub' np' r' I')). revert Q. apply is_projection_ext. intros c q k Hc _ _. unfold ModelProj.surface_gradient_field.
      rewrite f_sgradient by auto. apply (sgradient_ext p f sub np W); auto. intros j Hj. destruct (u_o2s p sub' np' W' j Hj) as [A B]. rewrite (u_rhs (fields p f sub' np' r') sub' np' W' _ A).
      change (node_rhs (fields p f sub' np' r') (s2o (numbers p sub' np') (o2s (numbers p sub' np') j)) = node_rhs (fields p f sub np r) j). rewrite B.
      unfold fields. rewrite En. reflexivity. }
  assert (Ef : fields p f sub' np' r' = fields p f sub np r) by (unfold fields; rewrite En, Es; reflexivity).
  rewrite Ef in Cl'. assert (S := ir_sol p f sub np r I). assert (S' := ir_sol p f sub' np' r' I'). rewrite Ef in S'.
  assert (Q : forall j, j < p_n p -> r_sol r' (o2s (numbers p sub' np') j) = r_sol r (o2s (numbers p sub np) j) /\
    out_phi p f sub' np' r' j = out_phi p f sub np r j /\ out_dphi p f sub' np' r' j = out_dphi p f sub np r j).
  { intros j Hj. unfold out_phi, out_dphi, end_phi, end_dphi. rewrite Ef. exact (C82_same_answer (fields p f sub np r) sub np sub' np' (r_sol r) (r_sol r') W W' Fp Cl Cl' Un S S' j Hj). }
  intros j Hj. destruct (Q j Hj) as (_ & Q1 & Q2). split; [exact Q1|]. split; [exact Q2|]. split.
  - unfold out_alpha. rewrite Ef. set (p' := fields p f sub np r) in *.
    assert (RN := two_renumbered p' sub sub' np np' W W' Fp). destruct (u_o2s p' sub' np' W' j Hj) as [A B].
    assert (R := rn_N _ _ _ _ _ _ RN fresh_ones fresh_ones (o2s (numbers p' sub' np') j) A ltac:(reflexivity)).
    change (o2s (numbers p sub' np') j) with (o2s (numbers p' sub' np') j). change (o2s (numbers p sub np) j) with (o2s (numbers p' sub np) j). rewrite <- B at 2. exact R.
  - intros d Hd. split; [|split].
    + destruct (C84_normals_and_gradient p f sub np r W Ra I) as [_ G]. destruct (C84_normals_and_gradient p f sub' np' r' W' Ra I') as [_ G'].
      eapply (C84_projection_is_determined p f sub np); [exact W|exact Fs| |exact G|exact Hj|exact Hd]. revert G'. apply is_projection_ext. intros c q k Hc _ _.
      rewrite (scalar_ext p f sub np W (out_dphi p f sub' np' r') (out_dphi p f sub np r)), (sgradient_ext p f sub np W (out_phi p f sub' np' r') (out_phi p f sub np r)); auto; intros i Hi; apply (Q i Hi).
    + unfold out_surf_gradient. rewrite Es. reflexivity.
    + unfold out_normals. rewrite En. reflexivity.
Qed.

(** ... and if all systems can be solved with one partition, they can with another *)
Lemma projects_same p f sub np G X Y : well_numbered (numbers p sub np) -> in_range p f -> (forall e, e < p_dim p * p_n p -> X e = Y e) -> projects p f G X -> projects p f G Y.
Proof.
  intros W Ra E P Z. rewrite <- (P Z). apply integral_ext; auto. intros c q k Hc _ _. rewrite (field_ext p f sub np W Ra X Y); auto.
Qed.
Theorem C84_runs_carry_over : forall p f sub np sub' np' r,
  well_numbered (numbers p sub np) -> well_numbered (numbers p sub' np') -> in_range p f ->
  is_run p f sub np r ->
  fine_problem (fields p f sub np r) -> closing (fields p f sub np r) sub np -> closing (fields p f sub np r) sub' np' ->
  exists r', is_run p f sub' np' r' /\ fields p f sub' np' r' = fields p f sub np r.
Proof.
  intros p f sub np sub' np' r W W' Ra I Fp Cl Cl'.
  set (mv := fun (x : vec) d => x (vo2s (numbers p sub np) (vs2o (numbers p sub' np') d))).
  set (r' := {| r_normals := mv (r_normals r); r_surf := mv (r_surf r); r_sol := fun i => r_sol r (o2s (numbers p sub np) (s2o (numbers p sub' np') i)); r_grad := mv (r_grad r) |}).
  assert (Mv : forall x e, e < p_dim p * p_n p -> mv x (vo2s (numbers p sub' np') e) = x (vo2s (numbers p sub np) e)).
  { intros x e He. unfold mv. rewrite (proj2 (f_o2s p sub' np' W' e He)). reflexivity. }
  assert (Nd : forall x, nodal p f sub' np' (mv x) = nodal p f sub np x).
  { intros x. apply functional_extensionality. intros j. apply functional_extensionality. intros d.
    destruct (Nat.ltb_spec j (p_n p)) as [Hj|Hj]; [destruct (Nat.ltb_spec d (p_dim p)) as [Hd|Hd]|].
    - rewrite (f_nodal p f sub' np' W'), (f_nodal p f sub np W) by auto. apply (tied_ext p f Ra); [|intros; apply Mv; auto].
      destruct (vdof_all p sub np W j d Hj Hd) as (c & Hc & Hi). apply (vdof_range p sub np W c); auto.
    - unfold nodal. replace (d <? p_dim p) with false by (symmetry; apply Nat.ltb_ge; auto). rewrite !andb_false_r. reflexivity.
    - unfold nodal. replace (j <? p_n p) with false by (symmetry; apply Nat.ltb_ge; auto). reflexivity. }
  assert (Ef : fields p f sub' np' r' = fields p f sub np r) by (unfold fields; cbn [r_normals r_surf r']; rewrite !Nd; reflexivity).
  exists r'. split; [|exact Ef].
  assert (Pr : forall G G' x, ModelProj.solves (run_projection p f sub np) G np x -> (forall c q k, c < p_cells p -> q < f_points f -> k < p_dim p -> G c q k = G' c q k) ->
    ModelProj.solves (run_projection p f sub' np') G' np' (mv x)).
  { intros G G' x S E. apply (f_projects p f sub' np' W' Ra). apply (projects_ext p f G); auto.
    apply (projects_same p f sub np G (fun e => x (vo2s (numbers p sub np) e))); auto; [intros e He; symmetry; apply Mv; auto|]. apply (f_projects p f sub np W Ra). exact S. }
  destruct (C82_number_of_processes (fields p f sub np r) sub np sub' np' (r_sol r) (r_sol r') W W' Fp Cl Cl') as (Q1 & Q2).
  { intros j Hj. cbn [r_sol r']. change (r_sol r (o2s (numbers p sub np) (s2o (numbers p sub' np') (o2s (numbers p sub' np') j))) = r_sol r (o2s (numbers p sub np) j)). rewrite (proj2 (u_o2s p sub' np' W' j Hj)). reflexivity. }
  constructor.
  - apply (Pr (ModelProj.normals_field (f_normal f)) (ModelProj.normals_field (f_normal f))); auto. apply (ir_normals p f sub np r I).
  - rewrite Ef. refine (Pr _ _ _ (ir_surf p f sub np r I) _). intros c q k Hc _ _. unfold ModelProj.surface_gradient_field. rewrite !f_sgradient by auto.
    apply (sgradient_ext p f sub np W); auto. intros j Hj. destruct (u_o2s p sub np W j Hj) as [A B], (u_o2s p sub' np' W' j Hj) as [A' B'].
    rewrite (u_rhs (fields p f sub np r) sub np W _ A), (u_rhs (fields p f sub np r) sub' np' W' _ A').
    change (node_rhs (fields p f sub np r) (s2o (numbers p sub np) (o2s (numbers p sub np) j)) = node_rhs (fields p f sub np r) (s2o (numbers p sub' np') (o2s (numbers p sub' np') j))).  rewrite B, B'. reflexivity.
  - rewrite Ef. apply Q1. apply (ir_sol p f sub np r I).
  - unfold end_phi, end_dphi. rewrite Ef. refine (Pr _ _ _ (ir_grad p f sub np r I) _). intros c q k Hc _ _. unfold ModelProj.gradient_field, end_phi, end_dphi. rewrite !f_sgradient, !f_scalar by auto.
    f_equal; [f_equal; apply (scalar_ext p f sub np W); auto|apply (sgradient_ext p f sub np W); auto]; intros j Hj; symmetry; apply (Q2 j Hj).
Qed.
