(** * The reported errors (C72). *)
From Coq Require Import List Arith Bool Reals Lia Lra.
From Verif Require Import LibSum ModelBem ModelBc ProofsBc ModelOwn SpecOwn ProofsOwn PropOwn ModelErr.
Import ListNotations.
Local Open Scope nat_scope.

Lemma linfty_le m v e : (0 <= e)%R -> ((linfty m v <= e)%R <-> forall i, i < m -> (Rabs (v i) <= e)%R).
Proof.
  intros He. unfold linfty. assert (G : forall l a, (fold_left (fun a i => Rmax a (Rabs (v i))) l a <= e)%R <-> (a <= e)%R /\ forall i, In i l -> (Rabs (v i) <= e)%R).
  { induction l as [|i l IH]; intros a; cbn [fold_left]; [split; [intros; split; auto; intros i []|tauto]|]. rewrite IH. split.
    - intros (A & B). split; [eapply Rle_trans; [apply Rmax_l|exact A]|]. intros k [<-|K]; auto. eapply Rle_trans; [apply Rmax_r|exact A].
    - intros (A & B). split; [apply Rmax_lub; auto; apply B; left; auto|]. intros; apply B; right; auto. }
  rewrite G. split; [intros (_ & B) i Hi; apply B, in_seq; lia|intros B; split; auto; intros i Hi; apply in_seq in Hi; apply B; lia].
Qed.
Lemma linfty_nonneg m v : (0 <= linfty m v)%R.
Proof.
  unfold linfty. assert (G : forall l a, (a <= fold_left (fun a i => Rmax a (Rabs (v i))) l a)%R).
  { induction l as [|i l IH]; intros a; cbn [fold_left]; [lra|]. eapply Rle_trans; [apply Rmax_l|apply IH]. }
  apply G.
Qed.
Lemma linfty_ge m v i : i < m -> (Rabs (v i) <= linfty m v)%R.
Proof. intros Hi. apply (linfty_le m v (linfty m v)); auto; [apply linfty_nonneg|lra]. Qed.
Lemma l2_eq m v : l2 m v = sqrt (sumn m (fun i => (v i * v i)%R)).
Proof. unfold l2. rewrite (fold_left_plus (seq 0 m) (fun i => (v i * v i)%R) 0%R), suml_seq, Rplus_0_l. auto. Qed.
Lemma sq_sum_nonneg m v : (0 <= sumn m (fun i => v i * v i))%R.
Proof. apply sumn_nonneg. intros. apply Rle_0_sqr. Qed.
Lemma cell_l2_eq qs nc diff : cell_l2 qs nc diff = sqrt (suml qs (fun q => (snd q * sumn nc (fun k => diff (fst q) k * diff (fst q) k))%R)).
Proof.
  unfold cell_l2. rewrite (fold_left_plus qs (fun q => (snd q * _)%R) 0%R), Rplus_0_l. f_equal. apply suml_ext. intros q _.
  rewrite (fold_left_plus (seq 0 nc) (fun k => (diff (fst q) k * diff (fst q) k)%R) 0%R), suml_seq, Rplus_0_l. auto.
Qed.
Lemma suml_nonneg {T} (l : list T) f : (forall x, In x l -> (0 <= f x)%R) -> (0 <= suml l f)%R.
Proof. induction l as [|x l IH]; intros Hf; cbn; [lra|]. assert (0 <= f x)%R by (apply Hf; left; auto). assert (0 <= suml l f)%R by (apply IH; intros; apply Hf; right; auto). unfold suml in *. lra. Qed.
Lemma cell_sq qs nc diff : (forall q, In q qs -> (0 <= snd q)%R) -> (cell_l2 qs nc diff * cell_l2 qs nc diff = suml qs (fun q => snd q * sumn nc (fun k => diff (fst q) k * diff (fst q) k)))%R.
Proof. intros Hq. rewrite cell_l2_eq. apply sqrt_sqrt. apply suml_nonneg. intros q Hi. apply Rmult_le_pos; auto. apply sq_sum_nonneg. Qed.

(** tables written through permutations *)
Lemma upd_same {T} (f : nat -> T) k v : upd f k v k = v. Proof. unfold upd. rewrite Nat.eqb_refl. auto. Qed.
Lemma upd_other {T} (f : nat -> T) k v j : j <> k -> upd f k v j = f j. Proof. intros N. unfold upd. destruct (Nat.eqb_spec j k); congruence. Qed.

Lemma seq_mid k m : k < m -> seq 0 m = seq 0 k ++ k :: seq (S k) (m - S k).
Proof. intros Hk. replace m with (k + S (m - S k)) at 1 by lia. rewrite seq_app. auto. Qed.

Section ErrTables.
  Context {P : Type}.
  Variable U : numbering.
  Hypothesis W : well_numbered U.
  Variable support : nat -> P.
  Variable wind : P -> nat -> R.
  Variable normals : nat -> R.
  Notation n := (nu_n U).
  Notation dim := (nu_dim U).

  Lemma grad_exact_val d k : d < dim -> k < n -> grad_exact n dim (o2s U) (vo2s U) support wind (vo2s U (d * n + k)) = wind (support (o2s U k)) d.
  Proof.
    intros Hd Hk. unfold grad_exact.
    set (inner := fun (v : nat -> R) d => fold_left (fun v i => upd v (vo2s U (d * n + i)) (wind (support (o2s U i)) d)) (seq 0 n) v).
    assert (D : forall a b, a < dim -> b < n -> vo2s U (a * n + b) = vo2s U (d * n + k) -> a = d /\ b = k).
    { intros a b Ha Hb Q. apply (vo2s_inj U W) in Q; [|apply vec_below; auto|apply vec_below; auto].
      assert (X : (a * n + b) / n = a) by (rewrite Nat.div_add_l, Nat.div_small by lia; lia). assert (Y : (d * n + k) / n = d) by (rewrite Nat.div_add_l, Nat.div_small by lia; lia). rewrite Q, Y in X. subst a. split; auto. lia. }
    assert (I1 : forall a l v, a < dim -> (forall b, In b l -> b < n) -> (a <> d \/ ~ In k l) -> fold_left (fun v i => upd v (vo2s U (a * n + i)) (wind (support (o2s U i)) a)) l v (vo2s U (d * n + k)) = v (vo2s U (d * n + k))).
    { intros a. induction l as [|b l IH]; intros v Ha Hl Hn; cbn [fold_left]; auto. rewrite IH; auto; [|intros; apply Hl; right; auto|destruct Hn; auto; right; intros Q; apply H; right; auto].
      apply upd_other. intros Q. symmetry in Q. apply D in Q; auto; [|apply Hl; left; auto]. destruct Q as (-> & ->). destruct Hn as [Hn|Hn]; [congruence|]. apply Hn. left; auto. }
    assert (I2 : forall v, inner v d (vo2s U (d * n + k)) = wind (support (o2s U k)) d).
    { intros v. unfold inner. rewrite (seq_mid k n) by auto. rewrite fold_left_app. cbn [fold_left].
      rewrite I1; auto; [apply upd_same|intros b Hb; apply in_seq in Hb; lia|right; intros Q; apply in_seq in Q; lia]. }
    change (fold_left inner (seq 0 dim) (fun _ => 0%R) (vo2s U (d * n + k)) = wind (support (o2s U k)) d). rewrite (seq_mid d dim) by auto. rewrite fold_left_app. cbn [fold_left].
    assert (I3 : forall l v, (forall a, In a l -> a < dim /\ a <> d) -> fold_left inner l v (vo2s U (d * n + k)) = v (vo2s U (d * n + k))).
    { induction l as [|a l IH]; intros v Hl; cbn [fold_left]; auto. rewrite IH by (intros; apply Hl; right; auto). destruct (Hl a) as (A & B); [left; auto|]. unfold inner. apply I1; auto. intros b Hb. apply in_seq in Hb. lia. }
    rewrite I3 by (intros a Ha; apply in_seq in Ha; lia). apply I2.
  Qed.
  Lemma dphi_exact_val k : k < n -> dphi_exact n dim (o2s U) (vo2s U) support wind normals (o2s U k) = sumn dim (fun d => (normals (vo2s U (k + d * n)) * wind (support (o2s U k)) d)%R).
  Proof.
    intros Hk. unfold dphi_exact.
    assert (I0 : forall i l v, fold_left (fun v d => upd v (o2s U i) (v (o2s U i) + normals (vo2s U (i + d * n)) * wind (support (o2s U i)) d)%R) l v (o2s U i) = (v (o2s U i) + suml l (fun d => normals (vo2s U (i + d * n)) * wind (support (o2s U i)) d))%R).
    { intros i. induction l as [|d l IH]; intros v; cbn [fold_left]; [unfold suml; cbn; lra|]. rewrite IH, upd_same. unfold suml. cbn [fold_right]. lra. }
    assert (I1 : forall i l v j, j <> o2s U i -> fold_left (fun v d => upd v (o2s U i) (v (o2s U i) + normals (vo2s U (i + d * n)) * wind (support (o2s U i)) d)%R) l v j = v j).
    { intros i. induction l as [|d l IH]; intros v j Hj; cbn [fold_left]; auto. rewrite IH by auto. apply upd_other; auto. }
    set (inner := fun v i => fold_left _ (seq 0 dim) v).
    assert (I3 : forall l v, (forall i, In i l -> i < n /\ i <> k) -> fold_left inner l v (o2s U k) = v (o2s U k)).
    { induction l as [|i l IH]; intros v Hl; cbn [fold_left]; auto. rewrite IH by (intros; apply Hl; right; auto). destruct (Hl i) as (A & B); [left; auto|]. unfold inner. apply I1. intros Q. apply B. symmetry. apply (o2s_inj U W); auto. }
    rewrite (seq_mid k n) by auto. rewrite fold_left_app. cbn [fold_left].
    rewrite I3 by (intros i Hi; apply in_seq in Hi; lia). unfold inner at 1. rewrite I0, I3, suml_seq by (intros i Hi; apply in_seq in Hi; lia). lra.
  Qed.
End ErrTables.

(** ** C72 *)
(** the nodal error vectors are, at every scalar dof i and component d, computed value minus exact value at the
    support point of i, whatever the renumbering *)
Theorem C72_node_errors : forall (P : Type) U (support : nat -> P) potential wind phi dphi grad normals i d, well_numbered U -> i < nu_n U -> d < nu_dim U ->
  let vi := fun d => vec_index (nvec U) (nu_dim U) (vo2s U) (s2o U) d i in
  phi_node_error support potential phi i = (phi i - potential (support i))%R /\
  grad_node_error (nu_n U) (nu_dim U) (o2s U) (vo2s U) support wind grad (vi d) = (grad (vi d) - wind (support i) d)%R /\
  dphi_node_error (nu_n U) (nu_dim U) (o2s U) (vo2s U) support wind dphi normals i = (dphi i - sumn (nu_dim U) (fun d => normals (vi d) * wind (support i) d))%R.
Proof.
  intros P U support potential wind phi dphi grad normals i d W Hi Hd vi. destruct (s2o_spec U W i Hi) as (A & B).
  assert (V : forall d, d < nu_dim U -> vi d = vo2s U (d * nu_n U + s2o U i)) by (intros; unfold vi; apply vec_index_eq; lia).
  split; [unfold phi_node_error; lra|]. split.
  - unfold grad_node_error. rewrite (V d Hd). rewrite grad_exact_val by auto. rewrite B. lra.
  - unfold dphi_node_error. rewrite <- B at 1 2. rewrite dphi_exact_val by auto. rewrite B.
    rewrite (sumn_ext (nu_dim U) (fun d0 => (normals (vi d0) * wind (support i) d0)%R) (fun d0 => (normals (vo2s U (s2o U i + d0 * nu_n U)) * wind (support i) d0)%R)); [lra|]. intros e He. rewrite (V e He), Nat.add_comm. auto.
Qed.
Section C72.
  Context {P : Type}.
  Variable U : numbering.
  Variable support : nat -> P.
  Variable potential : P -> R.
  Variable wind : P -> nat -> R.
  Variables phi dphi grad normals : nat -> R.
  Variable cells : nat.
  Variable quads : nat -> list (nat * R).
  Variable point : nat -> P.
  Variable eval : (nat -> R) -> nat -> R.
  Variable veval : (nat -> R) -> nat -> nat -> R.
  Notation rep := (compute_errors (nu_n U) (nu_dim U) (o2s U) (vo2s U) support potential wind phi dphi grad normals cells quads point eval veval).
  Notation vi := (fun d i => vec_index (nvec U) (nu_dim U) (vo2s U) (s2o U) d i).

  (** the two nodal maxima are what they are called *)
  Theorem C72_gradient_max : forall e, well_numbered U -> (0 <= e)%R ->
    ((e_grad_inf rep <= e)%R <-> forall d i, d < nu_dim U -> i < nu_n U -> (Rabs (grad (vi d i) - wind (support i) d) <= e)%R).
  Proof.
    intros e W He. cbn [e_grad_inf compute_errors]. rewrite linfty_le by auto. split.
    - intros Hj d i Hd Hi. rewrite <- (proj1 (proj2 (C72_node_errors P U support potential wind phi dphi grad normals i d W Hi Hd))). apply Hj. apply vec_index_domain; auto.
    - intros Hd j Hj. destruct (vs2o_spec U W j Hj) as (A & B). destruct (vec_split U _ A) as (d & k & D1 & D2 & D3).
      assert (So : s2o U (o2s U k) = k) by (apply inverse_table_spec; auto; [apply o2s_range; auto|apply o2s_inj; auto]).
      assert (V : j = vi d (o2s U k)) by (rewrite vec_index_eq by lia; rewrite So, <- D3; auto). rewrite V.
      rewrite (proj1 (proj2 (C72_node_errors P U support potential wind phi dphi grad normals (o2s U k) d W (o2s_range U W k D2) D1))). apply Hd; auto. apply o2s_range; auto.
  Qed.
  Theorem C72_flux_max : forall e, well_numbered U -> (0 <= e)%R ->
    ((e_dphi_inf rep <= e)%R <-> forall i, i < nu_n U -> (Rabs (dphi i - sumn (nu_dim U) (fun d => normals (vi d i) * wind (support i) d)) <= e)%R).
  Proof.
    intros e W He. cbn [e_dphi_inf compute_errors]. rewrite linfty_le by auto. assert (D : 0 < nu_dim U) by (destruct W; auto). split; intros Hj i Hi.
    - rewrite <- (proj2 (proj2 (C72_node_errors P U support potential wind phi dphi grad normals i 0 W Hi D))). auto.
    - rewrite (proj2 (proj2 (C72_node_errors P U support potential wind phi dphi grad normals i 0 W Hi D))). apply Hj; auto.
  Qed.
  (** the L2 numbers are the (quadrature) L2 norms over the whole surface *)
  Theorem C72_l2_norms : (forall c q, In q (quads c) -> (0 <= snd q)%R) ->
    (e_phi_l2 rep * e_phi_l2 rep = sumn cells (fun c => suml (quads c) (fun q => snd q * ((eval phi (fst q) - potential (point (fst q))) * (eval phi (fst q) - potential (point (fst q)))))))%R /\
    (e_grad_l2 rep * e_grad_l2 rep = sumn cells (fun c => suml (quads c) (fun q => snd q * sumn (nu_dim U) (fun k => (veval grad (fst q) k - wind (point (fst q)) k) * (veval grad (fst q) k - wind (point (fst q)) k)))))%R.
  Proof.
    intros Hq. cbn [e_phi_l2 e_grad_l2 compute_errors]. rewrite !l2_eq, !sqrt_sqrt by apply sq_sum_nonneg. split; apply sumn_ext; intros c _.
    - unfold phi_cells. rewrite cell_sq by apply Hq. apply suml_ext. intros q _. cbn [sumn]. ring.
    - unfold grad_cells. rewrite cell_sq by apply Hq. auto.
  Qed.
  (** the number printed as "Phi Nodes error L_inf norm" is the largest L2 norm of the error over one cell *)
  Theorem C72_phi_max_is_cellwise : forall e, (0 <= e)%R -> (forall c q, In q (quads c) -> (0 <= snd q)%R) ->
    ((e_phi_inf rep <= e)%R <-> forall c, c < cells -> (suml (quads c) (fun q => snd q * ((eval phi (fst q) - potential (point (fst q))) * (eval phi (fst q) - potential (point (fst q))))) <= e * e)%R).
  Proof.
    intros e He Hq. cbn [e_phi_inf compute_errors]. rewrite linfty_le by auto. assert (G : forall c, (Rabs (phi_cells potential phi quads point eval c) <= e <-> suml (quads c) (fun q => snd q * ((eval phi (fst q) - potential (point (fst q))) * (eval phi (fst q) - potential (point (fst q))))) <= e * e)%R); [|split; intros Hc c H1; apply G; auto].
    intros c. replace (suml (quads c) _) with (phi_cells potential phi quads point eval c * phi_cells potential phi quads point eval c)%R.
    2:{ unfold phi_cells. rewrite cell_sq by apply Hq. apply suml_ext. intros q _. cbn [sumn]. ring. }
    assert (Z : (0 <= phi_cells potential phi quads point eval c)%R) by (unfold phi_cells, cell_l2; apply sqrt_pos). rewrite Rabs_pos_eq by auto. split; intros L; [apply Rmult_le_compat; auto|]. apply Rsqr_incr_0_var; auto.
  Qed.
  Theorem C72_phi_max_below_l2 : (e_phi_inf rep <= e_phi_l2 rep <= sqrt (INR cells) * e_phi_inf rep)%R.
  Proof.
    cbn [e_phi_inf e_phi_l2 compute_errors]. set (v := phi_cells _ _ _ _ _). rewrite l2_eq. split.
    - apply linfty_le; [apply sqrt_pos|]. intros i Hi. rewrite <- sqrt_Rsqr_abs. apply sqrt_le_1; [apply Rle_0_sqr|apply sq_sum_nonneg|]. unfold Rsqr.
      assert (G : forall m, i < m -> (v i * v i <= sumn m (fun i => v i * v i))%R).
      { induction m as [|m IH]; intros Hm; [lia|]. cbn [sumn]. assert (Z := Rle_0_sqr (v m)). unfold Rsqr in Z. assert (Z2 := sq_sum_nonneg m v). destruct (Nat.eq_dec i m) as [->|]; [lra|]. assert (Q := IH ltac:(lia)). lra. }
      auto.
    - assert (Z := linfty_nonneg cells v). rewrite <- (sqrt_Rsqr (linfty cells v)) by auto. rewrite <- sqrt_mult_alt by apply pos_INR. apply sqrt_le_1; [apply sq_sum_nonneg|apply Rmult_le_pos; [apply pos_INR|apply Rle_0_sqr]|].
      rewrite <- (sumn_const cells (Rsqr (linfty cells v))).
      assert (G : forall m, m <= cells -> (sumn m (fun i => v i * v i) <= sumn m (fun _ => Rsqr (linfty cells v)))%R).
      { induction m as [|m IH]; intros Hm; cbn [sumn]; [lra|]. assert (Q := IH ltac:(lia)). assert (L := linfty_ge cells v m ltac:(lia)). assert (S := Rsqr_le_abs_1 (v m) (linfty cells v)). rewrite (Rabs_pos_eq (linfty cells v)) in S by auto. specialize (S L). unfold Rsqr in *. lra. }
      apply G. auto.
  Qed.
  (** a discrete solution that is exact at the nodes is reported so in the nodal numbers, provided the finite element
      field of the zero vector is zero *)
  Theorem C72_exact_nodes : well_numbered U ->
    (forall i, i < nu_n U -> dphi i = sumn (nu_dim U) (fun d => (normals (vi d i) * wind (support i) d)%R)) ->
    (forall d i, d < nu_dim U -> i < nu_n U -> grad (vi d i) = wind (support i) d) ->
    (forall v q, (forall i, i < nu_n U -> v i = 0%R) -> eval v q = 0%R) ->
    e_dphi_inf rep = 0%R /\ e_grad_inf rep = 0%R /\ e_dphi_l2 rep = 0%R.
  Proof.
    intros W Hd Hg Hz. assert (D : 0 < nu_dim U) by (destruct W; auto). split; [|split].
    - apply Rle_antisym; [|apply linfty_nonneg]. apply C72_flux_max; auto; [lra|]. intros i Hi. rewrite <- Hd by auto. rewrite Rminus_diag_eq, Rabs_R0 by auto. lra.
    - apply Rle_antisym; [|apply linfty_nonneg]. apply C72_gradient_max; auto; [lra|]. intros d i Hd' Hi. rewrite Hg by auto. rewrite Rminus_diag_eq, Rabs_R0 by auto. lra.
    - cbn [e_dphi_l2 compute_errors]. rewrite l2_eq. replace (sumn cells _) with 0%R; [apply sqrt_0|]. symmetry. apply sumn_zero. intros c _. unfold dphi_cells. rewrite cell_l2_eq.
      replace (suml (quads c) _) with 0%R; [rewrite sqrt_0; ring|]. symmetry. apply suml_zero. intros q _. cbn [sumn]. rewrite Hz; [ring|]. intros i Hi.
      rewrite (proj2 (proj2 (C72_node_errors P U support potential wind phi dphi grad normals i 0 W Hi D))), Hd by auto. ring.
  Qed.
End C72.
(** refutes "the Phi L_inf number is the nodal maximum": a constant nodal error of 1 on one cell of area a is reported as
    sqrt a, above or below 1 *)
Theorem C72_phi_max_is_nodal_refuted : forall a : R, (0 <= a)%R ->
  let U := {| nu_n := 4; nu_dim := 3; nu_cells := 1; nu_dofs := fun _ => [0;1;2;3]; nu_vdofs := fun _ => seq 0 12; nu_sub := fun _ => 0; nu_np := 1 |} in
  let rep := compute_errors (nu_n U) 3 (o2s U) (vo2s U) (fun _ => tt) (fun _ => 0%R) (fun _ _ => 0%R) (fun _ => 1%R) (fun _ => 0%R) (fun _ => 0%R) (fun _ => 0%R)
                1 (fun _ => [(0, a)]) (fun _ => tt) (fun v _ => ((v 0%nat + v 1%nat + v 2%nat + v 3%nat) / 4)%R) (fun _ _ _ => 0%R) in
  (forall i, i < 4 -> phi_node_error (fun _ => tt) (fun _ => 0%R) (fun _ => 1%R) i = 1%R) /\ e_phi_inf rep = sqrt a.
Proof.
  intros a Ha U rep. split; [intros i _; unfold phi_node_error; lra|]. cbn [rep e_phi_inf compute_errors]. unfold linfty. cbn [seq fold_left]. unfold phi_cells. rewrite cell_l2_eq. unfold suml. cbn [fold_right snd fst sumn].
  replace (a * (0 + ((1 + 1 + 1 + 1) / 4 - 0) * ((1 + 1 + 1 + 1) / 4 - 0)) + 0)%R with a by field. rewrite Rabs_pos_eq by apply sqrt_pos. apply Rmax_right. apply sqrt_pos.
Qed.
Example C72_nonvacuous : let rep := compute_errors (nu_n strip) (nu_dim strip) (o2s strip) (vo2s strip) (fun i => i) (fun _ => 0%R) (fun p d => INR (p + d)) (fun _ => 0%R)
     (fun i => sumn 3 (fun d => 1 * INR (i + d))%R) (fun j => if Nat.eqb j (vec_index 18 3 (vo2s strip) (s2o strip) 2 4) then 7%R else INR 0) (fun _ => 1%R) 0 (fun _ => []) (fun i => i) (fun _ _ => 0%R) (fun _ _ _ => 0%R) in
  well_numbered strip /\ e_dphi_inf rep = 0%R /\ (e_grad_inf rep <= 7)%R /\ (7 <= e_grad_inf rep)%R.
Proof.
  intros rep. assert (W : well_numbered strip) by apply C71_nonvacuous. split; auto. split; [|split].
  - apply Rle_antisym; [|apply linfty_nonneg]. apply C72_flux_max; auto; [lra|]. intros i Hi. rewrite Rminus_diag_eq, Rabs_R0 by auto. lra.
  - apply C72_gradient_max; auto; [lra|]. intros d i Hd Hi. cbn [nu_dim nu_n strip] in Hd, Hi.
    assert (B : (0 <= INR (i + d) <= 7)%R) by (split; [apply pos_INR|]; replace 7%R with (INR 7) by (cbn; lra); apply le_INR; lia).
    destruct (Nat.eqb _ _); [|cbn [INR]]; apply Rabs_le; lra.
  - assert (Q := proj1 (C72_gradient_max strip (fun i => i) (fun _ => 0%R) (fun p d => INR (p + d)) (fun _ => 0%R) (fun i => sumn 3 (fun d => 1 * INR (i + d))%R) (fun j => if Nat.eqb j (vec_index 18 3 (vo2s strip) (s2o strip) 2 4) then 7%R else INR 0) (fun _ => 1%R) 0 (fun _ => []) (fun i => i) (fun _ _ => 0%R) (fun _ _ _ => 0%R) _ W (linfty_nonneg _ _)) (Rle_refl _) 2 5).
    cbn [nu_dim nu_n strip] in Q. specialize (Q ltac:(lia) ltac:(lia)). assert (E : Nat.eqb (vec_index (nvec strip) 3 (vo2s strip) (s2o strip) 2 5) (vec_index 18 3 (vo2s strip) (s2o strip) 2 4) = false) by reflexivity. rewrite E in Q. replace 7%R with (Rabs (INR 0 - INR (5 + 2))) by (cbn; rewrite Rabs_left; lra). exact Q.
Qed.
