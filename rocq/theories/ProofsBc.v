From Coq Require Import Reals List Bool Arith Lia Lra.
From Verif Require Import LibSum ModelBem ProofsBem ModelBc.
Import ListNotations.
Local Open Scope R_scope.

Lemma upd_eq {T} (f : nat -> T) i v j : upd f i v j = if (j =? i)%nat then v else f j.
Proof. reflexivity. Qed.

(** ** FMM preconditioner *)
Lemma suml_filter {T} (P : T -> bool) l f : suml (filter P l) f = suml l (fun x => if P x then f x else 0).
Proof. induction l; simpl; auto. destruct (P a); simpl; rewrite IHl; lra. Qed.

Lemma init_prec_eq dir es i j : init_prec dir es i j =
  if Rlt_dec (8 / 10) (dir j) then - near_D es i j else near_N es i j.
Proof.
  unfold init_prec, near_D, near_N. rewrite !suml_filter.
  destruct (Rlt_dec (8 / 10) (dir j)) as [H|H].
  - replace (- suml es _) with ((-1) * suml es (fun x => if at_ij i j x then nr_D x else 0)) by lra.
    rewrite <- suml_scal. apply suml_ext. intros x _. unfold at_ij.
    destruct (nr_i x =? i)%nat; simpl; [|lra]. destruct (Nat.eqb_spec (nr_j x) j) as [->|]; simpl; [|lra].
    destruct (Rlt_dec (8 / 10) (dir j)); [lra|tauto].
  - apply suml_ext. intros x _. unfold at_ij.
    destruct (nr_i x =? i)%nat; simpl; [|lra]. destruct (Nat.eqb_spec (nr_j x) j) as [->|]; simpl; [|lra].
    destruct (Rlt_dec (8 / 10) (dir j)); [tauto|lra].
Qed.

Lemma near_out es i j : (forall e, In e es -> nr_i e = i -> nr_j e <> j) -> near_N es i j = 0 /\ near_D es i j = 0.
Proof.
  intros H. unfold near_N, near_D. assert (E : filter (at_ij i j) es = []).
  { induction es as [|e es IH]; simpl; auto. 
    destruct (at_ij i j e) eqn:A.
    - unfold at_ij in A. apply andb_true_iff in A as [A B]. apply Nat.eqb_eq in A, B.
      exfalso. eapply H; eauto. left; auto.
    - apply IH. intros; apply H; auto; right; auto. }
  rewrite E. simpl. auto.
Qed.

Lemma sumn_upd n f i v x : (i < n)%nat ->
  sumn n (fun j => upd f i v j * x j) = sumn n (fun j => f j * x j) + (v - f i) * x i.
Proof.
  intros Hi.
  assert (E : sumn n (fun j => if (j =? i)%nat then (v - f i) * x i else 0) = (v - f i) * x i).
  { rewrite (sumn_single n i) by (auto; intros k _ N; apply Nat.eqb_neq in N; rewrite N; auto).
    rewrite Nat.eqb_refl; auto. }
  rewrite <- E at 1. rewrite <- sumn_plus. apply sumn_ext. intros j Hj. rewrite upd_eq.
  destruct (Nat.eqb_spec j i) as [->|]; lra.
Qed.

(** Unconstrained row of the FMM preconditioner = the row of the operator built on the near-field
    matrices. *)
Lemma prec_free_row n pat c (dir neu alpha : vec) es i x :
  (i < n)%nat -> c i = None ->
  (forall j, (j < n)%nat -> (dir j = 1 /\ neu j = 0) \/ (dir j = 0 /\ neu j = 1)) ->
  (forall e, In e es -> (nr_j e < n)%nat) ->
  (forall e, In e es -> nr_i e = i -> pat i (nr_j e) = true) ->
  sumn n (fun j => prec_row n pat c dir alpha es i j * x j) =
  vmult {| b_n := n; b_direct := true; b_N := matvec n (near_N es); b_D := matvec n (near_D es);
           b_alpha := alpha; b_dir := dir; b_neu := neu; b_have_dirichlet := true |} x i.
Proof.
  intros Hi Hc Hd Hn Hp. rewrite vmult_dir by reflexivity. cbn [b_D b_N b_dir b_neu b_alpha].
  unfold matvec. unfold prec_row. rewrite Hc.
  set (r := prec_row_free n pat (init_prec dir es) i).
  assert (ER : sumn n (fun j => r j * x j) =
    - sumn n (fun j => near_D es i j * scale x dir j) + sumn n (fun j => near_N es i j * scale x neu j)).
  { replace (- sumn n (fun j => near_D es i j * scale x dir j)) with
      (sumn n (fun j => - (near_D es i j * scale x dir j))) by apply sumn_opp.
    rewrite <- sumn_plus. apply sumn_ext. intros j Hj.
    unfold r, prec_row_free. replace (j <? n)%nat with true by (symmetry; apply Nat.ltb_lt; auto). simpl.
    assert (EP : (if pat i j then init_prec dir es i j else 0) = init_prec dir es i j).
    { destruct (pat i j) eqn:P; auto. rewrite init_prec_eq.
      destruct (near_out es i j) as [-> ->].
      - intros e He E1 E2. specialize (Hp e He E1). rewrite E2 in Hp. congruence.
      - destruct (Rlt_dec _ _); lra. }
    rewrite EP, init_prec_eq. unfold scale.
    destruct (Hd j Hj) as [[E1 E2]|[E1 E2]]; rewrite E1, E2; destruct (Rlt_dec _ _); lra. }
  destruct (Hd i Hi) as [[E1 E2]|[E1 E2]].
  - destruct (Req_EM_T (dir i) 0); [lra|]. rewrite sumn_upd by auto. rewrite ER, E2. lra.
  - destruct (Req_EM_T (dir i) 0); [|lra]. rewrite sumn_upd by auto. rewrite ER, E2. lra.
Qed.

(** Constrained row. *)
Lemma fold_set_other (es : list (nat * R)) : forall f j, (forall e, In e es -> fst e <> j) ->
  fold_left (fun f e => upd f (fst e) (snd e)) es f j = f j.
Proof.
  induction es as [|e es IH]; intros f j H; simpl; auto. rewrite IH by (intros; apply H; right; auto).
  rewrite upd_eq. destruct (Nat.eqb_spec j (fst e)); auto. exfalso. apply (H e); auto. left; auto.
Qed.
Lemma fold_set_sum n (x : vec) (es : list (nat * R)) : NoDup (map fst es) -> (forall e, In e es -> (fst e < n)%nat) ->
  forall f, (forall e, In e es -> f (fst e) = 0) ->
  sumn n (fun j => fold_left (fun f e => upd f (fst e) (snd e)) es f j * x j) =
  sumn n (fun j => f j * x j) + suml es (fun e => snd e * x (fst e)).
Proof.
  induction es as [|e es IH]; intros ND Hn f Hf; simpl; [lra|]. inversion ND; subst.
  rewrite IH; auto.
  - rewrite sumn_upd by (apply Hn; left; auto). rewrite (Hf e) by (left; auto). lra.
  - intros; apply Hn; right; auto.
  - intros e' He'. rewrite upd_eq. destruct (Nat.eqb_spec (fst e') (fst e)) as [E|E].
    + exfalso. apply H1. rewrite <- E. apply in_map; auto.
    + apply Hf; right; auto.
Qed.

Lemma prec_constrained_row n pat c (dir alpha : vec) es i l x :
  (i < n)%nat -> c i = Some l -> NoDup (map fst (l_entries l)) ->
  (forall e, In e (l_entries l) -> (fst e < n)%nat /\ fst e <> i) ->
  sumn n (fun j => prec_row n pat c dir alpha es i j * x j) =
  x i + suml (l_entries l) (fun e => snd e * x (fst e)).
Proof.
  intros Hi Hc ND He. unfold prec_row. rewrite Hc. rewrite sumn_upd by auto.
  unfold prec_row_constrained. rewrite fold_set_sum; auto.
  - rewrite (sumn_upd n (fun _ => 0)) by auto. rewrite sumn_zero by (intros; lra). lra.
  - intros; apply He; auto.
  - intros e E. rewrite upd_eq. destruct (Nat.eqb_spec (fst e) i); auto. exfalso. eapply He; eauto.
Qed.

(** ** Band preconditioner *)
Lemma in_band_cols n band i j : In j (band_cols n band i) <->
  (i - band / 2 <= j /\ j < i + band / 2 /\ j < n)%nat.
Proof.
  unfold band_cols. set (h := (band / 2)%nat). rewrite in_seq.
  destruct (Nat.ltb_spec h i); split; intros; lia.
Qed.
Lemma band_cols_nodup n band i : NoDup (band_cols n band i).
Proof. unfold band_cols. apply seq_NoDup. Qed.

Lemma suml_single {T} (l : list T) (a : T) f : NoDup l -> In a l -> (forall x, In x l -> x <> a -> f x = 0) ->
  suml l f = f a.
Proof.
  induction l as [|x l IH]; intros ND Ha H; [destruct Ha|]. inversion ND; subst. simpl.
  destruct Ha as [->|Ha].
  - rewrite suml_zero; [lra|]. intros y Hy. apply H; [right; auto|]. intro; subst; tauto.
  - rewrite IH; auto; [|intros; apply H; auto; right; auto].
    rewrite (H x); [lra|left; auto|]. intro; subst; tauto.
Qed.

Lemma band_row_in n band c N D alpha dir i e : In e (band_row n band c N D alpha dir i) -> fst (fst e) = i.
Proof.
  unfold band_row. rewrite in_app_iff, in_flat_map. intros [H|(j & _ & H)].
  - destruct (constrained c i); simpl in H; [destruct H as [<-|[]]; auto|tauto].
  - destruct (constrained c i); [destruct H|]. destruct (Req_EM_T (dir i) 0).
    + destruct H as [<-|H]; auto. destruct (i =? j)%nat; [destruct H as [<-|[]]; auto|destruct H].
    + destruct H as [<-|[]]; auto.
Qed.

Lemma band_entry_eq n band c N D alpha dir i j : (i < n)%nat ->
  band_entry n band c N D alpha dir i j =
  if constrained c i then (if (i =? j)%nat then 1 else 0)
  else if in_band_pattern n band i j
       then (if Req_EM_T (dir i) 0 then N i j + (if (i =? j)%nat then alpha i else 0) else - D i j)
       else 0.
Proof.
  intros Hi. unfold band_entry. rewrite suml_filter, suml_flat_map, suml_seq.
  rewrite (sumn_single n i); auto.
  2:{ intros k Hk Nk. apply suml_zero. intros e He. apply band_row_in in He. rewrite He.
      apply Nat.eqb_neq in Nk. rewrite Nk. reflexivity. }
  unfold band_row, in_band_pattern. replace (i <? n)%nat with true by (symmetry; apply Nat.ltb_lt; auto). simpl andb.
  rewrite suml_app, suml_flat_map.
  destruct (constrained c i).
  - rewrite (suml_zero (band_cols n band i)) by (intros; reflexivity). simpl. rewrite Nat.eqb_refl. simpl.
    destruct (i =? j)%nat; lra.
  - simpl suml at 1.
    assert (EB : existsb (Nat.eqb j) (band_cols n band i) = true <-> In j (band_cols n band i)).
    { rewrite existsb_exists. split; [intros (x & X & Y); apply Nat.eqb_eq in Y; subst; auto|]. intros; exists j; split; auto using Nat.eqb_refl. }
    destruct (existsb (Nat.eqb j) (band_cols n band i)) eqn:EX.
    + rewrite (suml_single (band_cols n band i) j); auto using band_cols_nodup.
      * destruct (Req_EM_T (dir i) 0); simpl; rewrite !Nat.eqb_refl; simpl; [|lra].
        destruct (Nat.eqb_spec i j); simpl; rewrite ?Nat.eqb_refl; simpl; lra.
      * apply EB; auto.
      * intros y Hy Ny. apply Nat.eqb_neq in Ny.
        destruct (Req_EM_T (dir i) 0); simpl; rewrite Nat.eqb_refl, Ny; simpl; [|lra].
        destruct (Nat.eqb i y); simpl; rewrite ?Nat.eqb_refl, ?Ny; simpl; lra.
    + rewrite suml_zero; [lra|]. intros y Hy.
      assert (Ny : (y =? j)%nat = false).
      { apply Nat.eqb_neq. intros ->. apply EB in Hy. congruence. }
      destruct (Req_EM_T (dir i) 0); simpl; rewrite Nat.eqb_refl, Ny; simpl; [|lra].
      destruct (Nat.eqb i y); simpl; rewrite ?Nat.eqb_refl, ?Ny; simpl; lra.
Qed.

Lemma band_writes_in_pattern n band c N D alpha dir i e : (i < n)%nat -> (2 <= band)%nat ->
  In e (band_row n band c N D alpha dir i) -> in_band_pattern n band (fst (fst e)) (snd (fst e)) = true.
Proof.
  intros Hi Hb He. rewrite (band_row_in _ _ _ _ _ _ _ _ _ He). unfold in_band_pattern.
  replace (i <? n)%nat with true by (symmetry; apply Nat.ltb_lt; auto). simpl.
  apply existsb_exists. exists (snd (fst e)). split; [|apply Nat.eqb_refl].
  unfold band_row in He. rewrite in_app_iff, in_flat_map in He. destruct He as [H|(j & Hj & H)].
  - destruct (constrained c i); simpl in H; [destruct H as [<-|[]]|destruct H]. simpl.
    apply in_band_cols. pose proof (Nat.div_le_mono 2 band 2 ltac:(lia) Hb) as Q. change (2 / 2)%nat with 1%nat in Q. lia.
  - destruct (constrained c i); [destruct H|]. destruct (Req_EM_T (dir i) 0).
    + destruct H as [<-|H]; auto. destruct (i =? j)%nat; [destruct H as [<-|[]]; auto|destruct H].
    + destruct H as [<-|[]]; auto.
Qed.

(** ** Corner gradients *)
Lemma dot3_eq a b : dot3 a b = a 0%nat * b 0%nat + a 1%nat * b 1%nat + a 2%nat * b 2%nat.
Proof. unfold dot3; simpl; lra. Qed.

Lemma corner_exact ni nj g si sj :
  dot3 ni ni = 1 -> dot3 nj nj = 1 -> (dot3 ni nj) ^ 2 <> 1 ->
  (forall d, (d < 3)%nat -> si d = g d - dot3 g ni * ni d) ->
  (forall d, (d < 3)%nat -> sj d = g d - dot3 g nj * nj d) ->
  this_normal_gradient ni nj si sj = Some (dot3 g ni) /\
  other_normal_gradient ni nj si sj = Some (dot3 g nj).
Proof.
  intros Hi Hj Hc Hsi Hsj.
  set (c := dot3 ni nj) in *.
  assert (E1 : dot3 sj ni = dot3 g ni - dot3 g nj * c).
  { unfold c. rewrite !dot3_eq. rewrite !Hsj by lia. rewrite !dot3_eq. ring. }
  assert (E2 : dot3 si nj = dot3 g nj - dot3 g ni * c).
  { unfold c. rewrite !dot3_eq. rewrite !Hsi by lia. rewrite !dot3_eq. ring. }
  unfold this_normal_gradient, other_normal_gradient. fold c. rewrite E1, E2. unfold fdiv.
  destruct (Req_EM_T (1 - c ^ 2) 0) as [E|NE]; [exfalso; apply Hc; lra|].
  simpl omul. split; f_equal; field; simpl in NE |- *; lra.
Qed.

Lemma corner_unique ni nj si sj : dot3 ni ni = 1 -> dot3 nj nj = 1 -> (dot3 ni nj) ^ 2 <> 1 ->
  dot3 si ni = 0 -> dot3 sj nj = 0 ->
  forall a b,
  (this_normal_gradient ni nj si sj = Some a /\ other_normal_gradient ni nj si sj = Some b) <->
  (dot3 (fun d => a * ni d + si d) ni = dot3 (fun d => b * nj d + sj d) ni /\
   dot3 (fun d => a * ni d + si d) nj = dot3 (fun d => b * nj d + sj d) nj).
Proof.
  intros Hi Hj Hc Hsi Hsj a b. set (c := dot3 ni nj) in *.
  assert (L : forall s u v w, dot3 (fun d => s * u d + w d) v = s * dot3 u v + dot3 w v)
    by (intros; rewrite !dot3_eq; ring).
  assert (SY : dot3 nj ni = c) by (unfold c; rewrite !dot3_eq; ring).
  rewrite !L, Hi, Hj, Hsi, Hsj, SY. fold c.
  unfold this_normal_gradient, other_normal_gradient. fold c. unfold fdiv.
  destruct (Req_EM_T (1 - c ^ 2) 0) as [E|NE]; [exfalso; apply Hc; lra|]. simpl omul.
  set (p := dot3 sj ni). set (q := dot3 si nj).
  assert (NE' : 1 - c * c <> 0) by (intro; apply NE; lra).
  split.
  - intros [Ea Eb]. injection Ea as <-. injection Eb as <-. split; field; lra.
  - intros [E1 E2]. assert (Ea : a = b * c + p) by lra. assert (Eb : b = a * c + q) by lra.
    assert (A : a * (1 - c * c) = p + q * c) by (rewrite Eb in Ea; lra).
    assert (B : b * (1 - c * c) = q + p * c) by (rewrite Ea in Eb; lra).
    split; f_equal; [rewrite <- A|rewrite <- B]; field; lra.
Qed.

(** ** Boundary data *)
Definition touches (c : cell) (i : nat) : bool := existsb (Nat.eqb i) (c_dofs c).
Definition is_dir (b : bdata) (c : cell) : bool := existsb (fun d => (c_mat c =? d)%nat) (d_dirichlet b).
Definition is_neu (b : bdata) (c : cell) : bool := existsb (fun d => (c_mat c =? d)%nat) (d_neumann b).

Definition visit (b : bdata) (c : cell) (i : nat) (t : R * R * R) : R * R * R :=
  let '(p, d, r) := t in
  if is_dir b c then (d_pot b i, d, d_pot b i)
  else if is_neu b c then (p, flux b i, flux b i) else (p, 0, 0).
Arguments visit : simpl never.
Definition at_dof (v : bvecs) (i : nat) : R * R * R := (v_phi v i, v_dphi v i, v_rhs v i).

Lemma prepare_dof_at b c v j i : at_dof (prepare_dof b c v j) i = if (i =? j)%nat then visit b c i (at_dof v i) else at_dof v i.
Proof.
  unfold prepare_dof, visit, at_dof, is_dir, is_neu.
  destruct (existsb _ (d_dirichlet b)); [|destruct (existsb _ (d_neumann b))]; simpl; unfold upd;
  destruct (Nat.eqb_spec i j); subst; auto.
Qed.
Lemma visit_idem b c i t : visit b c i (visit b c i t) = visit b c i t.
Proof. destruct t as [[p d] r]. unfold visit. destruct (is_dir b c); [|destruct (is_neu b c)]; auto. Qed.

Lemma prepare_cell_at b own c v i : at_dof (prepare_cell b own v c) i =
  if own i && touches c i then visit b c i (at_dof v i) else at_dof v i.
Proof.
  unfold prepare_cell, touches. generalize (c_dofs c) as l. intro l. revert v.
  induction l as [|j l IH]; intros v; simpl; [rewrite andb_false_r; auto|].
  rewrite IH. destruct (Nat.eqb_spec i j) as [<-|N].
  - destruct (own i); simpl; auto. rewrite prepare_dof_at, Nat.eqb_refl.
    destruct (existsb (Nat.eqb i) l); auto. apply visit_idem.
  - assert (E : at_dof (if own j then prepare_dof b c v j else v) i = at_dof v i).
    { destruct (own j); auto. rewrite prepare_dof_at. apply Nat.eqb_neq in N. rewrite N. auto. }
    rewrite E. reflexivity.
Qed.

Lemma prepare_at b own cells : forall v i,
  at_dof (fold_left (prepare_cell b own) cells v) i =
  fold_left (fun t c => if own i && touches c i then visit b c i t else t) cells (at_dof v i).
Proof.
  induction cells as [|c t IH]; intros v i; simpl; auto. rewrite IH, prepare_cell_at. reflexivity.
Qed.

(** ** Shift *)
Lemma fold_shift owns : forall (v : vec) s i, fold_left (fun v own => vector_shift own v s) owns v i =
  v i + INR (length (filter (fun own => own i) owns)) * s.
Proof.
  induction owns as [|own t IH]; intros v s i; simpl; [lra|]. rewrite IH. unfold vector_shift.
  destruct (own i); simpl length; try rewrite S_INR; lra.
Qed.

(** ** Renumbering *)
Lemma inverse_table_spec m perm : (forall i, (i < m)%nat -> (perm i < m)%nat) ->
  (forall i j, (i < m)%nat -> (j < m)%nat -> perm i = perm j -> i = j) ->
  forall i, (i < m)%nat -> inverse_table m perm (perm i) = i.
Proof.
  intros Hr Hinj i Hi. unfold inverse_table.
  assert (G : forall l f, (forall a, In a l -> (a < m)%nat) -> (In i l \/ f (perm i) = i) ->
     fold_left (fun t i => upd t (perm i) i) l f (perm i) = i).
  { induction l as [|a l IH]; intros f Hl H; simpl; [destruct H; tauto|].
    apply IH; [intros; apply Hl; right; auto|]. rewrite upd_eq.
    destruct (Nat.eqb_spec (perm i) (perm a)) as [E|E].
    - right. symmetry. apply Hinj; auto. apply Hl; left; auto.
    - destruct H as [[->|H]|H]; auto. congruence. }
  apply G. intros a Ha; apply in_seq in Ha; lia. left. apply in_seq; lia.
Qed.

(* pigeonhole: an injective map of {0..m-1} to itself is surjective *)
Lemma inj_surj m perm : (forall i, (i < m)%nat -> (perm i < m)%nat) ->
  (forall i j, (i < m)%nat -> (j < m)%nat -> perm i = perm j -> i = j) ->
  forall j, (j < m)%nat -> exists i, (i < m)%nat /\ perm i = j.
Proof.
  intros Hr Hinj j Hj.
  assert (ND : NoDup (map perm (seq 0 m))).
  { assert (G : forall l, NoDup l -> (forall a, In a l -> (a < m)%nat) -> NoDup (map perm l)).
    { induction l as [|a l IH]; intros N H; simpl; constructor; inversion N; subst.
      - rewrite in_map_iff. intros (x & E & Hx). apply Hinj in E; subst; auto; apply H; [right|left]; auto.
      - apply IH; auto. intros; apply H; right; auto. }
    apply G. apply seq_NoDup. intros a Ha; apply in_seq in Ha; lia. }
  assert (I : incl (seq 0 m) (map perm (seq 0 m))).
  { apply NoDup_length_incl; auto.
    - rewrite map_length. lia.
    - intros x Hx. apply in_map_iff in Hx as (a & <- & Ha). apply in_seq in Ha. apply in_seq.
      specialize (Hr a ltac:(lia)). lia. }
  specialize (I j ltac:(apply in_seq; lia)). apply in_map_iff in I as (a & E & Ha). apply in_seq in Ha.
  exists a; split; [lia|auto].
Qed.

(** ** Spheroid *)
Lemma stretch_at (vperm : nat -> nat) dim m ax ay az (v : vec) :
  (forall i j, (i < dim * m)%nat -> (j < dim * m)%nat -> vperm i = vperm j -> i = j) -> (2 <= dim)%nat ->
  forall ii, (ii < m)%nat ->
  stretch dim m vperm ax ay az v (vperm ii) = v (vperm ii) * ax /\
  stretch dim m vperm ax ay az v (vperm (ii + m)%nat) =
     v (vperm (ii + m)%nat) * ay * (if (dim =? 3)%nat then az else 1) /\
  (forall k, (2 * m <= k < dim * m)%nat -> stretch dim m vperm ax ay az v (vperm k) = v (vperm k)).
Proof.
  intros Hinj Hd.
  assert (Hm2 : (2 * m <= dim * m)%nat) by (apply Nat.mul_le_mono_r; auto).
  unfold stretch. cbv zeta.
  set (step := fun (v0 : nat -> R) (ii : nat) =>
    if (dim =? 3)%nat
    then upd (upd (upd v0 (vperm ii) (v0 (vperm ii) * ax)) (vperm (ii + m)%nat) (upd v0 (vperm ii) (v0 (vperm ii) * ax) (vperm (ii + m)%nat) * ay)) (vperm (ii + m)%nat)
          (upd (upd v0 (vperm ii) (v0 (vperm ii) * ax)) (vperm (ii + m)%nat) (upd v0 (vperm ii) (v0 (vperm ii) * ax) (vperm (ii + m)%nat) * ay) (vperm (ii + m)%nat) * az)
    else upd (upd v0 (vperm ii) (v0 (vperm ii) * ax)) (vperm (ii + m)%nat) (upd v0 (vperm ii) (v0 (vperm ii) * ax) (vperm (ii + m)%nat) * ay)).
  assert (NE : forall a b, (a < dim * m)%nat -> (b < dim * m)%nat -> a <> b -> (vperm a =? vperm b)%nat = false).
  { intros a b Ha Hb N. apply Nat.eqb_neq. intro E. apply N, Hinj; auto. }
  assert (S1 : forall v a k, (a < m)%nat -> (k < dim * m)%nat -> k <> a -> k <> (a + m)%nat -> step v a (vperm k) = v (vperm k)).
  { intros w a k Ha Hk N1 N2. unfold step. destruct (dim =? 3)%nat; unfold upd; rewrite !NE by lia; auto. }
  assert (S2 : forall v a, (a < m)%nat -> step v a (vperm a) = v (vperm a) * ax).
  { intros w a Ha. unfold step. destruct (dim =? 3)%nat; unfold upd; rewrite !Nat.eqb_refl, !NE by lia; auto. }
  assert (S3 : forall v a, (a < m)%nat -> step v a (vperm (a + m)%nat) = v (vperm (a + m)%nat) * ay * (if (dim =? 3)%nat then az else 1)).
  { intros w a Ha. unfold step. destruct (dim =? 3)%nat; unfold upd; rewrite !Nat.eqb_refl, !NE by lia; lra. }
  assert (F : forall l v k, (forall a, In a l -> (a < m)%nat) -> (k < dim * m)%nat ->
            (forall a, In a l -> k <> a /\ k <> (a + m)%nat) -> fold_left step l v (vperm k) = v (vperm k)).
  { induction l as [|a l IH]; intros w k Hl Hk Hn; simpl; auto.
    rewrite IH; auto; [|intros; apply Hl; right; auto|intros; apply Hn; right; auto].
    destruct (Hn a (or_introl eq_refl)). apply S1; auto. apply Hl; left; auto. }
  assert (FA : forall n w ii, (n <= m)%nat -> (ii < n)%nat ->
     fold_left step (seq 0 n) w (vperm ii) = w (vperm ii) * ax /\
     fold_left step (seq 0 n) w (vperm (ii + m)%nat) = w (vperm (ii + m)%nat) * ay * (if (dim =? 3)%nat then az else 1)).
  { induction n; intros w ii Hn Hi; [lia|]. rewrite seq_S, fold_left_app. simpl.
    destruct (Nat.eq_dec ii n) as [->|N].
    - rewrite S2, S3 by lia. rewrite !F; auto; try lia; intros a Ha; apply in_seq in Ha; lia.
    - rewrite !S1 by lia. apply IHn; lia. }
  intros ii Hi. destruct (FA m v ii (le_n m) Hi) as [A B].
  split; [exact A|]. split; [exact B|].
  intros k Hk. apply F; try lia. intros a Ha; apply in_seq in Ha; lia.
  intros a Ha; apply in_seq in Ha; lia.
Qed.

(** ** Caches *)
Lemma ones_vec {L} (qs : list (nat * L)) c : ones_run qs = Some c -> oc_vec c = fresh_ones.
Proof.
  unfold ones_run. assert (G : forall s, (forall c, s = Some c -> oc_vec c = fresh_ones) ->
     forall c, fold_left ones_call qs s = Some c -> oc_vec c = fresh_ones).
  { induction qs as [|q qs IH]; simpl; intros s H c0 E; [apply H; auto|].
    eapply IH; [|exact E]. intros c1. unfold ones_call. destruct (_ =? _)%nat; auto. intros [= <-]; auto. }
  apply G. discriminate.
Qed.
Lemma ones_size {L} (qs : list (nat * L)) n l : oc_size_of (ones_run (qs ++ [(n, l)])) = n.
Proof.
  unfold ones_run. rewrite fold_left_app. simpl. unfold ones_call at 1. simpl.
  destruct (Nat.eqb_spec (oc_size_of (fold_left ones_call qs None)) n); auto.
Qed.
Lemma ones_stale {L} (qs : list (nat * L)) n l1 l2 : (0 < n)%nat ->
  ones_run (qs ++ [(n, l1); (n, l2)]) = ones_run (qs ++ [(n, l1)]).
Proof.
  intros Hn. change [(n, l1); (n, l2)] with ([(n, l1)] ++ [(n, l2)]). rewrite app_assoc.
  unfold ones_run. rewrite (fold_left_app _ (qs ++ [(n, l1)])). simpl.
  unfold ones_call at 1. simpl fst. change (fold_left ones_call (qs ++ [(n, l1)]) None) with (ones_run (qs ++ [(n, l1)])).
  rewrite ones_size, Nat.eqb_refl. reflexivity.
Qed.

Lemma quad_first {FE Quad} (mk : FE -> nat -> list Quad) q qs : mk (fst q) (snd q) <> [] ->
  quad_run mk (q :: qs) = mk (fst q) (snd q).
Proof.
  intros H. unfold quad_run. simpl. generalize (mk (fst q) (snd q)) H. clear.
  induction qs as [|a qs IH]; intros l H; simpl; auto. destruct l; [tauto|]. apply IH; auto.
Qed.
