From Coq Require Import Reals List Bool Arith Lia Lra.
From Verif Require Import LibSum ModelBem.
Import ListNotations.
Local Open Scope R_scope.

(** ** ConstrainedOperator *)
Lemma sub_entries_eq ghost src es : (forall e, In e es -> ghost (fst e) = true) ->
  forall acc, sub_entries ghost src es acc = Some (acc - suml es (fun e => snd e * src (fst e))).
Proof.
  induction es as [|[j w] es IH]; intros H acc; simpl.
  - f_equal; lra.
  - unfold loc_read. pose proof (H (j, w) (or_introl eq_refl)) as G. simpl in G. rewrite G. rewrite IH by (intros; apply H; right; auto).
    f_equal; lra.
Qed.

Definition row_value (c : constraints) (M : vec -> vec) (src : vec) (i : nat) : R :=
  match c i with
  | Some l => src i - suml (l_entries l) (fun e => snd e * src (fst e))
  | None => M src i
  end.

Lemma sum_opt_increments c M src i procs :
  (forall own ghost l, In (own, ghost) procs -> own i = true -> c i = Some l ->
     forall e, In e (l_entries l) -> ghost (fst e) = true) ->
  sum_opt (map (fun pr => proc_increment c (fst pr) (snd pr) src (M src) i) procs) =
  Some (INR (length (filter (fun pr => fst pr i) procs)) * (row_value c M src i - M src i)).
Proof.
  intros H. induction procs as [|[own ghost] t IH]; simpl.
  - f_equal; lra.
  - rewrite IH by (intros; eapply H; eauto; right; eauto). clear IH.
    unfold proc_increment, row_value. simpl. destruct (c i) as [l|] eqn:Ci.
    + destruct (own i) eqn:Oi.
      * rewrite sub_entries_eq by (eapply H; eauto; left; reflexivity).
        simpl length. rewrite S_INR. f_equal. lra.
      * f_equal. lra.
    + f_equal. destruct (own i); simpl length; try rewrite S_INR; lra.
Qed.

Lemma co_vmult_eq c M src i procs :
  length (filter (fun pr => fst pr i) procs) = 1%nat ->
  (forall own ghost l, In (own, ghost) procs -> own i = true -> c i = Some l ->
     forall e, In e (l_entries l) -> ghost (fst e) = true) ->
  co_vmult M c procs src i = Some (row_value c M src i).
Proof.
  intros H1 H2. unfold co_vmult. rewrite sum_opt_increments by assumption. rewrite H1. simpl. f_equal; lra.
Qed.

Lemma existsb_one {T} (f : T -> bool) l : length (filter f l) = 1%nat -> existsb f l = true.
Proof. induction l; simpl; [discriminate|]. destruct (f a); simpl; auto. Qed.

Lemma constr_cpu_set_spec n c own i l e : (i < n)%nat -> own i = true -> c i = Some l ->
  In e (l_entries l) -> constr_cpu_set n c own (fst e) = true.
Proof.
  intros Hi Ho Hc He. unfold constr_cpu_set. apply existsb_exists. exists i.
  split; [apply in_seq; lia|]. rewrite Ho, Hc. simpl. apply orb_true_iff. right.
  apply existsb_exists. exists e. split; auto. apply Nat.eqb_refl.
Qed.

Lemma constr_cpu_set_own n c own i : (i < n)%nat -> own i = true -> constr_cpu_set n c own i = true.
Proof.
  intros Hi Ho. unfold constr_cpu_set. apply existsb_exists. exists i.
  split; [apply in_seq; lia|]. rewrite Ho, Nat.eqb_refl. reflexivity.
Qed.

(** ** Linear operators *)
Definition linear_op (n : nat) (A : vec -> vec) : Prop :=
  (forall x y i, (i < n)%nat -> A (fun k => x k + y k) i = A x i + A y i) /\
  (forall s x i, (i < n)%nat -> A (fun k => s * x k) i = s * A x i) /\
  (forall x y, (forall k, (k < n)%nat -> x k = y k) -> forall i, (i < n)%nat -> A x i = A y i).

Lemma matvec_linear n A : linear_op n (matvec n A).
Proof.
  unfold linear_op, matvec. repeat split; intros.
  - rewrite <- sumn_plus. apply sumn_ext; intros; lra.
  - rewrite <- sumn_scal. apply sumn_ext; intros; lra.
  - apply sumn_ext; intros. rewrite H; auto.
Qed.

Lemma lin_comb n A x y z a b i : linear_op n A -> (i < n)%nat ->
  (forall k, (k < n)%nat -> z k = a * x k + b * y k) -> A z i = a * A x i + b * A y i.
Proof.
  intros (H1 & H2 & H3) Hi Hz. rewrite (H3 z (fun k => a * x k + b * y k)) by auto.
  rewrite (H1 (fun k => a * x k) (fun k => b * y k)), !H2; auto.
Qed.

Lemma vmult_dir b x i : b_have_dirichlet b = true ->
  vmult b x i = - b_D b (scale x (b_dir b)) i + b_N b (scale x (b_neu b)) i
                + x i * b_neu b i * b_alpha b i.
Proof. intros H. unfold vmult. rewrite H. destruct (b_direct b); unfold scale; lra. Qed.

Lemma vmult_linear b : b_have_dirichlet b = true -> linear_op (b_n b) (b_N b) -> linear_op (b_n b) (b_D b) ->
  forall a c x y i, (i < b_n b)%nat ->
  vmult b (fun k => a * x k + c * y k) i = a * vmult b x i + c * vmult b y i.
Proof.
  intros H HN HD a c x y i Hi. rewrite !vmult_dir by auto.
  rewrite (lin_comb (b_n b) (b_D b) (scale x (b_dir b)) (scale y (b_dir b)) _ a c i HD Hi) by (intros; unfold scale; lra).
  rewrite (lin_comb (b_n b) (b_N b) (scale x (b_neu b)) (scale y (b_neu b)) _ a c i HN Hi) by (intros; unfold scale; lra).
  lra.
Qed.

Lemma l2_norm_zero n x : (forall i, (i < n)%nat -> x i = 0) -> l2_norm n x = 0.
Proof. intros H. unfold l2_norm. rewrite sumn_zero; [apply sqrt_0|]. intros; rewrite H; auto; lra. Qed.
Lemma l2_norm_nonneg n x : 0 <= l2_norm n x.
Proof. apply sqrt_pos. Qed.
Lemma sumn_sq_zero n x : sumn n (fun i => x i * x i) = 0 -> forall i, (i < n)%nat -> x i = 0.
Proof.
  induction n; intros H i Hi; [lia|]. simpl in H.
  assert (0 <= sumn n (fun i => x i * x i)) by (apply sumn_nonneg; intros; nra).
  assert (0 <= x n * x n) by nra.
  destruct (Nat.eq_dec i n) as [->|]; [apply Rsqr_0_uniq; unfold Rsqr; lra|].
  apply IHn; [lra|lia].
Qed.
Lemma l2_norm_zero_inv n x : l2_norm n x = 0 -> forall i, (i < n)%nat -> x i = 0.
Proof.
  intros H. apply sumn_sq_zero. apply sqrt_eq_0; auto.
  apply sumn_nonneg; intros; nra.
Qed.
Lemma l2_norm_ext n x y : (forall i, (i < n)%nat -> x i = y i) -> l2_norm n x = l2_norm n y.
Proof. intros H. unfold l2_norm. f_equal. apply sumn_ext; intros; rewrite H; auto. Qed.
Lemma l2_norm_opp n x : l2_norm n (fun i => - x i) = l2_norm n x.
Proof. unfold l2_norm. f_equal. apply sumn_ext; intros; lra. Qed.

(** In the pure Neumann case, with the alpha the solver computes, the operator is odd only where
    it vanishes. *)
Lemma neumann_not_linear b : b_have_dirichlet b = false -> linear_op (b_n b) (b_N b) -> linear_op (b_n b) (b_D b) ->
  (forall i, (i < b_n b)%nat -> b_dir b i = 0) -> (forall i, (i < b_n b)%nat -> b_neu b i = 1) ->
  (forall i, (i < b_n b)%nat -> b_alpha b i = compute_alpha (b_N b) fresh_ones i) ->
  forall x,
  ((forall i, (i < b_n b)%nat -> vmult b (fun k => - x k) i = - vmult b x i) <->
   (forall i, (i < b_n b)%nat -> b_N b x i + x i * b_alpha b i = 0)).
Proof.
  intros Hh HN HD Hdir Hneu Hal x. set (n := b_n b) in *.
  set (L := fun y i => b_N b y i + y i * b_alpha b i).
  pose proof HN as (N1 & N2 & N3). pose proof HD as (D1 & D2 & D3).
  assert (HL1 : forall s y i, (i < n)%nat -> L (fun k => y k + s) i = L y i).
  { intros s y i Hi. unfold L. rewrite Hal by auto. unfold compute_alpha.
    rewrite (lin_comb n (b_N b) y fresh_ones (fun k => y k + s) 1 (- s) i HN Hi) by (intros; unfold fresh_ones, shift; lra).
    lra. }
  assert (Hv : forall y i, (i < n)%nat -> vmult b y i = L y i - l2_norm n (L y)).
  { intros y i Hi. unfold vmult. rewrite Hh. fold n.
    set (s := - l2_norm n y).
    assert (E : forall k, (k < n)%nat ->
      (if b_direct b
       then fun i => b_D b (scale y (b_dir b)) i * -1 + b_N b (scale (shift y s) (b_neu b)) i + scale (shift y s) (b_neu b) i * b_alpha b i
       else fun i => (0 + b_D b (scale y (b_dir b)) i) * -1 + b_N b (scale (shift y s) (b_neu b)) i + scale (shift y s) (b_neu b) i * b_alpha b i) k = L y k).
    { intros k Hk.
      assert (ED : b_D b (scale y (b_dir b)) k = 0).
      { rewrite (D3 _ (fun k => 0 * y k)) by (auto; intros; unfold scale; rewrite Hdir by auto; lra).
        rewrite D2 by auto. lra. }
      assert (EN : b_N b (scale (shift y s) (b_neu b)) k + scale (shift y s) (b_neu b) k * b_alpha b k = L y k).
      { rewrite <- (HL1 s y k Hk). unfold L.
        rewrite (N3 _ (fun k => y k + s)) by (auto; intros; unfold scale, shift; rewrite Hneu by auto; lra).
        unfold scale, shift. rewrite Hneu by auto. lra. }
      destruct (b_direct b); rewrite ED; lra. }
    unfold shift at 1. rewrite E by auto. rewrite (l2_norm_ext n _ (L y)) by exact E. lra. }
  assert (Hopp : forall i, (i < n)%nat -> L (fun k => - x k) i = - L x i).
  { intros i Hi. unfold L. rewrite (lin_comb n (b_N b) x x (fun k => - x k) (-1) 0 i HN Hi) by (intros; lra). lra. }
  assert (Hn : l2_norm n (L (fun k => - x k)) = l2_norm n (L x)).
  { rewrite <- l2_norm_opp. apply l2_norm_ext. intros; rewrite Hopp; auto; lra. }
  split.
  - intros H i Hi. change (L x i = 0).
    apply (l2_norm_zero_inv n (L x)); auto. pose proof (H i Hi) as E.
    rewrite !Hv, Hopp, Hn in E by auto. lra.
  - intros H i Hi. rewrite !Hv, Hopp, Hn by auto. change (forall i, (i < n)%nat -> L x i = 0) in H.
    rewrite (l2_norm_zero n (L x)) by auto. lra.
Qed.

(** ** System <-> boundary integral equation *)
Lemma rhs_eq b src i : compute_rhs b (fun _ => 0) src i =
  - b_N b (scale src (b_dir b)) i - src i * b_dir b i * b_alpha b i + b_D b (scale src (b_neu b)) i.
Proof. unfold compute_rhs. destruct (b_direct b); unfold scale; lra. Qed.

Lemma system_is_bie b phi dphi rhs sol :
  b_have_dirichlet b = true -> linear_op (b_n b) (b_N b) -> linear_op (b_n b) (b_D b) ->
  (forall i, (i < b_n b)%nat -> (b_dir b i = 1 /\ b_neu b i = 0) \/ (b_dir b i = 0 /\ b_neu b i = 1)) ->
  (forall i, (i < b_n b)%nat -> b_dir b i = 1 -> phi i = rhs i) ->
  (forall i, (i < b_n b)%nat -> b_dir b i = 0 -> dphi i = rhs i) ->
  forall i, (i < b_n b)%nat ->
  (vmult b sol i = compute_rhs b (fun _ => 0) rhs i <->
   b_N b (scatter_phi b phi sol) i + scatter_phi b phi sol i * b_alpha b i =
   b_D b (scatter_dphi b dphi sol) i).
Proof.
  intros Hh HN HD Hi Hp Hd i Li. rewrite vmult_dir, rhs_eq by auto.
  assert (EN : b_N b (scatter_phi b phi sol) i = b_N b (scale sol (b_neu b)) i + b_N b (scale rhs (b_dir b)) i).
  { rewrite (lin_comb (b_n b) (b_N b) (scale sol (b_neu b)) (scale rhs (b_dir b)) _ 1 1 i HN Li); [lra|].
    intros k Hk. unfold scatter_phi, scale.
    destruct (Hi k Hk) as [[E1 E2]|[E1 E2]]; rewrite E1, E2; destruct (Req_EM_T _ 0); try lra.
    rewrite Hp by auto. lra. }
  assert (ED : b_D b (scatter_dphi b dphi sol) i = b_D b (scale sol (b_dir b)) i + b_D b (scale rhs (b_neu b)) i).
  { rewrite (lin_comb (b_n b) (b_D b) (scale sol (b_dir b)) (scale rhs (b_neu b)) _ 1 1 i HD Li); [lra|].
    intros k Hk. unfold scatter_dphi, scale.
    destruct (Hi k Hk) as [[E1 E2]|[E1 E2]]; rewrite E1, E2; destruct (Req_EM_T _ 0); try lra.
    rewrite Hd by auto. lra. }
  assert (EP : scatter_phi b phi sol i = sol i * b_neu b i + rhs i * b_dir b i).
  { unfold scatter_phi. destruct (Hi i Li) as [[E1 E2]|[E1 E2]]; rewrite E1, E2; destruct (Req_EM_T _ 0); try lra.
    rewrite Hp by auto. lra. }
  rewrite EN, ED, EP. split; intro; lra.
Qed.

Lemma scatter_keeps b phi dphi sol i :
  (b_dir b i = 1 -> scatter_phi b phi sol i = phi i /\ scatter_dphi b dphi sol i = sol i) /\
  (b_dir b i = 0 -> scatter_phi b phi sol i = sol i /\ scatter_dphi b dphi sol i = dphi i).
Proof.
  unfold scatter_phi, scatter_dphi. split; intro E; rewrite E; destruct (Req_EM_T _ 0); auto; lra.
Qed.

Lemma constants_solve n N : linear_op n N -> forall k i, (i < n)%nat ->
  N (fun _ => k) i + k * compute_alpha N fresh_ones i = 0.
Proof.
  intros HN k i Hi. unfold compute_alpha.
  rewrite (lin_comb n N fresh_ones fresh_ones (fun _ => k) (- k) 0 i HN Hi) by (intros; unfold fresh_ones, shift; lra).
  lra.
Qed.

(** ** Boundary indicators *)
Lemma fold_upd {T} (v : T) l : forall f i, fold_left (fun f k => upd f k v) l f i =
  if existsb (Nat.eqb i) l then v else f i.
Proof.
  induction l as [|k l IH]; intros f i; simpl; auto. rewrite IH. unfold upd.
  destruct (existsb (Nat.eqb i) l); [rewrite orb_true_r; auto|]. rewrite orb_false_r. reflexivity.
Qed.

Definition touched (ids : list nat) (cells : list cell) (me i : nat) : bool :=
  existsb (fun c => (c_sub c =? me)%nat && is_dirichlet_cell ids c && existsb (Nat.eqb i) (c_dofs c)) cells.

Lemma indicators_spec ids me cells : forall d nn h,
  let r := fold_left (indicator_cell ids me) cells (d, nn, h) in
  (forall i, fst (fst r) i = if touched ids cells me i then 1 else d i) /\
  (forall i, snd (fst r) i = if touched ids cells me i then 0 else nn i) /\
  snd r = h || existsb (fun c => (c_sub c =? me)%nat && is_dirichlet_cell ids c) cells.
Proof.
  induction cells as [|c t IH]; intros d nn h.
  - simpl. rewrite orb_false_r; auto.
  - cbn [fold_left existsb].
    assert (ET : forall i, touched ids (c :: t) me i =
       ((c_sub c =? me)%nat && is_dirichlet_cell ids c && existsb (Nat.eqb i) (c_dofs c)) || touched ids t me i) by reflexivity.
    assert (ES : indicator_cell ids me (d, nn, h) c =
      if (c_sub c =? me)%nat then
        if is_dirichlet_cell ids c
        then (fold_left (fun f k => upd f k 1) (c_dofs c) d,
              fold_left (fun f k => upd f k 0) (c_dofs c) nn, true)
        else (d, nn, h) else (d, nn, h)) by reflexivity.
    rewrite ES. clear ES. setoid_rewrite ET. clear ET.
    destruct (c_sub c =? me)%nat eqn:E1; [destruct (is_dirichlet_cell ids c) eqn:E2|].
    + destruct (IH (fold_left (fun f k => upd f k 1) (c_dofs c) d)
                   (fold_left (fun f k => upd f k 0) (c_dofs c) nn) true) as (A & B & C).
      split; [|split].
      * intros i. rewrite A, fold_upd. destruct (touched ids t me i), (existsb (Nat.eqb i) (c_dofs c)); auto.
      * intros i. rewrite B, fold_upd. destruct (touched ids t me i), (existsb (Nat.eqb i) (c_dofs c)); auto.
      * etransitivity; [exact C|]. simpl. rewrite orb_true_r. reflexivity.
    + exact (IH d nn h).
    + exact (IH d nn h).
Qed.

(** ** Double nodes *)
Lemma in_double_nodes n dist edge i j : In j (double_nodes n dist edge i) <->
  (j < n)%nat /\ (j = i \/ (In i edge /\ In j edge /\ dist i j < 1 / 10 ^ 10)).
Proof.
  unfold double_nodes. rewrite filter_In, in_seq, orb_true_iff, !andb_true_iff, Nat.eqb_eq, !existsb_exists.
  split.
  - intros [H1 [H2|[[(a & A1 & A2) (b' & B1 & B2)] H3]]]; split; try lia; auto.
    apply Nat.eqb_eq in A2, B2. subst a b'. right. destruct (Rlt_dec _ _); [auto|discriminate].
  - intros [H1 [->|(H2 & H3 & H4)]]; split; try lia; auto.
    right. split; [split|].
    + exists i; split; auto using Nat.eqb_refl.
    + exists j; split; auto using Nat.eqb_refl.
    + destruct (Rlt_dec _ _); auto.
Qed.

(** ** Double-node constraints *)
Lemma fdiv_self x : fdiv x x = None \/ fdiv x x = Some 1.
Proof. unfold fdiv. destruct (Req_EM_T x 0); [left|right]; auto. f_equal. field; auto. Qed.
Lemma coplanar_dead k i j : coplanar_test k i j = false.
Proof.
  unfold coplanar_test. destruct (fdiv_self (dot3 (k_normal k i) (k_normal k j))) as [->| ->]; simpl; auto.
  destruct (Rlt_dec 1 _); auto. exfalso. simpl in r. lra.
Qed.

Section Groups.
  Variable k : cdata.
  Hypothesis Hrefl : forall i, (i < k_n k)%nat -> In i (k_doubles k i).
  Hypothesis Hclass : forall i j, (i < k_n k)%nat -> In j (k_doubles k i) ->
                        (j < k_n k)%nat /\ k_doubles k j = k_doubles k i.
  Hypothesis Hnd : forall i, (i < k_n k)%nat -> NoDup (k_doubles k i).

  Lemma first_class i j : (i < k_n k)%nat -> In j (k_doubles k i) -> first_of_doubles k j = first_of_doubles k i.
  Proof.
    intros Hi Hj. destruct (Hclass i j Hi Hj) as [Lj E]. unfold first_of_doubles. rewrite E.
    destruct (find (k_dir k) (k_doubles k i)); auto.
    destruct (k_doubles k i) eqn:D; auto. destruct Hj.
  Qed.
  Lemma first_in i : (i < k_n k)%nat -> In (first_of_doubles k i) (k_doubles k i).
  Proof.
    intros Hi. unfold first_of_doubles. destruct (find (k_dir k) (k_doubles k i)) eqn:F.
    - apply find_some in F. tauto.
    - pose proof (Hrefl i Hi). destruct (k_doubles k i); [tauto|left; auto].
  Qed.

  Lemma upd_same {T} (f : nat -> T) i v : upd f i v i = v.
  Proof. unfold upd. rewrite Nat.eqb_refl. auto. Qed.
  Lemma upd_other {T} (f : nat -> T) i j v : j <> i -> upd f i v j = f j.
  Proof. intros H. unfold upd. apply Nat.eqb_neq in H. rewrite H. auto. Qed.

  Lemma add_line_other c i j : j <> i -> add_line c i j = c j.
  Proof. intros H. unfold add_line. destruct (c i); auto. apply upd_other; auto. Qed.
  Lemma add_line_self c i : add_line c i i = match c i with Some l => Some l | None => Some {| l_entries := []; l_inhom := Some 0 |} end.
  Proof. unfold add_line. destruct (c i) eqn:E; auto. apply upd_same. Qed.
  Lemma add_entry_other c i j a w : j <> i -> add_entry c i a w j = c j.
  Proof. intros H. unfold add_entry. destruct (c i); auto. apply upd_other; auto. Qed.
  Lemma set_inhom_other c i j v : j <> i -> set_inhom c i v j = c j.
  Proof. intros H. unfold set_inhom. destruct (c i); auto. apply upd_other; auto. Qed.
  Lemma set_inhom_self c i v l : c i = Some l -> set_inhom c i v i = Some {| l_entries := l_entries l; l_inhom := v |}.
  Proof. intros H. unfold set_inhom. rewrite H. apply upd_same. Qed.

  (* a step only touches its class *)
  Lemma dd_other i c j m : m <> i -> m <> j -> dirichlet_double k i c j m = c m.
  Proof.
    intros A B. unfold dirichlet_double. rewrite coplanar_dead.
    destruct (k_dir k j); [destruct (k_cont k)|]; auto.
    - rewrite set_inhom_other, add_line_other, set_inhom_other, add_line_other, add_line_other; auto.
    - rewrite set_inhom_other, add_line_other; auto.
  Qed.
  Lemma nd_other i c j m : m <> j -> neumann_double i c j m = c m.
  Proof. intros B. unfold neumann_double. rewrite add_entry_other, add_line_other; auto. Qed.

  Lemma fold_dd_other i l : forall c m, m <> i -> ~ In m l -> fold_left (dirichlet_double k i) l c m = c m.
  Proof.
    induction l; intros c m H1 H2; simpl; auto. rewrite IHl; auto; [|simpl in H2; tauto].
    apply dd_other; auto. simpl in H2. intro; subst; tauto.
  Qed.
  Lemma fold_nd_other i l : forall c m, ~ In m l -> fold_left (neumann_double i) l c m = c m.
  Proof.
    induction l; intros c m H2; simpl; auto. rewrite IHl by (simpl in H2; tauto).
    apply nd_other. simpl in H2. intro; subst; tauto.
  Qed.

  Lemma step_other c i m : (i < k_n k)%nat -> (m < k_n k)%nat -> i <> first_of_doubles k m ->
    constraint_step k c i m = c m.
  Proof.
    intros Hi Hm N. unfold constraint_step.
    destruct (Nat.eqb_spec i (first_of_doubles k i)) as [E|E]; auto.
    assert (NI : ~ In m (k_doubles k i)).
    { intros I. apply N. rewrite (first_class i m Hi I). exact E. }
    assert (m <> i). { intros ->. apply NI, Hrefl; auto. }
    destruct (k_dir k i).
    - apply fold_dd_other; auto. rewrite filter_In. tauto.
    - apply fold_nd_other. rewrite filter_In. tauto.
  Qed.

  Lemma fold_steps_other l : forall c m, (m < k_n k)%nat -> (forall i, In i l -> (i < k_n k)%nat /\ i <> first_of_doubles k m) ->
    fold_left (constraint_step k) l c m = c m.
  Proof.
    induction l; intros c m Hm H; simpl; auto. rewrite IHl; auto; [|intros; apply H; right; auto].
    destruct (H a (or_introl eq_refl)). apply step_other; auto.
  Qed.

  (* whole loop = effect of the single relevant iteration, started from a state where the class is untouched *)
  Lemma constraints_at m : (m < k_n k)%nat ->
    exists c, compute_constraints k m = constraint_step k c (first_of_doubles k m) m /\
      forall m', (m' < k_n k)%nat -> first_of_doubles k m' = first_of_doubles k m -> c m' = None.
  Proof.
    intros Hm. pose proof (first_in m Hm) as Hf. destruct (Hclass m _ Hm Hf) as [Lf _].
    set (f := first_of_doubles k m) in *. unfold compute_constraints.
    assert (ES : seq 0 (k_n k) = seq 0 f ++ [f] ++ seq (S f) (k_n k - S f)).
    { replace (k_n k) with (f + (1 + (k_n k - S f)))%nat at 1 by lia. rewrite !seq_app. simpl. f_equal. f_equal. f_equal. lia. }
    rewrite ES, !fold_left_app. simpl fold_left at 2.
    exists (fold_left (constraint_step k) (seq 0 f) (fun _ => None)). split.
    - rewrite fold_steps_other; auto. intros i Hi. apply in_seq in Hi. fold f. lia.
    - intros m' Hm' E. rewrite fold_steps_other; auto. intros i Hi. apply in_seq in Hi. rewrite E. lia.
  Qed.

  Definition others m := filter (fun j => negb (j =? first_of_doubles k m)%nat) (k_doubles k m).
  Lemma others_spec m j : In j (others m) <-> In j (k_doubles k m) /\ j <> first_of_doubles k m.
  Proof. unfold others. rewrite filter_In, negb_true_iff, Nat.eqb_neq. tauto. Qed.

  (* what the fold leaves on an element of the list *)
  Lemma fold_nd_at i l : forall c m, NoDup l -> In m l -> m <> i -> c m = None ->
    fold_left (neumann_double i) l c m = Some {| l_entries := [(i, 1)]; l_inhom := Some 0 |}.
  Proof.
    induction l as [|a l IH]; intros c m ND Hm Hi Hc; simpl; [destruct Hm|].
    inversion ND; subst. destruct (Nat.eq_dec m a) as [->|N].
    - rewrite fold_nd_other by auto. unfold neumann_double, add_entry.
      rewrite add_line_self, Hc. rewrite upd_same. reflexivity.
    - apply IH; auto. destruct Hm; [congruence|auto]. rewrite nd_other; auto.
  Qed.

  Lemma dd_at i c j : j <> i -> c j = None ->
    dirichlet_double k i c j j =
    if k_dir k j then
      if k_cont k then Some {| l_entries := []; l_inhom := other_normal_gradient (k_normal k i) (k_normal k j) (k_sgrad k i) (k_sgrad k j) |}
      else None
    else Some {| l_entries := []; l_inhom := Some (k_rhs k i) |}.
  Proof.
    intros N Hc. unfold dirichlet_double. rewrite coplanar_dead.
    assert (L1 : add_line c j j = Some {| l_entries := []; l_inhom := Some 0 |}) by (rewrite add_line_self, Hc; auto).
    destruct (k_dir k j); [destruct (k_cont k)|]; auto.
    - rewrite (set_inhom_self _ _ _ {| l_entries := []; l_inhom := Some 0 |}); [reflexivity|].
      rewrite add_line_self, set_inhom_other, add_line_other, L1 by auto. reflexivity.
    - erewrite set_inhom_self; [|exact L1]. reflexivity.
  Qed.

  Lemma fold_dd_at i l : forall c m, NoDup l -> In m l -> m <> i -> c m = None ->
    fold_left (dirichlet_double k i) l c m =
    if k_dir k m then
      if k_cont k then Some {| l_entries := []; l_inhom := other_normal_gradient (k_normal k i) (k_normal k m) (k_sgrad k i) (k_sgrad k m) |}
      else None
    else Some {| l_entries := []; l_inhom := Some (k_rhs k i) |}.
  Proof.
    induction l as [|a l IH]; intros c m ND Hm Hi Hc; simpl; [destruct Hm|].
    inversion ND; subst. destruct (Nat.eq_dec m a) as [->|N].
    - rewrite fold_dd_other by auto. apply dd_at; auto.
    - apply IH; auto. destruct Hm; [congruence|auto]. rewrite dd_other; auto.
  Qed.

  (* the first node itself *)
  Definition last_dir (l : list nat) : option nat :=
    fold_left (fun a j => if k_dir k j then Some j else a) l None.

  Lemma dd_first i c j : j <> i ->
    (c i = None \/ exists v, c i = Some {| l_entries := []; l_inhom := v |}) ->
    dirichlet_double k i c j i =
    if k_dir k j && k_cont k then Some {| l_entries := []; l_inhom := this_normal_gradient (k_normal k i) (k_normal k j) (k_sgrad k i) (k_sgrad k j) |}
    else c i.
  Proof.
    intros N Hc. unfold dirichlet_double. rewrite coplanar_dead.
    destruct (k_dir k j); [destruct (k_cont k)|]; simpl; auto.
    - rewrite set_inhom_other, add_line_other by auto.
      destruct Hc as [Hc|(v & Hc)].
      + rewrite (set_inhom_self _ _ _ {| l_entries := []; l_inhom := Some 0 |}); [reflexivity|].
        rewrite add_line_self, add_line_other, Hc by auto. reflexivity.
      + rewrite (set_inhom_self _ _ _ {| l_entries := []; l_inhom := v |}); [reflexivity|].
        rewrite add_line_self, add_line_other, Hc by auto. reflexivity.
    - rewrite set_inhom_other, add_line_other; auto.
  Qed.

  Lemma fold_dd_first i l : forall c, ~ In i l ->
    (c i = None \/ exists v, c i = Some {| l_entries := []; l_inhom := v |}) ->
    fold_left (dirichlet_double k i) l c i =
    match last_dir l with
    | Some j => if k_cont k then Some {| l_entries := []; l_inhom := this_normal_gradient (k_normal k i) (k_normal k j) (k_sgrad k i) (k_sgrad k j) |} else c i
    | None => c i
    end.
  Proof.
    unfold last_dir. induction l as [|a l IH] using rev_ind; intros c NI Hc; simpl; auto.
    rewrite !fold_left_app. simpl. rewrite in_app_iff in NI. simpl in NI.
    assert (IH' := IH c ltac:(tauto) Hc).
    rewrite dd_first; [|intro; subst; tauto|].
    - destruct (k_dir k a), (k_cont k); simpl; auto; rewrite IH'; auto.
      destruct (fold_left _ l None); auto.
    - rewrite IH'. destruct (fold_left (fun a0 j => _) l None); auto. destruct (k_cont k); auto. right; eauto.
  Qed.

  Theorem constraints_char m : (m < k_n k)%nat ->
    let f := first_of_doubles k m in
    compute_constraints k m =
    if (m =? f)%nat then
      if k_dir k f && k_cont k then
        match last_dir (others m) with
        | Some j => Some {| l_entries := []; l_inhom := this_normal_gradient (k_normal k f) (k_normal k j) (k_sgrad k f) (k_sgrad k j) |}
        | None => None
        end
      else None
    else if k_dir k f then
      if k_dir k m then
        if k_cont k then Some {| l_entries := []; l_inhom := other_normal_gradient (k_normal k f) (k_normal k m) (k_sgrad k f) (k_sgrad k m) |}
        else None
      else Some {| l_entries := []; l_inhom := Some (k_rhs k f) |}
    else Some {| l_entries := [(f, 1)]; l_inhom := Some 0 |}.
  Proof.
    intros Hm f. destruct (constraints_at m Hm) as (c & E & Hc). rewrite E. fold f in E, Hc |- *.
    assert (Hfin := first_in m Hm). fold f in Hfin.
    destruct (Hclass m f Hm Hfin) as [Lf Df].
    assert (Ff : first_of_doubles k f = f) by (apply first_class; auto).
    unfold constraint_step. rewrite Ff, Nat.eqb_refl, Df.
    fold (others m). change (filter (fun j => negb (j =? f)%nat) (k_doubles k m)) with (others m).
    assert (ND : NoDup (others m)) by (apply NoDup_filter; auto).
    assert (NIf : ~ In f (others m)) by (rewrite others_spec; unfold f; tauto).
    assert (Cm : c m = None) by (apply Hc; auto).
    assert (Cf : c f = None) by (apply Hc; auto).
    assert (Im : m <> f -> In m (others m)) by (rewrite others_spec; fold f; split; auto).
    clearbody f.
    destruct (Nat.eqb_spec m f) as [Em|Nm].
    - subst f. destruct (k_dir k m) eqn:Kf; simpl.
      + rewrite fold_dd_first by auto. rewrite Cm. destruct (k_cont k), (last_dir (others m)); auto.
      + rewrite fold_nd_other by auto. auto.
    - specialize (Im Nm). destruct (k_dir k f); simpl.
      + rewrite fold_dd_at by auto. reflexivity.
      + rewrite fold_nd_at by auto. reflexivity.
  Qed.
End Groups.
