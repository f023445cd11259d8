(** Property theorems C82, end: a Direct solve on any number of processes. *)
From Coq Require Import QArith Reals List Bool Arith Lia Lra Permutation.
From Verif Require Import LibSum ModelOctree ModelFmm ModelAssemble ModelRules ModelFloat.
From Verif Require ModelKernel.
From Verif Require Import ModelBem ProofsBem ModelBc ProofsBc PropBem PropBc ModelOwn SpecOwn ProofsOwn PropOwn ModelSolve SpecSolve ProofsSolve PropSolve SpecRenumber PropRenumber PropRenumMesh ModelRun.
From Verif Require PropCoincide.
Import ListNotations.
Local Open Scope nat_scope.

(** ** Conditions on the problem, in terms of the mesh *)
(** node [j] lies on a Dirichlet cell *)
Definition on_dirichlet (p : problem) (j : nat) : Prop := exists c, c < p_cells p /\ In j (p_dofs p c) /\ In (p_mat p c) (p_dirichlet p).
(** the value of the data at a node: the last cell at the node decides (C28) *)
Definition is_in (l : list nat) (m : nat) : bool := existsb (fun d => Nat.eqb m d) l.
Definition node_flux (p : problem) (j : nat) : R :=
  fold_left (fun a d => (a + p_wind p (p_node p j) d * p_normal p j d)%R) (seq 0 (p_dim p)) 0%R.
Definition node_step (p : problem) (j : nat) (t : R * R * R) (c : nat) : R * R * R :=
  if existsb (Nat.eqb j) (p_dofs p c) then
    if is_in (p_dirichlet p) (p_mat p c) then (p_pot p (p_node p j), snd (fst t), p_pot p (p_node p j))
    else if is_in (p_neumann p) (p_mat p c) then (fst (fst t), node_flux p j, node_flux p j) else (fst (fst t), 0%R, 0%R)
  else t.
Definition node_data (p : problem) (j : nat) : R * R * R := fold_left (node_step p j) (seq 0 (p_cells p)) (0%R, 0%R, 0%R).

(** nodes are either at the same point or at least 1e-10 apart *)
Definition separated (p : problem) : Prop := forall i j, i < p_n p -> j < p_n p ->
  (ModelKernel.norm (p_dim p) (difference (p_node p i) (p_node p j)) < 1 / 10 ^ 10)%R -> p_node p i = p_node p j.
(** all cells at a node are Dirichlet cells or none is *)
Definition one_kind (p : problem) : Prop := forall j c1 c2, c1 < p_cells p -> c2 < p_cells p -> In j (p_dofs p c1) -> In j (p_dofs p c2) ->
  In (p_mat p c1) (p_dirichlet p) -> In (p_mat p c2) (p_dirichlet p).
(** at most two Dirichlet nodes at a point *)
Definition no_dirichlet_vertex (p : problem) : Prop := forall i j k, i < p_n p -> j < p_n p -> k < p_n p -> on_dirichlet p i -> on_dirichlet p j -> on_dirichlet p k ->
  p_node p i = p_node p j -> p_node p i = p_node p k -> i = j \/ i = k \/ j = k.
(** hanging nodes are not on the boundary of the mesh and hang on nodes of the mesh *)
Definition hanging_inside (p : problem) : Prop := forall h l, h < p_n p -> p_hanging p h = Some l -> p_edge p h = false /\ forall e, In e (l_entries l) -> fst e < p_n p.
Definition node_rhs (p : problem) (j : nat) : R := snd (node_data p j).
(** every pair of Dirichlet nodes at a boundary point gives a node the same flux; true if there are at most two (below) *)
Definition one_flux (p : problem) : Prop := forall i j k, i < p_n p -> j < p_n p -> k < p_n p -> on_dirichlet p i -> on_dirichlet p j -> on_dirichlet p k ->
  p_node p i = p_node p j -> p_node p i = p_node p k -> i <> j -> i <> k ->
  this_normal_gradient (p_normal p i) (p_normal p j) (p_sgrad p (node_rhs p) i) (p_sgrad p (node_rhs p) j) =
  this_normal_gradient (p_normal p i) (p_normal p k) (p_sgrad p (node_rhs p) i) (p_sgrad p (node_rhs p) k).
Record fine_problem (p : problem) : Prop := {
  fp_some : exists j, on_dirichlet p j;
  fp_separated : separated p;
  fp_kind : one_kind p;
  fp_vertex : p_cont p = true -> one_flux p;
  fp_hang : hanging_inside p;
  fp_sgrad : forall f g, (forall j, j < p_n p -> f j = g j) -> forall j d, j < p_n p -> p_sgrad p f j d = p_sgrad p g j d }.


Lemma norm_self dim v : ModelKernel.norm dim (difference v v) = 0%R.
Proof.
  unfold ModelKernel.norm. replace (ModelKernel.square dim (difference v v)) with 0%R; [apply sqrt_0|]. unfold ModelKernel.square.
  rewrite fold_left_plus, suml_zero; [ring|]. intros k _. unfold difference. ring.
Qed.
Lemma filter_same (f g : nat -> bool) l : (forall x, In x l -> (f x = true <-> g x = true)) -> filter f l = filter g l.
Proof. intros E. apply filter_ext_in. intros x Hx. apply eq_true_iff_eq. auto. Qed.

Section One.
  Variables (p : problem) (sub : nat -> nat) (np : nat).
  Notation U := (numbers p sub np).
  Notation n := (p_n p).
  Hypothesis W : well_numbered U.

  Lemma u_o2s j : j < n -> o2s U j < n /\ s2o U (o2s U j) = j.
  Proof. intros Hj. destruct (proj1 (C71_tables U W) j Hj) as (A & B & _). auto. Qed.
  Lemma u_s2o i : i < n -> s2o U i < n /\ o2s U (s2o U i) = i.
  Proof. intros Hj. destruct (proj1 (C71_tables U W) i Hj) as (_ & _ & A & B). auto. Qed.
  Lemma u_dofs c i : c < p_cells p -> i < n -> (In i (dofs_now U c) <-> In (s2o U i) (p_dofs p c)).
  Proof. intros Hc Hi. apply (proj2 (proj2 (C71_tables U W)) c i); auto. Qed.
  Lemma u_low c d : c < p_cells p -> In d (dofs_now U c) -> d < n.
  Proof.
    intros Hc Hd. unfold dofs_now in Hd. apply in_map_iff in Hd as (e & <- & He). apply u_o2s. destruct W as (_ & _ & W2 & _). apply (W2 c e); auto.
  Qed.
  Lemma u_owner i : i < n -> owner_of p sub np i < np /\ forall q, cpu_set U q i = true <-> q = owner_of p sub np i.
  Proof.
    intros Hi. destruct (C71_partition U i W Hi) as (s & Hs & Es). assert (X := proj2 (Es s) eq_refl). unfold cpu_set in X. apply andb_true_iff in X as [_ X].
    unfold owner_of. unfold is_sub in X. destruct (domain_of U i) as [t|]; [|discriminate]. apply Nat.eqb_eq in X. subst t. split; auto.
  Qed.
  Lemma u_owns i : i < n -> cpu_set U (owner_of p sub np i) i = true.
  Proof. intros Hi. apply (proj2 (u_owner i Hi)). auto. Qed.
  Lemma u_partition : partition n (owned_sets p sub np).
  Proof.
    intros i Hi. unfold owned_sets. destruct (u_owner i Hi) as (Hs & Es). set (s := owner_of p sub np i) in *.
    assert (G : forall m k, length (filter (fun own : nat -> bool => own i) (map (cpu_set U) (seq k m))) = if (k <=? s) && (s <? k + m) then 1 else 0).
    { induction m as [|m IH]; intros k; cbn [seq map filter].
      - rewrite Nat.add_0_r. destruct (k <=? s) eqn:A, (s <? k) eqn:B; auto. apply Nat.leb_le in A. apply Nat.ltb_lt in B. lia.
      - destruct (cpu_set U k i) eqn:E; [|rewrite IH].
        + apply Es in E. subst k. cbn [length]. rewrite IH. replace (S s <=? s) with false by (symmetry; apply Nat.leb_gt; lia). rewrite Nat.leb_refl.
          replace (s <? s + S m) with true by (symmetry; apply Nat.ltb_lt; lia). reflexivity.
        + assert (k <> s) by (intros X; apply Es in X; congruence).
          replace (k + S m) with (S k + m) by lia. replace (S k <=? s) with (k <=? s); auto.
          destruct (k <=? s) eqn:A; [apply Nat.leb_le in A; symmetry; apply Nat.leb_le; lia|apply Nat.leb_gt in A; symmetry; apply Nat.leb_gt; lia]. }
    rewrite G. rewrite Nat.add_0_l. replace (s <? np) with true by (symmetry; apply Nat.ltb_lt; auto). reflexivity.
  Qed.

  (** doubles *)
  Lemma u_doubles i k : i < n -> In k (run_doubles p sub np i) <-> k < n /\ (k = i \/ (p_edge p (s2o U i) = true /\ p_edge p (s2o U k) = true /\ (run_dist p sub np i k < 1 / 10 ^ 10)%R)).
  Proof.
    intros Hi. unfold run_doubles. rewrite in_double_nodes, !filter_In, !in_seq. split.
    - intros (A & [B|((_ & B) & (_ & C) & D)]); auto.
    - intros (A & [B|(B & C & D)]); split; auto. right. repeat split; auto; lia.
  Qed.
  Lemma dist_iff : separated p -> forall i k, i < n -> k < n -> ((run_dist p sub np i k < 1 / 10 ^ 10)%R <-> run_node p sub np i = run_node p sub np k).
  Proof.
    intros Sep i k Hi Hk. unfold run_dist. split.
    - intros L. apply Sep; auto; apply u_s2o; auto.
    - intros ->. rewrite norm_self. apply Rdiv_lt_0_compat; [lra|apply pow_lt; lra].
  Qed.
  Lemma u_same : separated p -> forall i k, i < n -> In k (run_doubles p sub np i) -> k < n /\ run_node p sub np i = run_node p sub np k /\ run_doubles p sub np k = run_doubles p sub np i.
  Proof.
    intros Sep i k Hi Hk. apply (u_doubles i k Hi) in Hk as (Lk & Hk). split; auto. destruct Hk as [->|(E1 & E2 & D)]; [auto|].
    apply (dist_iff Sep i k Hi Lk) in D. split; auto.
    unfold run_doubles, double_nodes. apply filter_same. intros a Ha.
    assert (La : a < n) by (apply in_seq in Ha; lia).
    assert (X : forall u, u < n -> existsb (Nat.eqb u) (filter (fun k0 => p_edge p (s2o U k0)) (seq 0 n)) = p_edge p (s2o U u)).
    { intros u Hu. apply eq_true_iff_eq. rewrite existsb_exists. split; [intros (y & Y1 & Y2); apply Nat.eqb_eq in Y2; subst y; apply filter_In in Y1; tauto|].
      intros E. exists u. split; [apply filter_In; split; auto; apply in_seq; lia|apply Nat.eqb_refl]. }
    rewrite !X by auto. rewrite E1, E2. cbn [andb].
    assert (Y : (run_dist p sub np k a < 1 / 10 ^ 10)%R <-> (run_dist p sub np i a < 1 / 10 ^ 10)%R) by (rewrite !dist_iff by auto; rewrite D; tauto).
    assert (Zi : (run_dist p sub np k i < 1 / 10 ^ 10)%R) by (apply dist_iff; auto).
    assert (Zk : (run_dist p sub np i k < 1 / 10 ^ 10)%R) by (apply dist_iff; auto).
    destruct (Nat.eqb_spec a k) as [Eak|Nk], (Nat.eqb_spec a i) as [Eai|Ni]; cbn [orb].
    - tauto.
    - rewrite Eak, E2. cbn [andb]. destruct (Rlt_dec (run_dist p sub np i k) (1 / 10 ^ 10)); [tauto|lra].
    - rewrite Eai, E1. cbn [andb]. destruct (Rlt_dec (run_dist p sub np k i) (1 / 10 ^ 10)); [tauto|lra].
    - destruct (p_edge p (s2o U a)); cbn [andb]; [|tauto]. destruct (Rlt_dec (run_dist p sub np k a) (1 / 10 ^ 10)), (Rlt_dec (run_dist p sub np i a) (1 / 10 ^ 10)); tauto.
  Qed.
  Lemma u_coincidence : separated p -> coincidence n (run_doubles p sub np).
  Proof.
    intros Sep. split; [|split].
    - intros i Hi. apply u_doubles; auto.
    - intros i j Hi Hj. destruct (u_same Sep i j Hi Hj) as (A & _ & B). auto.
    - intros i Hi. apply NoDup_filter, seq_NoDup.
  Qed.

  (** kinds *)
  Lemma u_dir : one_kind p -> forall i, i < n -> (s_dir (run_system p sub np) i = true <-> on_dirichlet p (s2o U i)).
  Proof.
    intros K i Hi. cbn [run_system s_dir].
    destruct (C21_indicators (p_dirichlet p) (run_cells p sub np) (owner_of p sub np) i) as [A B].
    set (D := exists c, In c (run_cells p sub np) /\ c_sub c = owner_of p sub np i /\ In (c_mat c) (p_dirichlet p) /\ In i (c_dofs c)) in *.
    assert (E : D <-> on_dirichlet p (s2o U i)).
    { unfold D, on_dirichlet, run_cells. split.
      - intros (x & Hx & _ & Hm & Hd). apply in_map_iff in Hx as (c & <- & Hc). apply in_seq in Hc. cbn in Hm, Hd. exists c. split; [lia|]. split; auto. apply u_dofs; auto; lia.
      - intros (c & Hc & Hd & Hm). destruct (proj1 (proj1 (C71_owner U i (owner_of p sub np i) W Hi) (u_owns i Hi))) as (c' & Hc' & Hs & Hd').
        exists {| c_dofs := dofs_now U c'; c_mat := p_mat p c'; c_sub := sub c' |}. cbn. split; [apply in_map_iff; exists c'; split; auto; apply in_seq; cbn in Hc'; lia|].
        split; auto. split; auto. apply (K (s2o U i) c c'); auto. apply u_dofs; auto. }
    split.
    - destruct (Req_EM_T _ 1) as [X|X]; [|discriminate]. intros _. destruct (existsb (fun c => existsb (Nat.eqb (s2o U i)) (p_dofs p c) && existsb (Nat.eqb (p_mat p c)) (p_dirichlet p)) (seq 0 (p_cells p))) eqn:Ex.
      + apply existsb_exists in Ex as (c & Hc & Ex). apply andb_true_iff in Ex as [E1 E2]. apply existsb_exists in E1 as (a & A1 & A2), E2 as (b & B1 & B2).
        apply Nat.eqb_eq in A2, B2. subst. apply in_seq in Hc. exists c. split; [lia|auto].
      + exfalso. assert (ND : ~ D).
        { intros HD. apply E in HD as (c & Hc & Hd & Hm). assert (Y : existsb (fun c => existsb (Nat.eqb (s2o U i)) (p_dofs p c) && existsb (Nat.eqb (p_mat p c)) (p_dirichlet p)) (seq 0 (p_cells p)) = true); [|congruence].
          apply existsb_exists. exists c. split; [apply in_seq; lia|]. apply andb_true_iff. split; apply existsb_exists; eexists; split; eauto using Nat.eqb_refl. }
        destruct (B ND) as [B1 _]. rewrite B1 in X. lra.
    - intros HD. apply E in HD. destruct (A HD) as [-> _]. destruct (Req_EM_T 1 1); auto.
  Qed.
  Lemma u_have : (exists j, on_dirichlet p j) -> s_have_dirichlet (run_system p sub np) = true.
  Proof.
    intros (j & c & Hc & Hj & Hm). cbn [run_system s_have_dirichlet]. apply C21_flag.
    - intros x Hx. apply in_map_iff in Hx as (c' & <- & Hc'). cbn. destruct W as (_ & W1 & _). apply in_seq in Hc'. apply W1. cbn. lia.
    - exists {| c_dofs := dofs_now U c; c_mat := p_mat p c; c_sub := sub c |}. split; auto. apply in_map_iff. exists c. split; auto. apply in_seq. lia.
  Qed.

  (** data *)
  Lemma u_vectors i : i < n -> (run_phi0 p sub np i, run_dphi0 p sub np i, run_rhs p sub np i) = node_data p (s2o U i).
  Proof.
    intros Hi. unfold run_phi0, run_dphi0, run_rhs, run_vectors, prepare_bem_vectors, node_data, run_cells.
    set (own := cpu_set U (owner_of p sub np i)). assert (Oi : own i = true) by (apply u_owns; auto). set (b := run_data p sub np).
    set (pr := fun v : bvecs => (v_phi v i, v_dphi v i, v_rhs v i)).
    assert (Hl : forall c, In c (seq 0 (p_cells p)) -> c < p_cells p) by (intros c Hc; apply in_seq in Hc; lia).
    change (pr (fold_left (prepare_cell b own) (map (fun c => {| c_dofs := dofs_now U c; c_mat := p_mat p c; c_sub := sub c |}) (seq 0 (p_cells p))) {| v_phi := fun _ => 0%R; v_dphi := fun _ => 0%R; v_rhs := fun _ => 0%R |}) = fold_left (node_step p (s2o U i)) (seq 0 (p_cells p)) (pr {| v_phi := fun _ => 0%R; v_dphi := fun _ => 0%R; v_rhs := fun _ => 0%R |})).
    generalize {| v_phi := fun _ => 0%R; v_dphi := fun _ => 0%R; v_rhs := fun _ => 0%R |}. revert Hl. generalize (seq 0 (p_cells p)).
    induction l as [|c l IH]; intros Hl v; [reflexivity|]. cbn [map fold_left]. rewrite IH by (intros; apply Hl; right; auto). f_equal. clear IH.
    assert (Lc := Hl c (or_introl eq_refl)). unfold node_step.
    assert (Ex : existsb (Nat.eqb (s2o U i)) (p_dofs p c) = existsb (Nat.eqb i) (dofs_now U c)).
    { apply eq_true_iff_eq. rewrite !existsb_exists. split; intros (y & Y1 & Y2); apply Nat.eqb_eq in Y2; subst y; [exists i|exists (s2o U i)]; split; auto using Nat.eqb_refl; apply u_dofs; auto. }
    rewrite Ex. clear Ex. unfold prepare_cell. cbn [c_dofs]. set (cl := {| c_dofs := dofs_now U c; c_mat := p_mat p c; c_sub := sub c |}).
    set (T := fun t : R * R * R => if is_in (p_dirichlet p) (p_mat p c) then (p_pot p (p_node p (s2o U i)), snd (fst t), p_pot p (p_node p (s2o U i)))
      else if is_in (p_neumann p) (p_mat p c) then (fst (fst t), node_flux p (s2o U i), node_flux p (s2o U i)) else (fst (fst t), 0%R, 0%R)).
    assert (TT : forall t, T (T t) = T t) by (intros t; unfold T; destruct (is_in (p_dirichlet p) (p_mat p c)); [reflexivity|destruct (is_in (p_neumann p) (p_mat p c)); reflexivity]).
    assert (Step : forall v d, pr (if own d then prepare_dof b cl v d else v) = if Nat.eqb i d then T (pr v) else pr v).
    { intros w d. destruct (Nat.eqb_spec i d) as [<-|Nd].
      - rewrite Oi. unfold prepare_dof, T, pr, is_in. cbn [b run_data d_dirichlet d_neumann cl c_mat]. destruct (existsb (fun d => Nat.eqb (p_mat p c) d) (p_dirichlet p)).
        + cbn [v_phi v_dphi v_rhs fst snd d_pot]. unfold upd. rewrite Nat.eqb_refl. reflexivity.
        + destruct (existsb (fun d => Nat.eqb (p_mat p c) d) (p_neumann p)); cbn [v_phi v_dphi v_rhs fst snd]; unfold upd; rewrite Nat.eqb_refl; reflexivity.
      - apply Nat.eqb_neq in Nd. destruct (own d); auto. unfold prepare_dof, pr. destruct (existsb _ (d_dirichlet b)); [|destruct (existsb _ (d_neumann b))]; cbn [v_phi v_dphi v_rhs]; unfold upd; rewrite Nd; reflexivity. }
    change (pr (fold_left (fun v d => if own d then prepare_dof b cl v d else v) (dofs_now U c) v) = if existsb (Nat.eqb i) (dofs_now U c) then T (pr v) else pr v).
    clearbody cl. revert v. induction (dofs_now U c) as [|d l0 IH]; intros v; [reflexivity|]. cbn [fold_left existsb]. rewrite IH, Step. destruct (Nat.eqb i d); cbn [orb]; [|auto].
    destruct (existsb (Nat.eqb i) l0); auto.
  Qed.
  Lemma u_pot : one_kind p -> forall i, i < n -> on_dirichlet p (s2o U i) -> run_rhs p sub np i = p_pot p (run_node p sub np i) /\ run_phi0 p sub np i = p_pot p (run_node p sub np i).
  Proof.
    intros K i Hi (c & Hc & Hd & Hm). unfold run_rhs, run_phi0, run_vectors.
    destruct (C28_dirichlet (run_data p sub np) (cpu_set U (owner_of p sub np i)) (run_cells p sub np) i (u_owns i Hi)) as (A & B & _).
    - exists {| c_dofs := dofs_now U c; c_mat := p_mat p c; c_sub := sub c |}. split; [apply in_map_iff; exists c; split; auto; apply in_seq; lia|]. cbn. apply u_dofs; auto.
    - intros x Hx Hxi. apply in_map_iff in Hx as (c' & <- & Hc'). apply in_seq in Hc'. cbn in *. apply (K (s2o U i) c c'); auto; [lia|]. apply u_dofs; auto; lia.
    - split; assumption.
  Qed.

  Lemma u_rhs i : i < n -> run_rhs p sub np i = node_rhs p (s2o U i).
  Proof. intros Hi. unfold node_rhs. rewrite <- (u_vectors i Hi). reflexivity. Qed.
  Lemma u_sgrad : (forall f g, (forall j, j < p_n p -> f j = g j) -> forall j d, j < p_n p -> p_sgrad p f j d = p_sgrad p g j d) ->
    forall i d, i < n -> s_sgrad (run_system p sub np) (run_rhs p sub np) i d = p_sgrad p (node_rhs p) (s2o U i) d.
  Proof.
    intros E i d Hi. change (p_sgrad p (fun j => run_rhs p sub np (o2s U j)) (s2o U i) d = p_sgrad p (node_rhs p) (s2o U i) d).
    apply E; [|apply u_s2o; auto]. intros j Hj. destruct (u_o2s j Hj) as [L R0]. rewrite u_rhs by auto. rewrite R0. reflexivity.
  Qed.

  (** operators *)
  Lemma u_linear m : linear_op n (fun x i => stored_vmult (p_dim p) m (run_mesh p sub np) (run_node p sub np) (p_regular p) (p_singular p) (cpu_set U (owner_of p sub np i)) x i).
  Proof.
    set (M := fun i d => stored (p_dim p) m (run_mesh p sub np) (run_node p sub np) (p_regular p) (p_singular p) (cpu_set U (owner_of p sub np i)) i d).
    assert (E : forall x i, stored_vmult (p_dim p) m (run_mesh p sub np) (run_node p sub np) (p_regular p) (p_singular p) (cpu_set U (owner_of p sub np i)) x i = matvec n M x i).
    { intros x i. unfold stored_vmult, direct_vmult, matvec, M, stored. cbn [aadd amul exact_arith]. rewrite fold_left_plus, Rplus_0_l. cbn [o_nd run_mesh]. apply suml_seq. }
    destruct (matvec_linear n M) as (A & B & C). split; [|split].
    - intros x y i Hi. rewrite !E. apply A; auto.
    - intros s x i Hi. rewrite !E. apply B; auto.
    - intros x y Hxy i Hi. rewrite !E. apply C; auto.
  Qed.
  Lemma u_rows : separated p -> forall i j, i < n -> In j (run_doubles p sub np i) -> same_rows (run_system p sub np) i j.
  Proof.
    intros Sep i j Hi Hj x. destruct (u_same Sep i j Hi Hj) as (Lj & En & Ed).
    assert (G : forall m, stored_vmult (p_dim p) m (run_mesh p sub np) (run_node p sub np) (p_regular p) (p_singular p) (cpu_set U (owner_of p sub np i)) x i =
      stored_vmult (p_dim p) m (run_mesh p sub np) (run_node p sub np) (p_regular p) (p_singular p) (cpu_set U (owner_of p sub np j)) x j).
    { intros m. pose proof (PropCoincide.C81_products_at_one_point (p_dim p) m (run_mesh p sub np) (run_node p sub np) (p_regular p) (p_singular p)) as Q.
      apply Q; [exact Hi|exact Lj|apply u_owns; auto|apply u_owns; auto| |exact En]. intros k. change (In k (run_doubles p sub np i) <-> In k (run_doubles p sub np j)). rewrite Ed. tauto. }
    split; [exact (G neumann_matrix)|exact (G dirichlet_matrix)].
  Qed.
  Lemma u_regular : fine_problem p -> regular (run_system p sub np) (run_rhs p sub np).
  Proof.
    intros F. assert (Sep := fp_separated p F). assert (K := fp_kind p F). constructor; cbn [run_system s_n s_doubles s_cont].
    - apply u_rows; auto.
    - intros i j Hi Hj Di Dj. destruct (u_same Sep i j Hi Hj) as (Lj & En & _). apply (u_dir K) in Di, Dj; auto.
      rewrite (proj1 (u_pot K i Hi Di)), (proj1 (u_pot K j Lj Dj)), En. reflexivity.
    - intros Hc i j k Hi Hj Hk Nj Nk Di Dj Dk. destruct (u_same Sep i j Hi Hj) as (Lj & Ej & _), (u_same Sep i k Hi Hk) as (Lk & Ek & _).
      apply (u_dir K) in Di, Dj, Dk; auto.
      assert (Q := fp_vertex p F Hc (s2o U i) (s2o U j) (s2o U k) (proj1 (u_s2o i Hi)) (proj1 (u_s2o j Lj)) (proj1 (u_s2o k Lk)) Di Dj Dk Ej Ek).
      assert (Sg : forall a, a < n -> forall d, s_sgrad (run_system p sub np) (run_rhs p sub np) a d = p_sgrad p (node_rhs p) (s2o U a) d) by (intros; apply u_sgrad; auto; apply (fp_sgrad p F)).
      rewrite (this_ext (s_normal (run_system p sub np) i) (p_normal p (s2o U i)) (s_normal (run_system p sub np) j) (p_normal p (s2o U j)) _ (p_sgrad p (node_rhs p) (s2o U i)) _ (p_sgrad p (node_rhs p) (s2o U j))) by (auto; intros; apply Sg; auto).
      rewrite (this_ext (s_normal (run_system p sub np) i) (p_normal p (s2o U i)) (s_normal (run_system p sub np) k) (p_normal p (s2o U k)) _ (p_sgrad p (node_rhs p) (s2o U i)) _ (p_sgrad p (node_rhs p) (s2o U k))) by (auto; intros; apply Sg; auto).
      apply Q; intros X; [apply Nj; rewrite <- (proj2 (u_s2o j Lj))|apply Nk; rewrite <- (proj2 (u_s2o k Lk))]; rewrite <- X, (proj2 (u_s2o i Hi)); reflexivity.
    - intros i j Hi Hx Hj. apply u_doubles in Hj as (_ & [Hj|(E & _)]); auto. exfalso.
      unfold constrained in Hx. cbn [run_system s_hanging] in Hx. unfold run_hanging in Hx. destruct (p_hanging p (s2o U i)) as [l|] eqn:El; [|discriminate].
      destruct (fp_hang p F (s2o U i) l (proj1 (u_s2o i Hi)) El) as (X & _). congruence.
  Qed.
  Lemma u_imposed : one_kind p -> imposed (run_system p sub np) (run_rhs p sub np) (run_phi0 p sub np) (run_dphi0 p sub np) .
  Proof.
    intros K i Hi. cbn [run_system s_n] in Hi. destruct (s_dir (run_system p sub np) i) eqn:D.
    - apply (u_dir K) in D; auto. destruct (u_pot K i Hi D) as [-> ->]. reflexivity.
    - assert (E := u_vectors i Hi). assert (N : ~ on_dirichlet p (s2o U i)) by (intros X; apply (u_dir K) in X; auto; congruence).
      assert (G : forall l t, (forall c, In c l -> c < p_cells p) -> snd (fst t) = snd t -> snd (fst (fold_left (node_step p (s2o U i)) l t)) = snd (fold_left (node_step p (s2o U i)) l t)).
      { induction l as [|c l IH]; intros t Hl Ht; auto. cbn [fold_left]. apply IH; [intros; apply Hl; right; auto|]. unfold node_step.
        destruct (existsb (Nat.eqb (s2o U i)) (p_dofs p c)) eqn:X; auto. destruct (is_in (p_dirichlet p) (p_mat p c)) eqn:Y; [|destruct (is_in (p_neumann p) (p_mat p c)); reflexivity].
        exfalso. apply N. exists c. split; [apply Hl; left; auto|]. apply existsb_exists in X as (a & A1 & A2). apply Nat.eqb_eq in A2. subst a. unfold is_in in Y. apply existsb_exists in Y as (b & B1 & B2). apply Nat.eqb_eq in B2. rewrite B2. auto. }
      specialize (G (seq 0 (p_cells p)) (0%R, 0%R, 0%R) ltac:(intros c Hc; apply in_seq in Hc; lia) eq_refl). fold (node_data p (s2o U i)) in G. rewrite <- E in G. exact G.
  Qed.
End One.

Lemma two_at_most_one_flux p : no_dirichlet_vertex p -> one_flux p.
Proof.
  intros V i j k Hi Hj Hk Di Dj Dk Ej Ek Nj Nk. destruct (V i j k) as [E|[E|E]]; auto; try contradiction. subst. reflexivity.
Qed.

Section Two.
  Variables (p : problem) (sub sub' : nat -> nat) (np np' : nat).
  Notation U := (numbers p sub np).
  Notation V := (numbers p sub' np').
  Notation n := (p_n p).
  Hypothesis W : well_numbered U.
  Hypothesis W' : well_numbered V.
  Let pi i := o2s U (s2o V i).
  Let rho i := o2s V (s2o U i).

  Lemma two_bij : bijection n pi rho.
  Proof.
    intros i Hi. unfold pi, rho. destruct (u_s2o p sub np W i Hi) as [A B], (u_s2o p sub' np' W' i Hi) as [A' B'].
    destruct (u_o2s p sub np W _ A') as [C D], (u_o2s p sub' np' W' _ A) as [C' D']. rewrite D, D'. auto.
  Qed.
  Lemma two_old i : i < n -> s2o U (pi i) = s2o V i.
  Proof. intros Hi. apply (u_o2s p sub np W). apply (u_s2o p sub' np' W'); auto. Qed.
  Lemma two_node i : i < n -> run_node p sub' np' i = run_node p sub np (pi i).
  Proof. intros Hi. unfold run_node. rewrite two_old; auto. Qed.
  Lemma two_dbl i k : i < n -> k < n -> (In k (run_doubles p sub' np' i) <-> In (pi k) (run_doubles p sub np (pi i))).
  Proof.
    intros Hi Hk. destruct (two_bij i Hi) as (Pi & _ & Ri & _), (two_bij k Hk) as (Pk & _ & Rk & _).
    rewrite (u_doubles p sub' np') by auto. rewrite (u_doubles p sub np) by auto. rewrite !two_old by auto.
    unfold run_dist. rewrite !two_node by auto.
    assert (k = i <-> pi k = pi i) by (split; [intros ->; auto|intros X; rewrite <- Ri, <- Rk, X; auto]). tauto.
  Qed.
  Lemma two_mesh : renumbered_mesh pi rho (run_mesh p sub np) (run_mesh p sub' np').
  Proof.
    constructor; try reflexivity.
    - exact two_bij.
    - intros c d Hc Hd. apply (u_low p sub np W c d); auto.
    - intros c Hc. change (dofs_now V c = map rho (dofs_now U c)). unfold dofs_now. rewrite map_map. apply map_ext_in. intros a Ha. unfold rho.
      destruct W as (_ & _ & W2 & _). rewrite (proj2 (u_o2s p sub np W a (W2 c a Hc Ha))). reflexivity.
    - exact two_dbl.
  Qed.
  Lemma two_renumbered : fine_problem p -> renumbered pi rho (run_system p sub np) (run_system p sub' np') (run_rhs p sub np) (run_rhs p sub' np').
  Proof.
    intros F. assert (K := fp_kind p F).
    assert (Lp : forall i, i < n -> pi i < n) by (intros i Hi; apply two_bij; auto).
    assert (VM : forall m x x' i, i < n -> (forall k, k < n -> x' k = x (pi k)) ->
      stored_vmult (p_dim p) m (run_mesh p sub' np') (run_node p sub' np') (p_regular p) (p_singular p) (cpu_set V (owner_of p sub' np' i)) x' i =
      stored_vmult (p_dim p) m (run_mesh p sub np) (run_node p sub np) (p_regular p) (p_singular p) (cpu_set U (owner_of p sub np (pi i))) x (pi i)).
    { intros m x x' i Hi Hx. pose proof (C82_products pi rho (run_mesh p sub np) (run_mesh p sub' np') two_mesh (p_dim p) m (run_node p sub np) (run_node p sub' np') (p_regular p) (p_singular p)) as Q.
      apply Q; [exact Hi|apply u_owns; auto|apply u_owns; auto|exact two_node|exact Hx]. }
    constructor.
    - reflexivity.
    - exact two_bij.
    - intros i Hi. apply eq_true_iff_eq. rewrite (u_dir p sub' np' W' K i Hi), (u_dir p sub np W K (pi i) (Lp i Hi)), two_old; auto. tauto.
    - rewrite !u_have; auto; apply (fp_some p F).
    - exact two_dbl.
    - intros i d Hi. change (p_normal p (s2o V i) d = p_normal p (s2o U (pi i)) d). rewrite two_old; auto.
    - intros i d Hi. rewrite (u_sgrad p sub' np'), (u_sgrad p sub np), two_old; auto; apply (fp_sgrad p F).
    - reflexivity.
    - intros i Hi. change (renamed_line n pi (run_hanging p sub np (pi i)) (run_hanging p sub' np' i)). unfold run_hanging. rewrite two_old by auto.
      destruct (p_hanging p (s2o V i)) as [l|] eqn:El; [|exact Logic.I]. destruct (fp_hang p F (s2o V i) l (proj1 (u_s2o p sub' np' W' i Hi)) El) as [_ Le].
      cbn [renamed_line l_inhom l_entries]. split; [reflexivity|]. split.
      + rewrite map_map. cbn [fst snd]. replace (map (fun x => (pi (o2s V (fst x)), snd x)) (l_entries l)) with (map (fun e => (o2s U (fst e), snd e)) (l_entries l)); [apply Permutation_refl|].
        apply map_ext_in. intros e He. unfold pi. rewrite (proj2 (u_o2s p sub' np' W' (fst e) (Le e He))). reflexivity.
      + intros e He. apply in_map_iff in He as (e0 & <- & He). cbn [fst]. apply (u_o2s p sub' np' W'). auto.
    - intros x x' i Hi Hx. exact (VM neumann_matrix x x' i Hi Hx).
    - intros x x' i Hi Hx. exact (VM dirichlet_matrix x x' i Hi Hx).
    - intros i Hi. rewrite (u_rhs p sub' np'), (u_rhs p sub np), two_old; auto. 
  Qed.
End Two.

(** C82.  The Direct solve of a problem on any number of processes, with any partition of the cells: the linear systems
    have the same solutions node by node, and the same potentials and fluxes are handed back. *)
Definition closing (p : problem) (sub : nat -> nat) (np : nat) : Prop := forall c,
  merge (p_n p) (node_constraints (run_system p sub np) (run_rhs p sub np)) (run_hanging p sub np) = Some c -> closes (p_n p) c (p_close p c).
Theorem C82_number_of_processes : forall p sub np sub' np' sol sol',
  well_numbered (numbers p sub np) -> well_numbered (numbers p sub' np') -> fine_problem p -> closing p sub np -> closing p sub' np' ->
  (forall j, j < p_n p -> sol' (o2s (numbers p sub' np') j) = sol (o2s (numbers p sub np) j)) ->
  (run_solves p sub np sol <-> run_solves p sub' np' sol') /\
  (forall j, j < p_n p -> run_phi p sub' np' sol' (o2s (numbers p sub' np') j) = run_phi p sub np sol (o2s (numbers p sub np) j) /\
                          run_dphi p sub' np' sol' (o2s (numbers p sub' np') j) = run_dphi p sub np sol (o2s (numbers p sub np) j)).
Proof.
  intros p sub np sub' np' sol sol' W W' F Cl Cl' Es. assert (K := fp_kind p F). assert (RN := two_renumbered p sub sub' np np' W W' F).
  split.
  - apply (C82_numbering_and_distribution_do_not_matter _ _ _ _ _ _ _ _ _ _ RN).
    + apply u_regular; auto.
    + apply u_have; auto. apply (fp_some p F).
    + exact (u_linear p sub np neumann_matrix).
    + exact (u_linear p sub np dirichlet_matrix).
    + exact (u_linear p sub' np' neumann_matrix).
    + exact (u_linear p sub' np' dirichlet_matrix).
    + apply u_coincidence; auto. apply (fp_separated p F).
    + apply u_coincidence; auto. apply (fp_separated p F).
    + apply u_partition; auto.
    + apply u_partition; auto.
    + intros i l e Hi Hl He. change (run_hanging p sub np i = Some l) in Hl. unfold run_hanging in Hl. destruct (p_hanging p (s2o (numbers p sub np) i)) as [l0|] eqn:El; [|discriminate].
      inversion Hl; subst l. cbn [l_entries] in He. apply in_map_iff in He as (e0 & <- & He). apply (u_o2s p sub np W). apply (proj2 (fp_hang p F _ l0 (proj1 (u_s2o p sub np W i Hi)) El)); auto.
    + exact Cl.
    + exact Cl'.
    + intros i Hi. destruct (u_s2o p sub' np' W' i Hi) as [A B]. rewrite <- (Es _ A), B. reflexivity.
  - intros j Hj. destruct (u_o2s p sub np W j Hj) as [A B], (u_o2s p sub' np' W' j Hj) as [A' B'].
    set (a := o2s (numbers p sub np) j) in *. set (a' := o2s (numbers p sub' np') j) in *.
    assert (E := u_vectors p sub np W a A). assert (E' := u_vectors p sub' np' W' a' A'). rewrite B in E. rewrite B', <- E in E'. inversion E' as [[E1 E2 E3]].
    assert (D : s_dir (run_system p sub' np') a' = s_dir (run_system p sub np) a) by (apply eq_true_iff_eq; rewrite (u_dir p sub' np' W' K a' A'), (u_dir p sub np W K a A), B, B'; tauto).
    unfold run_phi, run_dphi.
    rewrite (proj1 (solved_at (run_system p sub' np') (run_phi0 p sub' np') (run_dphi0 p sub' np') sol' a')), (proj1 (solved_at (run_system p sub np) (run_phi0 p sub np) (run_dphi0 p sub np) sol a)).
    rewrite (proj2 (solved_at (run_system p sub' np') (run_phi0 p sub' np') (run_dphi0 p sub' np') sol' a')), (proj2 (solved_at (run_system p sub np) (run_phi0 p sub np) (run_dphi0 p sub np) sol a)).
    rewrite D, E1, E2. unfold a, a' in *. rewrite (Es j Hj). auto.
Qed.

(** If the system of one run has one solution, so has the system of every other run, and the two runs hand back the
    same potentials and fluxes at every node. *)
Theorem C82_same_answer : forall p sub np sub' np' sol sol',
  well_numbered (numbers p sub np) -> well_numbered (numbers p sub' np') -> fine_problem p -> closing p sub np -> closing p sub' np' ->
  (forall s t, run_solves p sub np s -> run_solves p sub np t -> forall i, i < p_n p -> s i = t i) ->
  run_solves p sub np sol -> run_solves p sub' np' sol' ->
  forall j, j < p_n p ->
    sol' (o2s (numbers p sub' np') j) = sol (o2s (numbers p sub np) j) /\
    run_phi p sub' np' sol' (o2s (numbers p sub' np') j) = run_phi p sub np sol (o2s (numbers p sub np) j) /\
    run_dphi p sub' np' sol' (o2s (numbers p sub' np') j) = run_dphi p sub np sol (o2s (numbers p sub np) j).
Proof.
  intros p sub np sub' np' sol sol' W W' F Cl Cl' Un Hs Hs'.
  set (t := fun i => sol' (o2s (numbers p sub' np') (s2o (numbers p sub np) i))).
  assert (Et : forall j, j < p_n p -> sol' (o2s (numbers p sub' np') j) = t (o2s (numbers p sub np) j)).
  { intros j Hj. unfold t. rewrite (proj2 (u_o2s p sub np W j Hj)). reflexivity. }
  assert (Ht : run_solves p sub np t) by (apply (C82_number_of_processes p sub np sub' np' t sol'); auto).
  assert (Es : forall j, j < p_n p -> sol' (o2s (numbers p sub' np') j) = sol (o2s (numbers p sub np) j)).
  { intros j Hj. rewrite (Et j Hj). apply Un; auto. apply (u_o2s p sub np W j Hj). }
  intros j Hj. split; [auto|]. apply (C82_number_of_processes p sub np sub' np' sol sol'); auto.
Qed.
Theorem C82_same_solvability : forall p sub np sub' np',
  well_numbered (numbers p sub np) -> well_numbered (numbers p sub' np') -> fine_problem p -> closing p sub np -> closing p sub' np' ->
  ((exists sol, run_solves p sub np sol) <-> (exists sol', run_solves p sub' np' sol')) /\
  ((forall s t, run_solves p sub np s -> run_solves p sub np t -> forall i, i < p_n p -> s i = t i) <->
   (forall s t, run_solves p sub' np' s -> run_solves p sub' np' t -> forall i, i < p_n p -> s i = t i)).
Proof.
  assert (T : forall p sub np sub' np', well_numbered (numbers p sub np) -> well_numbered (numbers p sub' np') -> fine_problem p -> closing p sub np -> closing p sub' np' ->
    (forall sol, run_solves p sub np sol -> run_solves p sub' np' (fun i => sol (o2s (numbers p sub np) (s2o (numbers p sub' np') i))))).
  { intros p sub np sub' np' W W' F Cl Cl' sol Hs. apply (C82_number_of_processes p sub np sub' np' sol); auto.
    intros j Hj. rewrite (proj2 (u_o2s p sub' np' W' j Hj)). reflexivity. }
  assert (T2 : forall p sub np sub' np', well_numbered (numbers p sub np) -> well_numbered (numbers p sub' np') -> fine_problem p -> closing p sub np -> closing p sub' np' ->
    (forall s t, run_solves p sub np s -> run_solves p sub np t -> forall i, i < p_n p -> s i = t i) ->
    (forall s t, run_solves p sub' np' s -> run_solves p sub' np' t -> forall i, i < p_n p -> s i = t i)).
  { intros p sub np sub' np' W W' F Cl Cl' Un s t Hs Ht i Hi.
    assert (Q := Un _ _ (T p sub' np' sub np W' W F Cl' Cl s Hs) (T p sub' np' sub np W' W F Cl' Cl t Ht)).
    destruct (u_s2o p sub' np' W' i Hi) as [A B]. destruct (u_o2s p sub np W _ A) as [C D].
    specialize (Q _ C). cbv beta in Q. rewrite D, B in Q. exact Q. }
  intros p sub np sub' np' W W' F Cl Cl'. split; [split; intros (s & Hs); eauto|]. split; apply T2; auto.
Qed.
(** at most two Dirichlet nodes per point suffice for the last condition of [fine_problem] *)
Theorem C82_at_most_two_dirichlet_nodes : forall p, no_dirichlet_vertex p -> one_flux p.
Proof. exact two_at_most_one_flux. Qed.

(** ** Examples: two squares *)
Definition square_node (x y : nat -> nat) (j : nat) : ModelKernel.vec := fun d => match d with 0 => INR (x j) | 1 => INR (y j) | _ => 0%R end.
Definition squares (n : nat) (dofs : nat -> list nat) (x y : nat -> nat) : problem := {|
  p_dim := 3; p_n := n; p_cells := 2; p_dofs := dofs; p_vdofs := fun c => flat_map (fun d => map (fun i => d * n + i) (dofs c)) [0;1;2];
  p_mat := fun c => S c; p_dirichlet := [1]; p_neumann := [2]; p_node := square_node x y; p_edge := fun _ => true;
  p_pot := fun _ => 7%R; p_wind := fun _ _ => 1%R; p_normal := fun _ d => if Nat.eqb d 2 then 1%R else 0%R; p_sgrad := fun f j _ => f j; p_cont := true;
  p_hanging := fun _ => None; p_close := fun c => c; p_nq := 4;
  p_regular := {| rp_at := fun _ _ => 0%R; rp_normal := fun _ _ => 0%R; rp_shape := fun _ _ => 1%R; rp_jxw := fun _ => 1%R |};
  p_singular := {| sp_n := fun _ => 1; sp_at := fun _ _ _ _ => 0%R; sp_normal := fun _ _ _ _ => 0%R; sp_shape := fun _ _ _ => 1%R; sp_jxw := fun _ _ _ => 1%R |} |}.
Lemma squares_numbered n dofs x y sub np : (forall c, c < 2 -> sub c < np) -> (forall c i, c < 2 -> In i (dofs c) -> i < n) -> (forall i, i < n -> exists c, c < 2 /\ In i (dofs c)) ->
  well_numbered (numbers (squares n dofs x y) sub np).
Proof.
  intros A B C. split; [cbn; lia|]. split; [exact A|]. split; [exact B|]. split; [exact C|].
  intros c j Hc. cbn [nu_vdofs numbers p_vdofs squares]. rewrite in_flat_map. split.
  - intros (d & D1 & D2). apply in_map_iff in D2. destruct D2 as (i & <- & Hi). exists d, i. cbn. split; [cbn in D1; lia|]. split; auto.
  - intros (d & i & D1 & D2 & ->). exists d. split; [cbn in D1; cbn; lia|]. apply in_map. exact D2.
Qed.
Lemma squares_separated n dofs x y : separated (squares n dofs x y).
Proof.
  intros i j _ _. change (p_dim _) with 3. cbn [p_node squares]. unfold ModelKernel.norm, ModelKernel.square. cbn [fold_left seq].
  unfold difference, square_node. intros L.
  assert (E : forall a b, (Rabs (INR a - INR b) < 1)%R -> a = b).
  { intros a b Q. destruct (Nat.lt_trichotomy a b) as [X|[X|X]]; auto; exfalso; apply le_INR in X; rewrite S_INR in X; unfold Rabs in Q; destruct (Rcase_abs _) in Q; lra. }
  assert (Ten : (1 / 10 ^ 10 < 1)%R) by (apply Rmult_lt_reg_r with (10 ^ 10)%R; [apply pow_lt; lra|]; unfold Rdiv; rewrite Rmult_assoc, Rinv_l by (apply pow_nonzero; lra); assert (1 < 10 ^ 10)%R by (apply Rlt_pow_R1; [lra|lia]); lra).
  set (u := (INR (x i) - INR (x j))%R) in *. set (v := (INR (y i) - INR (y j))%R) in *.
  match type of L with (sqrt ?s < _)%R => assert (Es : s = (u * u + v * v)%R) by ring; rewrite Es in L end.
  assert (Ex : x i = x j). { apply E. fold u. apply Rle_lt_trans with (sqrt (u * u + v * v)); [|lra]. rewrite <- sqrt_Rsqr_abs. apply sqrt_le_1_alt. unfold Rsqr. assert (0 <= v * v)%R by apply Rle_0_sqr. lra. }
  assert (Ey : y i = y j). { apply E. fold v. apply Rle_lt_trans with (sqrt (u * u + v * v)); [|lra]. rewrite <- sqrt_Rsqr_abs. apply sqrt_le_1_alt. unfold Rsqr. assert (0 <= u * u)%R by apply Rle_0_sqr. lra. }
  rewrite Ex, Ey. reflexivity.
Qed.
(** ... with their own nodes on the common edge; the first is a Dirichlet, the second a Neumann square *)
Definition apart_dofs (c : nat) : list nat := nth c [[0;1;2;3];[4;5;6;7]] [].
Definition apart : problem := squares 8 apart_dofs (fun j => nth j [0;0;1;1;1;1;2;2] 0) (fun j => j mod 2).
Lemma apart_numbered sub np : (forall c, c < 2 -> sub c < np) -> well_numbered (numbers apart sub np).
Proof.
  intros A. apply squares_numbered; auto.
  - intros c i Hc Hi. destruct c as [|[|]]; [cbn in Hi; lia|cbn in Hi; lia|lia].
  - intros i Hi. assert (Q : i < 4 \/ 4 <= i) by lia. destruct Q; [exists 0|exists 1]; cbn; lia.
Qed.
Lemma apart_dir j : on_dirichlet apart j <-> j < 4.
Proof.
  split.
  - intros (c & Hc & Hj & Hm). cbn in Hm. destruct Hm as [Hm|[]]. destruct c; [|lia]. cbn in Hj. lia.
  - intros Hj. exists 0. split; [cbn; lia|]. split; [cbn; lia|left; reflexivity].
Qed.
Lemma apart_vertex : no_dirichlet_vertex apart.
Proof.
  intros i j k _ _ _ Di Dj Dk E1 E2. apply apart_dir in Di, Dj, Dk. left.
  assert (X := f_equal (fun v => v 0) E1). assert (Y := f_equal (fun v => v 1) E1). cbn in X, Y. apply INR_eq in X, Y.
  do 4 (destruct i as [|i]; [do 4 (destruct j as [|j]; [cbn in X, Y; congruence|]); lia|]). lia.
Qed.
Lemma apart_fine : fine_problem apart.
Proof.
  constructor.
  - exists 0. apply apart_dir. lia.
  - apply squares_separated.
  - intros j c1 c2 H1 H2 I1 I2 M1. cbn in H1, H2, M1. destruct M1 as [M1|[]]. destruct c1; [|lia]. destruct c2 as [|[|]]; [left; reflexivity| |lia].
    cbn in I1, I2. lia.
  - intros _. apply C82_at_most_two_dirichlet_nodes, apart_vertex.
  - intros h l _ X. discriminate X.
  - intros f g E j d Hj. cbn. auto.
Qed.
(** one process, or two with the first square on process 1: other numbers, and nodes 2 and 4 coincide *)
Example C82_run_instance : well_numbered (numbers apart (fun _ => 0) 1) /\ well_numbered (numbers apart (fun c => 1 - c) 2) /\ fine_problem apart /\
  closing apart (fun _ => 0) 1 /\ closing apart (fun c => 1 - c) 2 /\
  map (o2s (numbers apart (fun _ => 0) 1)) (seq 0 8) = [0;1;2;3;4;5;6;7] /\ map (o2s (numbers apart (fun c => 1 - c) 2)) (seq 0 8) = [4;5;6;7;0;1;2;3] /\
  map (owner_of apart (fun c => 1 - c) 2) (seq 0 8) = [0;0;0;0;1;1;1;1] /\ In 4 (run_doubles apart (fun _ => 0) 1 2).
Proof.
  split; [apply apart_numbered; auto|]. split; [apply apart_numbered; intros; lia|]. split; [exact apart_fine|].
  split; [intros c _; split; tauto|]. split; [intros c _; split; tauto|]. split; [reflexivity|]. split; [reflexivity|]. split; [reflexivity|].
  apply u_doubles; [cbn; lia|]. split; [cbn; lia|]. right. split; [reflexivity|]. split; [reflexivity|].
  apply (dist_iff apart (fun _ => 0) 1 (apart_numbered (fun _ => 0) 1 (fun c _ => Nat.lt_0_succ 0)) (squares_separated _ _ _ _)); [cbn; lia|cbn; lia|]. reflexivity.
Qed.

(** ... or sharing the nodes of the common edge, again Dirichlet and Neumann: on one process the shared nodes keep the
    imposed potential, on two they are unknowns (a node that belongs to cells of both kinds, C21). *)
Definition shared_dofs (c : nat) : list nat := nth c [[0;1;2;3];[2;3;4;5]] [].
Definition glued : problem := squares 6 shared_dofs (fun j => j / 2) (fun j => j mod 2).
Lemma glued_numbered sub np : (forall c, c < 2 -> sub c < np) -> well_numbered (numbers glued sub np).
Proof.
  intros A. apply squares_numbered; auto.
  - intros c i Hc Hi. destruct c as [|[|]]; [cbn in Hi; lia|cbn in Hi; lia|lia].
  - intros i Hi. assert (Q : i < 4 \/ 4 <= i) by lia. destruct Q; [exists 0|exists 1]; cbn; lia.
Qed.
Theorem C82_mixed_node_refuted :
  well_numbered (numbers glued (fun _ => 0) 1) /\ well_numbered (numbers glued (fun c => 1 - c) 2) /\ separated glued /\
  s_dir (run_system glued (fun _ => 0) 1) (o2s (numbers glued (fun _ => 0) 1) 2) = true /\
  s_dir (run_system glued (fun c => 1 - c) 2) (o2s (numbers glued (fun c => 1 - c) 2) 2) = false /\
  forall sol, run_phi glued (fun c => 1 - c) 2 sol (o2s (numbers glued (fun c => 1 - c) 2) 2) = sol (o2s (numbers glued (fun c => 1 - c) 2) 2).
Proof.
  assert (F : s_dir (run_system glued (fun c => 1 - c) 2) (o2s (numbers glued (fun c => 1 - c) 2) 2) = false).
  { cbn [run_system s_dir]. change (o2s (numbers glued (fun c => 1 - c) 2) 2) with 0.
    destruct (C21_indicators (p_dirichlet glued) (run_cells glued (fun c => 1 - c) 2) (owner_of glued (fun c => 1 - c) 2) 0) as [_ B].
    rewrite (proj1 (B ltac:(intros (c & Hc & Hs & Hm & Hd); change (owner_of glued (fun c => 1 - c) 2 0) with 0 in Hs; destruct Hc as [<-|[<-|[]]]; cbn in Hs, Hm; lia))).
    destruct (Req_EM_T 0 1); auto. lra. }
  split; [apply glued_numbered; auto|]. split; [apply glued_numbered; intros; lia|]. split; [apply squares_separated|]. split; [|split; [exact F|]].
  - cbn [run_system s_dir]. change (o2s (numbers glued (fun _ => 0) 1) 2) with 2.
    destruct (C21_indicators (p_dirichlet glued) (run_cells glued (fun _ => 0) 1) (owner_of glued (fun _ => 0) 1) 2) as [A _].
    rewrite (proj1 (A ltac:(exists {| c_dofs := dofs_now (numbers glued (fun _ => 0) 1) 0; c_mat := 1; c_sub := 0 |}; split; [left; reflexivity|]; cbn; split; [reflexivity|]; split; [left; reflexivity|]; tauto))).
    destruct (Req_EM_T 1 1); auto.
  - intros sol. unfold run_phi. rewrite (proj1 (solved_at (run_system glued (fun c => 1 - c) 2) (run_phi0 glued (fun c => 1 - c) 2) (fun _ => 0%R) sol _)), F. reflexivity.
Qed.

(** Three Dirichlet nodes at one point (a corner of three Dirichlet faces) whose imposed data have surface gradients that do not
    belong to one gradient: the flux imposed at a node depends on the numbering. *)
Local Open Scope R_scope.
Definition corner (old : nat -> nat) : system := {|
  s_n := 3; s_direct := true; s_N := matvec 3 (fun _ _ => 0); s_D := matvec 3 (fun _ _ => 0); s_dir := fun _ => true; s_have_dirichlet := true;
  s_doubles := fun _ => [0;1;2]%nat; s_normal := fun i d => if Nat.eqb (old i) d then 1 else 0;
  s_sgrad := fun _ i d => if Nat.eqb d 1 then match old i with 0%nat => 1 | 1%nat => 0 | _ => 2 end else 0;
  s_cont := true; s_hanging := fun _ => None; s_close := fun c => c |}.
Definition corner_sol (v : R) : vec := fun i => if Nat.eqb i 1 then v else 0.
Lemma corner_coincidence old : coincidence 3 (s_doubles (corner old)).
Proof.
  split; [|split]; cbn [s_doubles corner].
  - intros i Hi. cbn. lia.
  - intros i j Hi Hj. split; auto. cbn in Hj. lia.
  - intros i Hi. repeat constructor; cbn; intuition lia.
Qed.
Lemma corner_first old i f : first_dirichlet (corner old) i f -> f = 0%nat.
Proof.
  intros (pre & post & E & _ & N). cbn [s_doubles corner] in E. destruct pre as [|a pre]; [cbn in E; congruence|].
  specialize (N a (or_introl eq_refl)). discriminate N.
Qed.
Lemma corner_solves old v : (forall i, (i < 3)%nat -> old i = i /\ v = 1) \/ (forall i, (i < 3)%nat -> old i = (2 - i)%nat /\ v = 2) ->
  forall sol, solves (corner old) [PropCoincide.all_nodes] (fun _ => 5) sol <-> forall i, (i < 3)%nat -> sol i = corner_sol v i.
Proof.
  intros Ho sol.
  rewrite (C65_solve_system (corner old) [PropCoincide.all_nodes] (fun _ => 5) (fun _ => 5) (fun _ => 0) sol eq_refl (matvec_linear _ _) (matvec_linear _ _) (corner_coincidence old)
    PropCoincide.co_partition ltac:(intros i Hi; reflexivity) ltac:(intros; split; tauto)).
  assert (Du : forall i, solved_dphi (corner old) (fun _ => 0) sol i = sol i) by (intros i; rewrite (proj2 (solved_at (corner old) (fun _ => 5) (fun _ => 0) sol i)); reflexivity).
  assert (Z : forall i j, (i < 3)%nat -> (j < 3)%nat -> i <> j -> 1 - dot3 (s_normal (corner old) i) (s_normal (corner old) j) ^ 2 = 1 /\ dot3 (s_normal (corner old) i) (s_normal (corner old) j) = 0).
  { intros i j Hi Hj Ne. assert (Q : dot3 (s_normal (corner old) i) (s_normal (corner old) j) = 0); [|rewrite Q; split; ring].
    unfold dot3, corner. cbn [s_normal sumn].
    assert (Nx : old i <> old j) by (destruct Ho as [Ho|Ho]; rewrite (proj1 (Ho i Hi)), (proj1 (Ho j Hj)); lia).
    destruct (Nat.eqb_spec (old i) 0), (Nat.eqb_spec (old j) 0), (Nat.eqb_spec (old i) 1), (Nat.eqb_spec (old j) 1), (Nat.eqb_spec (old i) 2), (Nat.eqb_spec (old j) 2); try congruence; ring. }
  assert (OG : forall f i, (i < 3)%nat -> (f < 3)%nat -> f <> i -> other_normal_gradient (s_normal (corner old) f) (s_normal (corner old) i) (s_sgrad (corner old) (fun _ => 5) f) (s_sgrad (corner old) (fun _ => 5) i) =
     Some (dot3 (s_sgrad (corner old) (fun _ => 5) f) (s_normal (corner old) i))).
  { intros f i Hi Hf Ne. unfold other_normal_gradient. destruct (Z f i Hf Hi Ne) as [-> ->]. unfold fdiv. destruct (Req_EM_T 1 0); [lra|]. cbn [omul]. f_equal. field. }
  assert (TG : this_normal_gradient (s_normal (corner old) 0) (s_normal (corner old) 2) (s_sgrad (corner old) (fun _ => 5) 0) (s_sgrad (corner old) (fun _ => 5) 2) =
     Some (dot3 (s_sgrad (corner old) (fun _ => 5) 2) (s_normal (corner old) 0))).
  { unfold this_normal_gradient. destruct (Z 0%nat 2%nat) as [-> ->]; try lia. unfold fdiv. destruct (Req_EM_T 1 0); [lra|]. cbn [omul]. f_equal. field. }
  assert (V0 : dot3 (s_sgrad (corner old) (fun _ => 5) 2) (s_normal (corner old) 0) = 0).
  { unfold dot3, corner. cbn [s_normal s_sgrad Nat.eqb sumn]. destruct Ho as [Ho|Ho]; rewrite (proj1 (Ho 0%nat ltac:(lia))); cbn; ring. }
  assert (V1 : dot3 (s_sgrad (corner old) (fun _ => 5) 0) (s_normal (corner old) 1) = v).
  { unfold dot3, corner. cbn [s_normal s_sgrad Nat.eqb sumn]. destruct Ho as [Ho|Ho]; rewrite (proj1 (Ho 0%nat ltac:(lia))), (proj1 (Ho 1%nat ltac:(lia))), (proj2 (Ho 1%nat ltac:(lia))); cbn; ring. }
  assert (V2 : dot3 (s_sgrad (corner old) (fun _ => 5) 0) (s_normal (corner old) 2) = 0).
  { unfold dot3, corner. cbn [s_normal s_sgrad Nat.eqb sumn]. destruct Ho as [Ho|Ho]; rewrite (proj1 (Ho 2%nat ltac:(lia))); cbn; ring. }
  split.
  - intros (_ & _ & _ & _ & A & B & _) i Hi. cbn [s_n corner] in A, B. assert (F0 : forall k, first_dirichlet (corner old) k 0) by (intros k; exists [], [1;2]%nat; cbn; tauto).
    destruct i as [|[|[|i]]]; [| | |lia].
    + assert (Q := B eq_refl 0%nat 2%nat [0;1]%nat [] ltac:(lia) (F0 _) eq_refl eq_refl ltac:(lia) ltac:(intros m [])). rewrite TG, V0, Du in Q. inversion Q. reflexivity.
    + assert (Q := A eq_refl 1%nat 0%nat ltac:(lia) eq_refl (F0 _) ltac:(lia)). rewrite OG, V1, Du in Q by lia. inversion Q. reflexivity.
    + assert (Q := A eq_refl 2%nat 0%nat ltac:(lia) eq_refl (F0 _) ltac:(lia)). rewrite OG, V2, Du in Q by lia. inversion Q. reflexivity.
  - intros E. split; [intros i Hi X; discriminate X|]. split; [|split; [|split; [|split; [|split]]]].
    + intros i Hi (_ & X). exfalso. unfold free_of_doubles in X. cbn [s_dir corner s_cont] in X. destruct X as [X|X]; [discriminate|]. apply X.
      exists (if Nat.eqb i 0 then 1 else 0)%nat. cbn [s_doubles corner s_dir]. destruct (Nat.eqb_spec i 0); repeat split; cbn; auto; lia.
    + intros i f Hi X. discriminate X.
    + intros i f post Hi X. exfalso. specialize (X 0%nat (or_introl eq_refl)). discriminate X.
    + intros _ i f Hi _ X Ne. apply corner_first in X. subst f. cbn [s_n corner] in Hi. rewrite Du, OG, E by lia.
      destruct i as [|[|[|i]]]; [lia| | |lia]; [rewrite V1|rewrite V2]; reflexivity.
    + intros _ i j pre post Hi X Ej _ Ne Np. apply corner_first in X. subst i. rewrite Du, (E 0%nat) by lia. cbn [s_doubles corner] in Ej.
      assert (post = []) by (destruct post as [|m post]; auto; specialize (Np m (or_introl eq_refl)); discriminate Np). subst post.
      assert (j = 2)%nat by (apply (f_equal (fun l => last l 0%nat)) in Ej; rewrite last_last in Ej; cbn in Ej; congruence). subst j. rewrite TG, V0. reflexivity.
    + intros h l Hh X. discriminate X.
Qed.
Theorem C82_vertex_refuted : exists pi rho S S' rhs rhs' sol sol',
  renumbered pi rho S S' rhs rhs' /\ s_have_dirichlet S = true /\ linear_op (s_n S) (s_N S) /\ linear_op (s_n S) (s_D S) /\
  coincidence (s_n S) (s_doubles S) /\ coincidence (s_n S') (s_doubles S') /\
  (forall i j, (i < s_n S)%nat -> In j (s_doubles S i) -> same_rows S i j /\ rhs i = rhs j) /\
  (forall s, solves S [PropCoincide.all_nodes] rhs s <-> forall i, (i < s_n S)%nat -> s i = sol i) /\
  (forall s, solves S' [PropCoincide.all_nodes] rhs' s <-> forall i, (i < s_n S)%nat -> s i = sol' i) /\
  sol' 1%nat <> sol (pi 1%nat).
Proof.
  exists (fun i => 2 - i)%nat, (fun i => 2 - i)%nat, (corner (fun i => i)), (corner (fun i => 2 - i)%nat), (fun _ => 5), (fun _ => 5), (corner_sol 1), (corner_sol 2).
  split; [|split; [reflexivity|split; [apply matvec_linear|split; [apply matvec_linear|split; [apply corner_coincidence|split; [apply corner_coincidence|split; [|split; [|split]]]]]]]].
  - constructor; try reflexivity; cbn [s_n corner].
    + intros i Hi. lia.
    + intros i k Hi Hk. cbn [s_doubles corner In]. lia.
    + intros x x' i Hi _. cbn [s_N corner]. unfold matvec. cbn [sumn]. ring.
    + intros x x' i Hi _. cbn [s_D corner]. unfold matvec. cbn [sumn]. ring.
  - intros i j Hi Hj. split; [intros x; split; reflexivity|reflexivity].
  - apply corner_solves. left. auto.
  - apply corner_solves. right. auto.
  - unfold corner_sol. cbn. lra.
Qed.
