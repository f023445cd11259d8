(** Property theorems C27, C28, C29, C50, C53, C54. *)
From Coq Require Import Reals List Bool Arith Lia Lra.
From Verif Require Import LibSum ModelBem ProofsBem ModelBc ProofsBc PropBem.
Import ListNotations.
Local Open Scope R_scope.

(** C27. The cached vector of ones, after any nonempty history of calls, has the content and the
    size a fresh computation would give for the last call... *)
Theorem C27_ones_content : forall (L : Type) (qs : list (nat * L)) n l, (0 < n)%nat ->
  exists c, ones_run (qs ++ [(n, l)]) = Some c /\ oc_size c = n /\ oc_vec c = fresh_ones.
Proof.
  intros L qs n l Hn. pose proof (ones_size qs n l) as S.
  destruct (ones_run (qs ++ [(n, l)])) as [c|] eqn:E; simpl in S; [|lia].
  exists c. split; auto. split; auto. eapply ones_vec; eauto.
Qed.
(** ...but its distribution over the processes is the one of the call that last changed the size:
    a change of partition alone is ignored. *)
Theorem C27_ones_layout : forall (L : Type) (qs : list (nat * L)) n l ls, (0 < n)%nat ->
  oc_size_of (ones_run qs) <> n ->
  exists c, ones_run (qs ++ (n, l) :: map (fun x => (n, x)) ls) = Some c /\ oc_layout c = l.
Proof.
  intros L qs n l ls Hn N.
  assert (B : ones_run (qs ++ [(n, l)]) = Some {| oc_size := n; oc_layout := l; oc_vec := fresh_ones |}).
  { unfold ones_run. rewrite fold_left_app. simpl. unfold ones_call at 1. simpl.
    change (fold_left ones_call qs None) with (ones_run qs). apply Nat.eqb_neq in N. rewrite N. reflexivity. }
  exists {| oc_size := n; oc_layout := l; oc_vec := fresh_ones |}. split; auto.
  change ((n, l) :: map (fun x => (n, x)) ls) with ([(n, l)] ++ map (fun x => (n, x)) ls). rewrite app_assoc.
  unfold ones_run in *. rewrite fold_left_app, B. clear B. induction ls as [|a ls IH]; auto.
  simpl. unfold ones_call at 2. simpl. rewrite Nat.eqb_refl. exact IH.
Qed.
Theorem C27_layout_stale_refuted : exists (qs : list (nat * nat)) n l c,
  ones_run (qs ++ [(n, l)]) = Some c /\ oc_layout c <> l.
Proof. exists [(5, 1)%nat], 5%nat, 2%nat. eexists. split; [reflexivity|]. simpl. discriminate. Qed.
(** The singular quadratures are those of the very first call, whatever element and order are in
    force later. *)
Theorem C27_quadratures_frozen : forall (FE Quad : Type) (mk : FE -> nat -> list Quad) fe order later,
  mk fe order <> [] -> quad_run mk ((fe, order) :: later) = mk fe order.
Proof. intros FE Quad mk fe order later H. apply (quad_first mk (fe, order) later H). Qed.
Theorem C27_quadratures_stale_refuted : exists (mk : unit -> nat -> list nat) o1 o2,
  quad_run mk [(tt, o1); (tt, o2)] <> mk tt o2.
Proof. exists (fun _ o => [o]), 4%nat, 5%nat. compute. discriminate. Qed.

(** C28. *)
Section C28.
  Variables (b : bdata) (own : nat -> bool) (cells : list cell) (i : nat).
  Let v := prepare_bem_vectors b own cells.

  Lemma touches_in c : touches c i = true <-> In i (c_dofs c).
  Proof.
    unfold touches. rewrite existsb_exists. split.
    - intros (x & Hx & E). apply Nat.eqb_eq in E. subst; auto.
    - intros H. exists i; split; auto using Nat.eqb_refl.
  Qed.
  Lemma mat_in c l : existsb (fun d => (c_mat c =? d)%nat) l = true <-> In (c_mat c) l.
  Proof.
    rewrite existsb_exists. split.
    - intros (x & Hx & E). apply Nat.eqb_eq in E. subst; auto.
    - intros H. exists (c_mat c); split; auto using Nat.eqb_refl.
  Qed.
  Lemma mat_notin c l : ~ In (c_mat c) l -> existsb (fun d => (c_mat c =? d)%nat) l = false.
  Proof. intros H. destruct (existsb _ l) eqn:E; auto. apply mat_in in E. tauto. Qed.

  Lemma at_fold : at_dof v i = fold_left (fun t c => if own i && touches c i then visit b c i t else t) cells (0, 0, 0).
  Proof. unfold v, prepare_bem_vectors. rewrite prepare_at. reflexivity. Qed.

  Lemma fold_const (Q : cell -> Prop) (r : R * R * R) (Z : R * R * R -> Prop) :
    (forall c, In c cells -> In i (c_dofs c) -> Q c) -> own i = true ->
    (forall c t, Q c -> Z t -> visit b c i t = r) -> Z (0, 0, 0) -> Z r ->
    forall t0, Z t0 -> (exists c, In c cells /\ In i (c_dofs c)) \/ t0 = r ->
    fold_left (fun t c => if own i && touches c i then visit b c i t else t) cells t0 = r.
  Proof.
    intros HQ Ho HV _ Zr. rewrite Ho. simpl. clear v. revert HQ. induction cells as [|c l IH]; intros HQ t0 Zt H; simpl.
    - destruct H as [(c & [] & _)|H]; auto.
    - destruct (touches c i) eqn:T.
      + apply touches_in in T. rewrite HV; [|apply HQ; auto; left; auto|auto].
        apply IH; auto. intros; apply HQ; auto; right; auto.
      + apply IH; auto; [intros; apply HQ; auto; right; auto|].
        destruct H as [(c' & [<-|Hc'] & T')|H]; auto.
        * apply touches_in in T'. congruence.
        * left; eauto.
  Qed.

  Theorem C28_not_owned : own i = false -> v_phi v i = 0 /\ v_dphi v i = 0 /\ v_rhs v i = 0.
  Proof.
    intros Ho. pose proof at_fold as E. rewrite Ho in E. simpl in E.
    assert (F : fold_left (fun t (c : cell) => t) cells (0, 0, 0) = (0, 0, 0)) by (clear; induction cells; auto).
    rewrite F in E. unfold at_dof in E. injection E as -> -> ->. auto.
  Qed.
  Theorem C28_dirichlet : own i = true -> (exists c, In c cells /\ In i (c_dofs c)) ->
    (forall c, In c cells -> In i (c_dofs c) -> In (c_mat c) (d_dirichlet b)) ->
    v_phi v i = d_pot b i /\ v_rhs v i = d_pot b i /\ v_dphi v i = 0.
  Proof.
    intros Ho He Hd. pose proof at_fold as E.
    rewrite (fold_const (fun c => In (c_mat c) (d_dirichlet b)) (d_pot b i, 0, d_pot b i) (fun t => snd (fst t) = 0)) in E; auto.
    - unfold at_dof in E. injection E as -> -> ->. auto.
    - intros c [[p d] r] Hc Z. simpl in Z. subst d. unfold visit, is_dir. apply mat_in in Hc. rewrite Hc. auto.
  Qed.
  Theorem C28_neumann : own i = true -> (exists c, In c cells /\ In i (c_dofs c)) ->
    (forall c, In c cells -> In i (c_dofs c) -> In (c_mat c) (d_neumann b) /\ ~ In (c_mat c) (d_dirichlet b)) ->
    v_phi v i = 0 /\ v_rhs v i = sumn (d_dim b) (fun d => d_wind b i d * d_normal b i d) /\
    v_dphi v i = sumn (d_dim b) (fun d => d_wind b i d * d_normal b i d).
  Proof.
    intros Ho He Hd. pose proof at_fold as E.
    assert (F : flux b i = sumn (d_dim b) (fun d => d_wind b i d * d_normal b i d)).
    { unfold flux. rewrite fold_left_plus, suml_seq. lra. }
    rewrite (fold_const (fun c => In (c_mat c) (d_neumann b) /\ ~ In (c_mat c) (d_dirichlet b))
       (0, flux b i, flux b i) (fun t => fst (fst t) = 0)) in E; auto.
    - unfold at_dof in E. injection E as -> -> ->. auto.
    - intros c [[p d] r] [Hc Hc'] Z. simpl in Z. subst p. unfold visit, is_dir, is_neu.
      apply mat_in in Hc. rewrite Hc, mat_notin; auto.
  Qed.
  Theorem C28_neither : own i = true ->
    (forall c, In c cells -> In i (c_dofs c) -> ~ In (c_mat c) (d_neumann b) /\ ~ In (c_mat c) (d_dirichlet b)) ->
    v_phi v i = 0 /\ v_rhs v i = 0 /\ v_dphi v i = 0.
  Proof.
    intros Ho Hd. pose proof at_fold as E.
    rewrite (fold_const (fun c => ~ In (c_mat c) (d_neumann b) /\ ~ In (c_mat c) (d_dirichlet b))
       (0, 0, 0) (fun t => fst (fst t) = 0)) in E; auto.
    - unfold at_dof in E. injection E as -> -> ->. auto.
    - intros c [[p d] r] [Hc Hc'] Z. simpl in Z. subst p. unfold visit, is_dir, is_neu.
      rewrite !mat_notin; auto.
  Qed.
  (** In general the last cell of the loop that contains the dof decides the right-hand side. *)
  Theorem C28_last_cell_wins : forall pre c post, cells = pre ++ c :: post -> own i = true -> In i (c_dofs c) ->
    (forall c', In c' post -> ~ In i (c_dofs c')) ->
    (In (c_mat c) (d_dirichlet b) -> v_rhs v i = d_pot b i) /\
    (~ In (c_mat c) (d_dirichlet b) -> In (c_mat c) (d_neumann b) ->
        v_rhs v i = sumn (d_dim b) (fun d => d_wind b i d * d_normal b i d)) /\
    (~ In (c_mat c) (d_dirichlet b) -> ~ In (c_mat c) (d_neumann b) -> v_rhs v i = 0).
  Proof.
    intros pre c post Hc Ho Hi Hp. pose proof at_fold as E. rewrite Hc, fold_left_app in E. simpl in E. rewrite Ho in E. simpl in E.
    apply touches_in in Hi. rewrite Hi in E.
    set (t := fold_left _ pre _) in E. clearbody t.
    assert (G : forall l t, (forall c', In c' l -> ~ In i (c_dofs c')) ->
       fold_left (fun t c => if touches c i then visit b c i t else t) l t = t).
    { clear. induction l as [|a l IH]; intros t H; simpl; auto.
      destruct (touches a i) eqn:T; [apply touches_in in T; exfalso; eapply H; eauto; left; auto|].
      apply IH. intros; apply H; right; auto. }
    rewrite G in E by auto. destruct t as [[p d] r]. unfold visit, is_dir, is_neu, at_dof in E.
    assert (F : flux b i = sumn (d_dim b) (fun d => d_wind b i d * d_normal b i d)).
    { unfold flux. rewrite fold_left_plus, suml_seq. lra. }
    split; [|split].
    - intros H. apply mat_in in H. rewrite H in E. injection E as E1 E2 E3. congruence.
    - intros H H'. apply mat_in in H'. rewrite mat_notin, H' in E by auto. injection E as E1 E2 E3. congruence.
    - intros H H'. rewrite !mat_notin in E by auto. injection E as E1 E2 E3. congruence.
  Qed.
  (** The stored potential is the imposed one as soon as one Dirichlet cell contains the dof, so it
      may differ from the right-hand side. *)
  Theorem C28_potential_kept : own i = true ->
    (exists c, In c cells /\ In i (c_dofs c) /\ In (c_mat c) (d_dirichlet b)) -> v_phi v i = d_pot b i.
  Proof.
    intros Ho H. pose proof at_fold as E. rewrite Ho in E. simpl in E.
    assert (G : forall l t, ((exists c, In c l /\ In i (c_dofs c) /\ In (c_mat c) (d_dirichlet b)) \/ fst (fst t) = d_pot b i) ->
       fst (fst (fold_left (fun t c => if touches c i then visit b c i t else t) l t)) = d_pot b i).
    { clear. induction l as [|a l IH]; intros t H; simpl.
      - destruct H as [(c & [] & _)|H]; auto.
      - apply IH. destruct H as [(c & [<-|Hc] & H1 & H2)|H].
        + right. apply touches_in in H1. rewrite H1. destruct t as [[p d] r]. unfold visit, is_dir.
          apply mat_in in H2. rewrite H2. auto.
        + left; eauto.
        + right. destruct (touches a i); auto. destruct t as [[p d] r]. unfold visit. simpl in H.
          destruct (is_dir b a), (is_neu b a); auto. }
    specialize (G cells (0, 0, 0) (or_introl H)). rewrite <- E in G. exact G.
  Qed.
End C28.

Definition ex_b : bdata := {| d_dirichlet := [1%nat]; d_neumann := [2%nat]; d_pot := fun i => 5; d_wind := fun _ _ => 1;
  d_normal := fun _ d => if (d =? 0)%nat then 1 else 0; d_dim := 3 |}.
Definition ex_cells := [{| c_dofs := [0;1]%nat; c_mat := 1; c_sub := 0 |}; {| c_dofs := [1;2]%nat; c_mat := 2; c_sub := 0 |}].
(** C54. Single process, no dof shared between Dirichlet cells and other cells: the prepared vectors
    meet the hypotheses of C25, so an exact solution of the (unconstrained) system yields a
    potential and a flux satisfying the discrete boundary integral equation, equal to the imposed
    values where these are imposed. *)
Theorem C54_end_to_end : forall b bd cells sol,
  b_have_dirichlet b = true -> linear_op (b_n b) (b_N b) -> linear_op (b_n b) (b_D b) ->
  (forall c, In c cells -> c_sub c = 0%nat) ->
  (forall i, (i < b_n b)%nat -> exists c, In c cells /\ In i (c_dofs c)) ->
  (forall c1 c2 i, In c1 cells -> In c2 cells -> In i (c_dofs c1) -> In i (c_dofs c2) ->
     In (c_mat c1) (d_dirichlet bd) -> In (c_mat c2) (d_dirichlet bd)) ->
  (forall c, In c cells -> In (c_mat c) (d_dirichlet bd) \/ In (c_mat c) (d_neumann bd)) ->
  (forall i, b_dir b i = dirichlet_nodes (d_dirichlet bd) cells (fun _ => 0%nat) i) ->
  (forall i, b_neu b i = neumann_nodes (d_dirichlet bd) cells (fun _ => 0%nat) i) ->
  let v := prepare_bem_vectors bd (fun _ => true) cells in
  let phi := scatter_phi b (v_phi v) sol in
  let dphi := scatter_dphi b (v_dphi v) sol in
  (forall i, (i < b_n b)%nat -> vmult b sol i = compute_rhs b (fun _ => 0) (v_rhs v) i) ->
  (forall i, (i < b_n b)%nat -> b_N b phi i + phi i * b_alpha b i = b_D b dphi i) /\
  (forall i c, (i < b_n b)%nat -> In c cells -> In i (c_dofs c) -> In (c_mat c) (d_dirichlet bd) -> phi i = d_pot bd i) /\
  (forall i c, (i < b_n b)%nat -> In c cells -> In i (c_dofs c) -> ~ In (c_mat c) (d_dirichlet bd) ->
     dphi i = sumn (d_dim bd) (fun d => d_wind bd i d * d_normal bd i d)).
Proof.
  intros b bd cells sol Hh HN HD Hs Hcov Hmix Hall Hdir Hneu v phi dphi Hsys.
  assert (Dec : forall i, (exists c, In c cells /\ c_sub c = 0%nat /\ In (c_mat c) (d_dirichlet bd) /\ In i (c_dofs c)) \/
                ~ (exists c, In c cells /\ c_sub c = 0%nat /\ In (c_mat c) (d_dirichlet bd) /\ In i (c_dofs c))).
  { intros i. destruct (Req_EM_T (dirichlet_nodes (d_dirichlet bd) cells (fun _ => 0%nat) i) 1) as [E|E].
    - left. apply (C21_one_process _ _ 0%nat) in E; auto. destruct E as (c & A & B & C). exists c; auto.
    - right. intros H. apply E. apply (C21_indicators (d_dirichlet bd) cells (fun _ => 0%nat) i). auto. }
  assert (Cases : forall i, (i < b_n b)%nat ->
     (b_dir b i = 1 /\ b_neu b i = 0 /\ v_phi v i = d_pot bd i /\ v_rhs v i = d_pot bd i /\
        (exists c, In c cells /\ In (c_mat c) (d_dirichlet bd) /\ In i (c_dofs c))) \/
     (b_dir b i = 0 /\ b_neu b i = 1 /\ v_dphi v i = v_rhs v i /\
        v_dphi v i = sumn (d_dim bd) (fun d => d_wind bd i d * d_normal bd i d) /\
        ~ (exists c, In c cells /\ In (c_mat c) (d_dirichlet bd) /\ In i (c_dofs c)))).
  { intros i Hi. rewrite Hdir, Hneu. destruct (C21_indicators (d_dirichlet bd) cells (fun _ => 0%nat) i) as [A B].
    destruct (Dec i) as [H|H].
    - left. destruct (A H) as [-> ->]. destruct H as (c & Hc & Hs0 & Hm & Hci).
      destruct (C28_dirichlet bd (fun _ => true) cells i eq_refl) as (E1 & E2 & E3); eauto.
      repeat split; auto. exists c; auto.
    - right. destruct (B H) as [-> ->]. destruct (Hcov i Hi) as (c & Hc & Hci).
      assert (Q : forall c, In c cells -> In i (c_dofs c) -> In (c_mat c) (d_neumann bd) /\ ~ In (c_mat c) (d_dirichlet bd)).
      { intros c' Hc' Hi'. assert (~ In (c_mat c') (d_dirichlet bd)) by (intro; apply H; exists c'; auto).
        destruct (Hall c' Hc'); tauto. }
      destruct (C28_neumann bd (fun _ => true) cells i eq_refl) as (E1 & E2 & E3); eauto.
      fold v in E1, E2, E3. repeat split; auto; [congruence|]. intros (c' & H1 & H2 & H3). destruct (Q c' H1 H3); tauto. }
  split; [|split].
  - intros i Hi. apply system_is_bie with (rhs := v_rhs v) (sol := sol); auto.
    + intros j Hj. destruct (Cases j Hj) as [(E1 & E2 & _)|(E1 & E2 & _)]; auto.
    + intros j Hj E. destruct (Cases j Hj) as [(E1 & E2 & E3 & E4 & _)|(E1 & E2 & _)]; [congruence|lra].
    + intros j Hj E. destruct (Cases j Hj) as [(E1 & E2 & _)|(E1 & E2 & E3 & _)]; [lra|auto].
  - intros i c Hi Hc Hci Hm. destruct (Cases i Hi) as [(E1 & E2 & E3 & E4 & _)|(E1 & E2 & _ & _ & N)].
    + unfold phi. rewrite (proj1 (proj1 (scatter_keeps b _ (v_dphi v) sol i) E1)). auto.
    + exfalso. apply N. exists c; auto.
  - intros i c Hi Hc Hci Hm. destruct (Cases i Hi) as [(E1 & E2 & E3 & E4 & (c' & H1 & H2 & H3))|(E1 & E2 & E3 & E4 & N)].
    + exfalso. apply Hm. eapply (Hmix c' c); eauto.
    + unfold dphi. rewrite (proj2 (proj2 (scatter_keeps b (v_phi v) _ sol i) E1)). auto.
Qed.
(** For a dof shared by a Dirichlet cell and a later Neumann cell the solver treats the dof as
    Dirichlet, but the value entering the right-hand side as its potential is the flux. *)
Theorem C54_mixed_dof_refuted : exists bd cells i,
  let v := prepare_bem_vectors bd (fun _ => true) cells in
  dirichlet_nodes (d_dirichlet bd) cells (fun _ => 0%nat) i = 1 /\ v_phi v i = d_pot bd i /\
  v_rhs v i = sumn (d_dim bd) (fun d => d_wind bd i d * d_normal bd i d) /\ v_rhs v i <> d_pot bd i.
Proof.
  exists ex_b, ex_cells, 1%nat. cbv zeta.
  assert (R : v_rhs (prepare_bem_vectors ex_b (fun _ => true) ex_cells) 1%nat =
     sumn (d_dim ex_b) (fun d => d_wind ex_b 1%nat d * d_normal ex_b 1%nat d)).
  { apply (C28_last_cell_wins ex_b (fun _ => true) ex_cells 1%nat [{| c_dofs := [0;1]%nat; c_mat := 1; c_sub := 0 |}]
      {| c_dofs := [1;2]%nat; c_mat := 2; c_sub := 0 |} []); simpl; auto. intros [H|[]]; lia. }
  split; [|split; [|split]].
  - apply C21_one_process; [intros c [<-|[<-|[]]]; auto|]. eexists; split; [left; reflexivity|]. simpl; auto.
  - apply C28_potential_kept; auto. eexists; split; [left; reflexivity|]. simpl; auto.
  - exact R.
  - rewrite R. simpl. lra.
Qed.
(** Dof 0 is touched only by a Dirichlet cell, dof 2 only by a Neumann cell. *)
Example C28_instance :
  v_phi (prepare_bem_vectors ex_b (fun _ => true) ex_cells) 0%nat = 5 /\
  v_dphi (prepare_bem_vectors ex_b (fun _ => true) ex_cells) 2%nat = 1.
Proof.
  split.
  - apply (C28_dirichlet ex_b (fun _ => true) ex_cells 0%nat eq_refl); [eexists; split; [left; reflexivity|simpl; auto]|].
    intros c [<-|[<-|[]]]; simpl; auto. intros [H|[H|[]]]; lia.
  - destruct (C28_neumann ex_b (fun _ => true) ex_cells 2%nat eq_refl) as (_ & _ & E);
      [eexists; split; [right; left; reflexivity|simpl; auto]| |].
    + intros c [<-|[<-|[]]]; simpl; intros H; [exfalso; lia|]. split; auto. intros [H'|[]]; lia.
    + rewrite E. simpl. lra.
Qed.
(** A case with both kinds of dofs meets the hypotheses of C54. *)
Example C54_instance :
  let cells := [{| c_dofs := [0]%nat; c_mat := 1; c_sub := 0 |}; {| c_dofs := [1]%nat; c_mat := 2; c_sub := 0 |}] in
  (forall c, In c cells -> c_sub c = 0%nat) /\
  (forall i, (i < 2)%nat -> exists c, In c cells /\ In i (c_dofs c)) /\
  (forall c1 c2 i, In c1 cells -> In c2 cells -> In i (c_dofs c1) -> In i (c_dofs c2) ->
     In (c_mat c1) (d_dirichlet ex_b) -> In (c_mat c2) (d_dirichlet ex_b)) /\
  (forall c, In c cells -> In (c_mat c) (d_dirichlet ex_b) \/ In (c_mat c) (d_neumann ex_b)).
Proof.
  intros cells. unfold cells. split; [|split; [|split]].
  - intros c [<-|[<-|[]]]; auto.
  - intros i Hi. destruct i as [|[|]]; [| |lia]; eexists; split; [left; reflexivity| |right; left; reflexivity|]; simpl; auto.
  - intros c1 c2 i [<-|[<-|[]]] [<-|[<-|[]]]; simpl; intros; intuition lia.
  - intros c [<-|[<-|[]]]; simpl; auto.
Qed.

(** C29. *)
Theorem C29_anchored : forall n pot first0 (owns : list (nat -> bool)) (phi : vec),
  partition n owns -> (first0 < n)%nat ->
  let phi' := neumann_shift false pot first0 owns phi in
  phi' first0 = pot first0 /\
  exists s, forall i, (i < n)%nat -> phi' i = phi i + s.
Proof.
  intros n pot first0 owns phi HP Hf phi'. unfold phi', neumann_shift. split.
  - rewrite fold_shift, HP by auto. simpl. lra.
  - exists (pot first0 - phi first0). intros i Hi. rewrite fold_shift, HP by auto. simpl. lra.
Qed.
Theorem C29_dirichlet_unchanged : forall pot first0 owns (phi : vec), neumann_shift true pot first0 owns phi = phi.
Proof. reflexivity. Qed.
Example C29_instance : partition 2 [fun i => (i =? 0)%nat; fun i => (i =? 1)%nat].
Proof. intros i Hi. destruct i as [|[|]]; auto; lia. Qed.

(** C50. *)
Theorem C50_writes_inside : forall n band c N D alpha dir i e, (i < n)%nat -> (2 <= band)%nat ->
  In e (band_row n band c N D alpha dir i) -> in_band_pattern n band (fst (fst e)) (snd (fst e)) = true.
Proof. exact band_writes_in_pattern. Qed.
Theorem C50_entries : forall n band c N D alpha dir i j, (i < n)%nat ->
  band_entry n band c N D alpha dir i j =
  if constrained c i then (if (i =? j)%nat then 1 else 0)
  else if in_band_pattern n band i j
       then (if Req_EM_T (dir i) 0 then N i j + (if (i =? j)%nat then alpha i else 0) else - D i j)
       else 0.
Proof. exact band_entry_eq. Qed.
Theorem C50_pattern : forall n band i j,
  in_band_pattern n band i j = true <-> (i < n /\ j < n /\ i <= j + band / 2 /\ j < i + band / 2)%nat.
Proof.
  intros. unfold in_band_pattern. rewrite andb_true_iff, Nat.ltb_lt, existsb_exists. split.
  - intros [H (x & Hx & E)]. apply Nat.eqb_eq in E. subst. apply in_band_cols in Hx. lia.
  - intros (H1 & H2 & H3 & H4). split; auto. exists j. split; [|apply Nat.eqb_refl]. apply in_band_cols. lia.
Qed.
(** Inside the band, the entry of an unconstrained row equals the operator's coefficient (the value
    of the operator on the unit vector e_j) whenever row and column dof have the same type. *)
Theorem C50_agrees_same_type : forall n band c (N D : mat) (alpha dir neu : vec) i j, (i < n)%nat -> (j < n)%nat ->
  c i = None -> in_band_pattern n band i j = true ->
  ((dir i = 1 /\ neu i = 0) \/ (dir i = 0 /\ neu i = 1)) -> dir j = dir i -> neu j = neu i ->
  band_entry n band c N D alpha dir i j =
  vmult {| b_n := n; b_direct := true; b_N := matvec n N; b_D := matvec n D;
           b_alpha := alpha; b_dir := dir; b_neu := neu; b_have_dirichlet := true |} (fun k => if (k =? j)%nat then 1 else 0) i.
Proof.
  intros n band c N D alpha dir neu i j Hi Hj Hc Hp Ht Ed En. rewrite band_entry_eq by auto.
  unfold constrained. rewrite Hc, Hp. rewrite vmult_dir by auto. cbn [b_D b_N b_dir b_neu b_alpha]. unfold matvec, scale.
  rewrite !(sumn_single n j) by (auto; intros k Hk Nk; apply Nat.eqb_neq in Nk; rewrite Nk; lra).
  rewrite Nat.eqb_refl, Ed, En. destruct (Nat.eqb_spec i j); destruct Ht as [[-> ->]|[-> ->]]; destruct (Req_EM_T _ 0); lra.
Qed.
(** Where row and column types differ the entry is taken from the wrong matrix. *)
Theorem C50_mixed_type : forall n band c (N D : mat) (alpha dir neu : vec) i j, (i < n)%nat -> (j < n)%nat -> 
  c i = None -> in_band_pattern n band i j = true -> dir i = 0 -> neu i = 1 -> dir j = 1 -> neu j = 0 ->
  band_entry n band c N D alpha dir i j = N i j /\
  vmult {| b_n := n; b_direct := true; b_N := matvec n N; b_D := matvec n D;
           b_alpha := alpha; b_dir := dir; b_neu := neu; b_have_dirichlet := true |} (fun k => if (k =? j)%nat then 1 else 0) i = - D i j.
Proof.
  intros n band c N D alpha dir neu i j Hi Hj Hc Hp Ei Ei' Ej Ej'. rewrite band_entry_eq by auto.
  assert (i <> j) by (intros ->; lra).
  unfold constrained. rewrite Hc, Hp. rewrite vmult_dir by auto. cbn [b_D b_N b_dir b_neu b_alpha]. unfold matvec, scale.
  rewrite !(sumn_single n j) by (auto; intros k Hk Nk; apply Nat.eqb_neq in Nk; rewrite Nk; lra).
  rewrite Nat.eqb_refl, Ei, Ei', Ej, Ej'. apply Nat.eqb_neq in H. rewrite H.
  destruct (Req_EM_T 0 0); [|lra]. split; lra.
Qed.
Example C50_instance : in_band_pattern 300 100 150 150 = true /\ in_band_pattern 300 100 150 100 = true /\
  in_band_pattern 300 100 150 200 = false.
Proof. repeat split. Qed.

(** C53. Spheroid stretching of the position vector: component 0 is scaled by the x axis, component
    1 by y axis times z axis (3D), component 2 not at all. *)
Theorem C53_spheroid : forall (vperm : nat -> nat) dim m ax ay az (v : vec),
  (forall i j, (i < dim * m)%nat -> (j < dim * m)%nat -> vperm i = vperm j -> i = j) -> (2 <= dim)%nat ->
  forall ii, (ii < m)%nat ->
  stretch dim m vperm ax ay az v (vperm ii) = v (vperm ii) * ax /\
  stretch dim m vperm ax ay az v (vperm (ii + m)%nat) =
     v (vperm (ii + m)%nat) * ay * (if (dim =? 3)%nat then az else 1) /\
  (forall k, (2 * m <= k < dim * m)%nat -> stretch dim m vperm ax ay az v (vperm k) = v (vperm k)).
Proof. exact stretch_at. Qed.
(** So the result is the requested spheroid exactly when the z axis is 1 (or the coordinates vanish). *)
Theorem C53_spheroid_refuted : exists m ax ay az (v : vec),
  stretch 3 m (fun k => k) ax ay az v (0 + 2 * m)%nat <> v (0 + 2 * m)%nat * az /\ (0 < m)%nat.
Proof.
  exists 1%nat, 1, 1, 2, (fun _ => 1). split; [|lia].
  destruct (C53_spheroid (fun k => k) 3 1 1 1 2 (fun _ => 1) ltac:(auto) ltac:(lia) 0%nat ltac:(lia)) as (_ & _ & H).
  simpl (0 + 2 * 1)%nat. rewrite (H 2%nat) by lia. lra.
Qed.
(** one node, numbering reversed: component k is stored at 2 - k *)
Example C53_instance : (forall i j, (i < 3 * 1)%nat -> (j < 3 * 1)%nat -> (2 - i)%nat = (2 - j)%nat -> i = j) /\
  (let v := stretch 3 1 (fun k => (2 - k)%nat) 2 3 5 (fun _ => 1) in v 2%nat = 2 /\ v 1%nat = 15 /\ v 0%nat = 1).
Proof.
  assert (A : forall i j, (i < 3 * 1)%nat -> (j < 3 * 1)%nat -> (2 - i)%nat = (2 - j)%nat -> i = j) by (intros; lia).
  split; [exact A|]. destruct (C53_spheroid (fun k => (2 - k)%nat) 3 1 2 3 5 (fun _ => 1) A ltac:(lia) 0%nat ltac:(lia)) as (E1 & E2 & E3).
  specialize (E3 2%nat ltac:(lia)). cbv zeta. split; [|split].
  - refine (eq_trans E1 _). lra.
  - refine (eq_trans E2 _). cbn. lra.
  - exact E3.
Qed.
