(** Property theorems C65-C67: solve_system as a whole. *)
From Coq Require Import Reals List Bool Arith Lia Lra.
From Verif Require Import LibSum ModelBem ProofsBem ModelBc ProofsBc PropBem ModelSolve SpecSolve ProofsSolve.
Import ListNotations.
Local Open Scope R_scope.

(** the data handed in agree with the right-hand side: imposed potential at Dirichlet nodes, imposed flux at the others *)
Definition imposed (S : system) (rhs phi dphi : vec) : Prop :=
  forall i, (i < s_n S)%nat -> if s_dir S i then phi i = rhs i else dphi i = rhs i.

Lemma unknown_sol S phi dphi sol i : unknown S (solved_phi S phi sol) (solved_dphi S dphi sol) i = sol i.
Proof.
  unfold unknown, solved_phi, solved_dphi, scatter_phi, scatter_dphi, operator. cbn [b_dir].
  destruct (s_dir S i).
  - destruct (Req_EM_T 1 0); [lra|reflexivity].
  - destruct (Req_EM_T 0 0); [reflexivity|lra].
Qed.
Lemma solved_at S phi dphi sol i :
  solved_phi S phi sol i = (if s_dir S i then phi i else sol i) /\ solved_dphi S dphi sol i = (if s_dir S i then sol i else dphi i).
Proof.
  unfold solved_phi, solved_dphi, scatter_phi, scatter_dphi, operator. cbn [b_dir].
  destruct (s_dir S i).
  - destruct (Req_EM_T 1 0); [lra|auto].
  - destruct (Req_EM_T 0 0); [auto|lra].
Qed.

(** C65.  For every number of processes and every distribution of the dofs, [sol] solves the system the program
    builds exactly when no hanging node needs a double-node condition as well and the returned potential and flux
    satisfy: the integral equation at every equation node; the potential of the first Dirichlet node at every
    Neumann node coincident with one; one common potential in every group of Neumann nodes; the edge fluxes at
    coincident Dirichlet nodes if requested; the hanging-node relations between the unknowns. *)
Definition discrete_problem_with (row : nat -> Prop) (S : system) (rhs phi dphi : vec) : Prop :=
  (forall i, (i < s_n S)%nat -> equation_node S i -> row i) /\
  (forall i f, (i < s_n S)%nat -> s_dir S i = false -> first_dirichlet S i f -> phi i = rhs f) /\
  (forall i f post, (i < s_n S)%nat -> neumann_group S i -> s_doubles S i = f :: post -> phi i = phi f) /\
  (s_cont S = true -> forall i f, (i < s_n S)%nat -> s_dir S i = true -> first_dirichlet S i f -> i <> f ->
     other_normal_gradient (s_normal S f) (s_normal S i) (s_sgrad S rhs f) (s_sgrad S rhs i) = Some (dphi i)) /\
  (s_cont S = true -> forall i j pre post, (i < s_n S)%nat -> first_dirichlet S i i -> s_doubles S i = pre ++ j :: post ->
     s_dir S j = true -> j <> i -> (forall m, In m post -> s_dir S m = false) ->
     this_normal_gradient (s_normal S i) (s_normal S j) (s_sgrad S rhs i) (s_sgrad S rhs j) = Some (dphi i)) /\
  (forall h l, (h < s_n S)%nat -> s_hanging S h = Some l -> exists v, l_inhom l = Some v /\
     unknown S phi dphi h = suml (l_entries l) (fun e => snd e * unknown S phi dphi (fst e)) + v).

Definition discrete_problem (S : system) (rhs phi dphi : vec) : Prop :=
  discrete_problem_with (bie_row S phi dphi) S rhs phi dphi.

Lemma all_lines S owns rhs sol c :
  partition (s_n S) owns -> merge (s_n S) (node_constraints S rhs) (s_hanging S) = Some c ->
  closes (s_n S) c (s_close S c) ->
  (solves S owns rhs sol <->
   (forall i, (i < s_n S)%nat -> c i = None -> vmult (operator S) sol i = compute_rhs (operator S) (fun _ => 0) rhs i) /\
   lines_hold (s_n S) c sol).
Proof.
  intros HP Hm (Hc1 & Hc2). unfold solves, all_constraints. rewrite Hm. set (c' := s_close S c) in *.
  assert (MF : map fst (map (fun own => (own, constr_cpu_set (s_n S) c' own)) owns) = owns) by (rewrite map_map; cbn; apply map_id).
  assert (X := C15_constrained_system (s_n S) (vmult (operator S)) c' (map (fun own => (own, constr_cpu_set (s_n S) c' own)) owns)
                 (compute_rhs (operator S) (fun _ => 0) rhs) sol).
  rewrite MF in X. specialize (X HP).
  assert (HG : holds_entries (s_n S) c' (map (fun own => (own, constr_cpu_set (s_n S) c' own)) owns)).
  { intros own ghost i l e Hin Hi Ho Hci He. apply in_map_iff in Hin as (o & E & _). inversion E; subst. eapply constr_cpu_set_spec; eauto. }
  rewrite (X HG). clear X HG MF. rewrite <- (Hc2 sol).
  assert (Nn : forall i, c i = None <-> c' i = None).
  { intros i. specialize (Hc1 i). unfold constrained in Hc1. destruct (c i), (c' i); split; intros; congruence. }
  split.
  - intros A. split; [intros i Hi Ni; apply A; auto; apply Nn; auto|]. intros i l Hi Hl. exact (proj2 (A i Hi) l Hl).
  - intros [A B] i Hi. split; [intros Ni; apply A; auto; apply Nn; auto|]. intros l Hl. exact (B i l Hi Hl).
Qed.

Lemma bie_alpha S phi dphi i : linear_op (s_n S) (s_N S) -> (i < s_n S)%nat ->
  (s_N S phi i + phi i * b_alpha (operator S) i = s_D S dphi i <-> bie_row S phi dphi i).
Proof.
  intros L Hi. unfold bie_row, operator, compute_alpha. cbn [b_alpha].
  assert (E : s_N S fresh_ones i = -1 * s_N S (fun _ => 1) i + 0 * s_N S (fun _ => 1) i).
  { apply (lin_comb (s_n S) (s_N S) (fun _ => 1) (fun _ => 1)); auto. intros; unfold fresh_ones, shift; lra. }
  rewrite E. split; intros; lra.
Qed.

Lemma solves_with S owns rhs phi0 dphi0 sol row :
  coincidence (s_n S) (s_doubles S) -> partition (s_n S) owns ->
  (forall c, merge (s_n S) (node_constraints S rhs) (s_hanging S) = Some c -> closes (s_n S) c (s_close S c)) ->
  (forall i, (i < s_n S)%nat -> (vmult (operator S) sol i = compute_rhs (operator S) (fun _ => 0) rhs i <-> row i)) ->
  (solves S owns rhs sol <->
   (forall i, (i < s_n S)%nat -> constrained (s_hanging S) i = true -> free_of_doubles S i) /\
   discrete_problem_with row S rhs (solved_phi S phi0 sol) (solved_dphi S dphi0 sol)).
Proof.
  intros C HP Hcl Row.
  set (phi := solved_phi S phi0 sol). set (dphi := solved_dphi S dphi0 sol).
  assert (U : forall i, unknown S phi dphi i = sol i) by (intros; apply unknown_sol).
  assert (UD : forall i, s_dir S i = true -> dphi i = sol i) by (intros i D; rewrite <- U; unfold unknown; rewrite D; auto).
  assert (UN : forall i, s_dir S i = false -> phi i = sol i) by (intros i D; rewrite <- U; unfold unknown; rewrite D; auto).
  assert (Conf : merge (s_n S) (node_constraints S rhs) (s_hanging S) <> None <->
     (forall i, (i < s_n S)%nat -> constrained (s_hanging S) i = true -> free_of_doubles S i)).
  { unfold merge. destruct (existsb _ (seq 0 (s_n S))) eqn:E; split; try congruence.
    - apply existsb_exists in E as (i & Hi & E). apply in_seq in Hi. apply andb_true_iff in E as [E1 E2]. intros X.
      specialize (X i ltac:(lia) E2). apply (node_free S rhs C) in X; [congruence|lia].
    - intros _ i Hi Hx. apply (node_free S rhs C); auto. destruct (constrained (node_constraints S rhs) i) eqn:Ex; auto.
      assert (existsb (fun i => constrained (node_constraints S rhs) i && constrained (s_hanging S) i) (seq 0 (s_n S)) = true); [|congruence].
      apply existsb_exists. exists i. split; [apply in_seq; lia|]. rewrite Ex, Hx. reflexivity. }
  destruct (merge (s_n S) (node_constraints S rhs) (s_hanging S)) as [c|] eqn:Hm.
  2:{ split; [unfold solves, all_constraints; rewrite Hm; tauto|]. intros [X _]. apply Conf in X. congruence. }
  assert (Free := proj1 Conf ltac:(discriminate)). clear Conf.
  rewrite (all_lines S owns rhs sol c HP Hm (Hcl c eq_refl)).
  assert (Ec : forall i, c i = match node_constraints S rhs i with Some l => Some l | None => s_hanging S i end).
  { unfold merge in Hm. destruct (existsb _ _); [discriminate|]. injection Hm as <-. reflexivity. }
  assert (En : forall i, (i < s_n S)%nat -> (c i = None <-> equation_node S i)).
  { intros i Hi. unfold equation_node. rewrite <- (node_free S rhs C i Hi). rewrite Ec. unfold constrained.
    destruct (node_constraints S rhs i), (s_hanging S i); split; intros; try tauto; try congruence; destruct H; congruence. }
  assert (Lines : lines_hold (s_n S) c sol <->
    (forall i l, (i < s_n S)%nat -> node_constraints S rhs i = Some l -> line_holds l sol i) /\
    (forall i l, (i < s_n S)%nat -> s_hanging S i = Some l -> line_holds l sol i)).
  { unfold lines_hold. split.
    - intros X. split; intros i l Hi Hl; apply X; auto; rewrite Ec; [rewrite Hl; auto|].
      assert (F : constrained (node_constraints S rhs) i = false) by (apply (node_free S rhs C); auto; apply Free; auto; unfold constrained; rewrite Hl; auto).
      unfold constrained in F. destruct (node_constraints S rhs i); [discriminate|auto].
    - intros [X Y] i l Hi Hl. rewrite Ec in Hl. destruct (node_constraints S rhs i) eqn:E; [injection Hl as <-; eapply X; eauto|eapply Y; eauto]. }
  rewrite Lines. clear Lines.
  assert (NL := node_line_holds S rhs C).
  unfold discrete_problem_with. split.
  - intros (A & B & D). split; [exact Free|].
    assert (K : forall i l, (i < s_n S)%nat -> node_constraints S rhs i = Some l -> line_holds l sol i) by exact B.
    repeat split.
    + intros i Hi He. apply Row; auto. apply A; auto. apply En; auto.
    + intros i f Hi Di Hf. rewrite UN by auto. specialize (NL i Hi).
      assert (Fd := first_D S rhs i f Hf).
      destruct NL as [[F E]|[(_ & g & Hg & E)|[(N & g & post & E' & Ne & E)|[(_ & D' & _)|(_ & Hg & _)]]]].
      * exfalso. unfold free_of_doubles in F. rewrite Di in F. destruct F as (N & _). destruct (first_D_facts S C i f Hi Hf) as (Df & If & _). rewrite (N f If) in Df. discriminate.
      * specialize (K i _ Hi E). destruct K as (v & Ev & Es). cbn in Ev, Es. injection Ev as <-. rewrite Es. unfold suml. cbn.
        assert (g = f) by (rewrite <- (first_D S rhs i g Hg); auto). subst. lra.
      * exfalso. destruct (first_D_facts S C i f Hi Hf) as (Df & If & _). rewrite (N f If) in Df. discriminate.
      * congruence.
      * destruct (first_D_facts S C i i Hi Hg) as (Df & _). congruence.
    + intros i f post Hi N E. assert (Di := N i (proj1 C i Hi)). assert (If : In f (s_doubles S i)) by (rewrite E; left; auto).
      rewrite (UN i Di), (UN f (N f If)). destruct (Nat.eq_dec i f) as [->|Ne]; auto.
      destruct (NL i Hi) as [[F _]|[(_ & g & Hg & _)|[(_ & g & post' & E' & _ & El)|[(_ & D' & _)|(_ & Hg & _)]]]].
      * exfalso. unfold free_of_doubles in F. rewrite Di in F. destruct F as (_ & p' & E'). rewrite E in E'. congruence.
      * exfalso. destruct (first_D_facts S C i g Hi Hg) as (Dg & Ig & _). rewrite (N g Ig) in Dg. discriminate.
      * rewrite E in E'. injection E' as <- <-. destruct (K i _ Hi El) as (v & Ev & Es). cbn in Ev. injection Ev as <-. rewrite Es. unfold suml. cbn. lra.
      * congruence.
      * exfalso. destruct (first_D_facts S C i i Hi Hg) as (Dg & _). congruence.
    + intros Hc i f Hi Di Hf Ne. rewrite UD by auto. assert (Ff := first_D S rhs i f Hf).
      destruct (NL i Hi) as [[F _]|[(D' & _)|[(N & _)|[(_ & _ & g & Hg & _ & El)|(_ & Hg & _)]]]].
      * exfalso. unfold free_of_doubles in F. rewrite Di in F. destruct F as [F|F]; [congruence|]. apply F. exists f. destruct (first_D_facts S C i f Hi Hf) as (Df & If & _). auto.
      * congruence.
      * rewrite (N i) in Di by (apply C; auto). discriminate.
      * assert (g = f) by (rewrite <- (first_D S rhs i g Hg); auto). subst g. destruct (K i _ Hi El) as (v & Ev & Es). cbn in Ev, Es. rewrite Ev, Es. unfold suml. cbn. f_equal. lra.
      * exfalso. apply Ne. rewrite <- Ff. symmetry. apply (first_D S rhs); auto.
    + intros Hc i j pre post Hi Hf E Dj Nj Bj. destruct (first_D_facts S C i i Hi Hf) as (Di & _). rewrite UD by auto.
      destruct (NL i Hi) as [[F _]|[(D' & _)|[(N & _)|[(_ & _ & g & Hg & Ng & El)|(_ & _ & j' & pre' & post' & E' & Dj' & Nj' & Bj' & El)]]]].
      * exfalso. unfold free_of_doubles in F. rewrite Di in F. destruct F as [F|F]; [congruence|]. apply F. exists j. split; [rewrite E; apply in_elt|auto].
      * congruence.
      * rewrite (N i) in Di by (apply C; auto). discriminate.
      * exfalso. apply Ng. rewrite <- (first_D S rhs i g Hg). symmetry. apply (first_D S rhs); auto.
      * assert (J : j = j').
        { assert (L1 : last_dir (kdata S rhs) (s_doubles S i) = Some j) by (apply (last_dir_some S rhs); exists pre, post; auto).
          assert (L2 : last_dir (kdata S rhs) (s_doubles S i) = Some j') by (apply (last_dir_some S rhs); exists pre', post'; auto). congruence. }
        subst j'. destruct (K i _ Hi El) as (v & Ev & Es). cbn in Ev, Es. rewrite Ev, Es. unfold suml. cbn. f_equal. lra.
    + intros h l Hhn Hl. destruct (D h l Hhn Hl) as (v & Ev & Es). exists v. split; auto. rewrite U, Es. f_equal. apply suml_ext. intros e _. rewrite U. reflexivity.
  - intros (_ & E1 & E2 & E3 & E4 & E5 & E6). split; [|split].
    + intros i Hi Hn. apply Row; auto. apply E1; auto. apply En; auto.
    + intros i l Hi Hl.
      destruct (NL i Hi) as [[_ E]|[(Di & f & Hf & E)|[(N & f & post & Ed & Ne & E)|[(Hc & Di & f & Hf & Ne & E)|(Hc & Hf & j & pre & post & Ed & Dj & Nj & Bj & E)]]]];
        rewrite E in Hl; try discriminate; injection Hl as <-; unfold line_holds; cbn [l_inhom l_entries].
      * exists (rhs f). split; auto. rewrite <- (UN i Di), (E2 i f Hi Di Hf). unfold suml; cbn; lra.
      * exists 0. split; auto. assert (Di := N i (proj1 C i Hi)). assert (If : In f (s_doubles S i)) by (rewrite Ed; left; auto).
        rewrite <- (UN i Di), (E3 i f post Hi N Ed), (UN f (N f If)). unfold suml; cbn; lra.
      * exists (dphi i). split; [apply E4; auto|]. rewrite (UD i Di). unfold suml; cbn; lra.
      * exists (dphi i). destruct (first_D_facts S C i i Hi Hf) as (Di & _). split; [eapply E5; eauto|]. rewrite (UD i Di). unfold suml; cbn; lra.
    + intros h l Hhn Hl. destruct (E6 h l Hhn Hl) as (v & Ev & Es). exists v. split; auto. rewrite U in Es. rewrite Es. f_equal. apply suml_ext. intros e _. rewrite U. reflexivity.
Qed.

(** Consequences, for every exact solution. *)
Theorem C65_solve_system : forall S owns rhs phi0 dphi0 sol,
  s_have_dirichlet S = true -> linear_op (s_n S) (s_N S) -> linear_op (s_n S) (s_D S) ->
  coincidence (s_n S) (s_doubles S) -> partition (s_n S) owns -> imposed S rhs phi0 dphi0 ->
  (forall c, merge (s_n S) (node_constraints S rhs) (s_hanging S) = Some c -> closes (s_n S) c (s_close S c)) ->
  (solves S owns rhs sol <->
   (forall i, (i < s_n S)%nat -> constrained (s_hanging S) i = true -> free_of_doubles S i) /\
   discrete_problem S rhs (solved_phi S phi0 sol) (solved_dphi S dphi0 sol)).
Proof.
  intros S owns rhs phi0 dphi0 sol Hh LN LD C HP Him Hcl.
  apply solves_with; auto.
  intros i Hi. rewrite <- (bie_alpha S _ _ i LN Hi).
  apply (C25_system_is_bie (operator S) phi0 dphi0 rhs sol); auto; cbn [operator b_n b_dir b_neu].
  - intros j _. destruct (s_dir S j); auto.
  - intros j Hj Dj. specialize (Him j Hj). destruct (s_dir S j); auto; lra.
  - intros j Hj Dj. specialize (Him j Hj). destruct (s_dir S j); auto; lra.
Qed.

Section Consequences.
  Variables (S : system) (owns : list (nat -> bool)) (rhs phi0 dphi0 sol : vec).
  Hypothesis Hh : s_have_dirichlet S = true.
  Hypothesis LN : linear_op (s_n S) (s_N S).
  Hypothesis LD : linear_op (s_n S) (s_D S).
  Hypothesis C : coincidence (s_n S) (s_doubles S).
  Hypothesis HP : partition (s_n S) owns.
  Hypothesis Him : imposed S rhs phi0 dphi0.
  Hypothesis Hcl : forall c, merge (s_n S) (node_constraints S rhs) (s_hanging S) = Some c -> closes (s_n S) c (s_close S c).
  Hypothesis Hsol : solves S owns rhs sol.
  Let phi := solved_phi S phi0 sol.
  Let dphi := solved_dphi S dphi0 sol.

  (** the potential is continuous: coincident nodes get the same value *)
  Theorem C65_potential_is_continuous :
    (forall i j, (i < s_n S)%nat -> In j (s_doubles S i) -> s_dir S i = true -> s_dir S j = true -> rhs i = rhs j) ->
    forall i j, (i < s_n S)%nat -> In j (s_doubles S i) -> phi i = phi j.
  Proof.
    intros Hr. destruct (proj1 (C65_solve_system S owns rhs phi0 dphi0 sol Hh LN LD C HP Him Hcl) Hsol) as (_ & P).
    fold phi dphi in P. destruct P as (_ & E2 & E3 & _).
    assert (PD : forall i, (i < s_n S)%nat -> s_dir S i = true -> phi i = rhs i).
    { intros i Hi D. unfold phi. rewrite (proj1 (solved_at S phi0 dphi0 sol i)), D. specialize (Him i Hi). rewrite D in Him. exact Him. }
    assert (V : forall i f, (i < s_n S)%nat -> first_dirichlet S i f -> phi i = rhs f).
    { intros i f Hi Hf. destruct (s_dir S i) eqn:D; [|apply E2; auto]. rewrite PD by auto.
      destruct (first_D_facts S C i f Hi Hf) as (Df & If & _). apply Hr; auto. }
    intros i j Hi Hj. destruct C as (_ & C2 & _). destruct (C2 i j Hi Hj) as [Lj Ej].
    destruct (first_cases S C i Hi) as [(f & Hf)|(N & f & post & E)].
    - rewrite (V i f Hi Hf). symmetry. apply V; auto. unfold first_dirichlet. rewrite Ej. exact Hf.
    - rewrite (E3 i f post Hi N E). symmetry. apply (E3 j f post Lj); [|rewrite Ej; exact E]. unfold neumann_group. rewrite Ej. exact N.
  Qed.
  (** imposed values are returned untouched *)
  Theorem C65_boundary_data_kept : forall i, (i < s_n S)%nat ->
    (s_dir S i = true -> phi i = rhs i) /\ (s_dir S i = false -> dphi i = rhs i).
  Proof.
    intros i Hi. specialize (Him i Hi). unfold phi, dphi. destruct (solved_at S phi0 dphi0 sol i) as [-> ->].
    split; intros D; rewrite D in *; auto.
  Qed.
  (** hanging nodes: the potential is interpolated when the node and its parents are all Neumann nodes, the flux
      when they are all Dirichlet nodes *)
  Theorem C65_hanging_nodes : forall h l, (h < s_n S)%nat -> s_hanging S h = Some l -> l_inhom l = Some 0 ->
    ((forall e, In e (l_entries l) -> s_dir S (fst e) = false) -> s_dir S h = false ->
        phi h = suml (l_entries l) (fun e => snd e * phi (fst e))) /\
    ((forall e, In e (l_entries l) -> s_dir S (fst e) = true) -> s_dir S h = true ->
        dphi h = suml (l_entries l) (fun e => snd e * dphi (fst e))).
  Proof.
    intros h l Hhn Hl H0. destruct (proj1 (C65_solve_system S owns rhs phi0 dphi0 sol Hh LN LD C HP Him Hcl) Hsol) as (_ & P).
    fold phi dphi in P. destruct P as (_ & _ & _ & _ & _ & E6). destruct (E6 h l Hhn Hl) as (v & Ev & Es). rewrite H0 in Ev. injection Ev as <-.
    split; intros X D; unfold unknown at 1 in Es; rewrite D in Es; rewrite Es, Rplus_0_r; apply suml_ext; intros e He; unfold unknown; rewrite (X e He); reflexivity.
  Qed.
End Consequences.

(** compute_constraints throws exactly when a hanging node also needs a double-node condition. *)
Theorem C65_conflict : forall S rhs, coincidence (s_n S) (s_doubles S) ->
  (all_constraints S rhs = None <-> exists i, (i < s_n S)%nat /\ constrained (s_hanging S) i = true /\ ~ free_of_doubles S i).
Proof.
  intros S rhs C. unfold all_constraints, merge. destruct (existsb _ (seq 0 (s_n S))) eqn:E; split; try congruence.
  - intros _. apply existsb_exists in E as (i & Hi & E). apply in_seq in Hi. apply andb_true_iff in E as [E1 E2].
    exists i. split; [lia|]. split; auto. intros F. apply (node_free S rhs C) in F; [congruence|lia].
  - intros (i & Hi & Hx & F). exfalso. apply F. apply (node_free S rhs C); auto.
    destruct (constrained (node_constraints S rhs) i) eqn:Ex; auto.
    assert (existsb (fun i => constrained (node_constraints S rhs) i && constrained (s_hanging S) i) (seq 0 (s_n S)) = true); [|congruence].
    apply existsb_exists. exists i. split; [apply in_seq; lia|]. rewrite Ex, Hx. reflexivity.
Qed.
(** the distribution of the dofs over the processes does not matter *)
Theorem C65_partition_independent : forall S owns owns' rhs sol, partition (s_n S) owns -> partition (s_n S) owns' ->
  (forall c, merge (s_n S) (node_constraints S rhs) (s_hanging S) = Some c -> closes (s_n S) c (s_close S c)) ->
  (solves S owns rhs sol <-> solves S owns' rhs sol).
Proof.
  intros S owns owns' rhs sol P P' Hcl. destruct (merge (s_n S) (node_constraints S rhs) (s_hanging S)) as [c|] eqn:Hm.
  - rewrite (all_lines S owns rhs sol c), (all_lines S owns' rhs sol c); auto. tauto.
  - unfold solves, all_constraints. rewrite Hm. tauto.
Qed.

(** Example: node 0 Dirichlet, node 1 Neumann coincident with it, node 2 Neumann, node 3 hanging between [a] and 2. *)
Definition ex_hn (a : nat) : line := {| l_entries := [(a, 1 / 2); (2%nat, 1 / 2)]; l_inhom := Some 0 |}.
Definition ex_sys (a : nat) : system := {|
  s_n := 4; s_direct := true;
  s_N := matvec 4 (fun i j => if (i =? 2)%nat && (j =? 0)%nat then -1 else 0);
  s_D := matvec 4 (fun i j => if (i =? j)%nat then 1 else 0); s_dir := (fun i => i =? 0)%nat; s_have_dirichlet := true;
  s_doubles := fun i => if (i <? 2)%nat then [0; 1]%nat else [i]; s_normal := fun _ _ => 0; s_sgrad := fun _ _ _ => 0; s_cont := false;
  s_hanging := fun i => if (i =? 3)%nat then Some (ex_hn a) else None; s_close := fun c => c |}.
Lemma ex_coincidence a : coincidence 4 (s_doubles (ex_sys a)).
Proof.
  split; [|split]; cbn [s_doubles ex_sys].
  - intros i Hi. do 4 (destruct i as [|i]; [cbn; auto|]). lia.
  - intros i j Hi. do 4 (destruct i as [|i]; [cbn; intros X; repeat destruct X as [<-|X]; cbn; auto; try tauto; split; auto; lia|]). lia.
  - intros i Hi. destruct (i <? 2)%nat; repeat constructor; cbn; intuition lia.
Qed.
Definition ex_owns : list (nat -> bool) := [(fun i => i <? 2)%nat; (fun i => 2 <=? i)%nat].
Lemma ex_partition : partition 4 ex_owns.
Proof. intros i Hi. do 4 (destruct i as [|i]; [reflexivity|]). lia. Qed.
(** imposed potential 5 at node 0, imposed flux 2 at node 2 *)
Definition ex_rhs : vec := fun i => if (i =? 0)%nat then 5 else if (i =? 2)%nat then 2 else 0.
Definition ex_sol (v : R) : vec := fun i => if (i =? 0)%nat then 0 else if (i =? 1)%nat then 5 else if (i =? 2)%nat then 7 else v.
Lemma ex_solves a v : v = 1 / 2 * ex_sol v a + 1 / 2 * 7 ->
  solves (ex_sys a) ex_owns ex_rhs (ex_sol v) /\
  (forall c, merge 4 (node_constraints (ex_sys a) ex_rhs) (s_hanging (ex_sys a)) = Some c -> closes 4 c (s_close (ex_sys a) c)) /\
  (forall i, solved_phi (ex_sys a) ex_rhs (ex_sol v) i = (if (i =? 0)%nat then 5 else ex_sol v i) /\
             solved_dphi (ex_sys a) ex_rhs (ex_sol v) i = (if (i =? 0)%nat then 0 else ex_rhs i)) /\
  imposed (ex_sys a) ex_rhs ex_rhs ex_rhs.
Proof.
  intros Ev. set (S := ex_sys a).
  assert (Cl : forall c, merge 4 (node_constraints S ex_rhs) (s_hanging S) = Some c -> closes 4 c (s_close S c)) by (intros; split; tauto).
  assert (Im : imposed S ex_rhs ex_rhs ex_rhs) by (intros i Hi; destruct (s_dir S i); reflexivity).
  assert (At : forall i, solved_phi S ex_rhs (ex_sol v) i = (if (i =? 0)%nat then 5 else ex_sol v i) /\ solved_dphi S ex_rhs (ex_sol v) i = (if (i =? 0)%nat then 0 else ex_rhs i)).
  { intros i. destruct (solved_at S ex_rhs ex_rhs (ex_sol v) i) as [-> ->]. cbn [S s_dir ex_sys]. unfold ex_sol, ex_rhs. destruct (i =? 0)%nat; auto. }
  split; [|split; [exact Cl|split; [exact At|exact Im]]].
  apply (C65_solve_system S _ ex_rhs ex_rhs ex_rhs (ex_sol v) eq_refl (matvec_linear _ _) (matvec_linear _ _) (ex_coincidence _) ex_partition Im Cl).
  split; [intros i Hi E; unfold free_of_doubles|unfold discrete_problem, discrete_problem_with; split; [|split; [|split; [|split; [|split]]]]].
  - do 3 (destruct i as [|i]; [discriminate E|]). destruct i as [|i]; [|cbn in Hi; lia]. cbn. split; [|eauto]. intros j [<-|[]]; reflexivity.
  - intros i Hi (E1 & E2). unfold bie_row. cbn [S s_N s_D ex_sys]. unfold matvec. cbn [sumn].
    rewrite !(proj1 (At _)), !(proj2 (At _)).
    destruct i as [|[|[|[|i]]]].
    + cbn; unfold ex_sol, ex_rhs; cbn; lra.
    + exfalso. unfold free_of_doubles in E2. cbn in E2. destruct E2 as (N & _). specialize (N 0%nat (or_introl eq_refl)). discriminate.
    + cbn; unfold ex_sol, ex_rhs; cbn; lra.
    + discriminate E1.
    + cbn in Hi; lia.
  - intros i f Hi D (pre & post & E & Df & B). rewrite (proj1 (At i)). cbn [S s_dir s_doubles ex_sys] in *.
    apply Nat.eqb_eq in Df. subst f. destruct i as [|[|[|[|i]]]].
    + discriminate.
    + reflexivity.
    + exfalso. cbn in E. destruct pre as [|? [|? ?]]; discriminate.
    + exfalso. cbn in E. destruct pre as [|? [|? ?]]; discriminate.
    + cbn in Hi; lia.
  - intros i f post Hi N E. rewrite !(proj1 (At _)). cbn [S s_doubles ex_sys] in E.
    destruct i as [|[|[|[|i]]]].
    + cbn in E. injection E as <- _. reflexivity.
    + exfalso. specialize (N 0%nat). cbn in N. specialize (N (or_introl eq_refl)). discriminate.
    + cbn in E. injection E as <- _. reflexivity.
    + cbn in E. injection E as <- _. reflexivity.
    + cbn in Hi; lia.
  - discriminate.
  - discriminate.
  - intros h l Hh El. cbn [S s_hanging ex_sys] in El. destruct (Nat.eqb_spec h 3) as [->|]; [|discriminate]. injection El as <-. exists 0. split; auto.
    rewrite unknown_sol. cbn [ex_hn l_entries]. unfold suml. cbn [fold_right fst snd]. rewrite !unknown_sol.
    change (ex_sol v 3%nat) with v. change (ex_sol v 2%nat) with 7. lra.
Qed.
Example C65_instance :
  solves (ex_sys 1) ex_owns ex_rhs (ex_sol 6) /\ s_have_dirichlet (ex_sys 1) = true /\
  linear_op 4 (s_N (ex_sys 1)) /\ linear_op 4 (s_D (ex_sys 1)) /\ coincidence 4 (s_doubles (ex_sys 1)) /\ partition 4 ex_owns /\
  imposed (ex_sys 1) ex_rhs ex_rhs ex_rhs /\
  (forall c, merge 4 (node_constraints (ex_sys 1) ex_rhs) (s_hanging (ex_sys 1)) = Some c -> closes 4 c (s_close (ex_sys 1) c)) /\
  solved_phi (ex_sys 1) ex_rhs (ex_sol 6) 1%nat = 5 /\ solved_phi (ex_sys 1) ex_rhs (ex_sol 6) 3%nat = 6.
Proof.
  destruct (ex_solves 1 6 ltac:(unfold ex_sol; cbn; lra)) as (A & B & D & E).
  split; [exact A|]. split; [reflexivity|]. split; [apply matvec_linear|]. split; [apply matvec_linear|].
  split; [apply ex_coincidence|]. split; [apply ex_partition|]. split; [exact E|]. split; [exact B|].
  rewrite (proj1 (D 1%nat)), (proj1 (D 3%nat)). split; reflexivity.
Qed.

(** A hanging Neumann node with one Dirichlet and one Neumann parent: the constraint averages the FLUX of the one
    with the potential of the other, so the returned potential is not the interpolated one. *)
Theorem C65_mixed_hanging_refuted : exists S owns rhs sol h l,
  s_have_dirichlet S = true /\ linear_op (s_n S) (s_N S) /\ linear_op (s_n S) (s_D S) /\ coincidence (s_n S) (s_doubles S) /\
  partition (s_n S) owns /\ imposed S rhs rhs rhs /\
  (forall c, merge (s_n S) (node_constraints S rhs) (s_hanging S) = Some c -> closes (s_n S) c (s_close S c)) /\
  solves S owns rhs sol /\ (h < s_n S)%nat /\ s_hanging S h = Some l /\ l_inhom l = Some 0 /\ s_dir S h = false /\
  solved_phi S rhs sol h <> suml (l_entries l) (fun e => snd e * solved_phi S rhs sol (fst e)).
Proof.
  destruct (ex_solves 0 (7 / 2) ltac:(unfold ex_sol; cbn; lra)) as (A & B & D & E).
  exists (ex_sys 0), ex_owns, ex_rhs, (ex_sol (7 / 2)), 3%nat, (ex_hn 0).
  split; [reflexivity|]. split; [apply matvec_linear|]. split; [apply matvec_linear|].
  split; [apply ex_coincidence|]. split; [apply ex_partition|]. split; [exact E|]. split; [exact B|]. split; [exact A|].
  split; [cbn; lia|]. split; [reflexivity|]. split; [reflexivity|]. split; [reflexivity|].
  unfold suml. cbn [ex_hn l_entries fold_right fst snd]. rewrite !(proj1 (D _)). unfold ex_sol. cbn. lra.
Qed.
