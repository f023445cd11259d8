(** Property theorems C75: what the vector accepted by the linear solver satisfies. *)
From Coq Require Import Reals List Bool Arith Lia Lra.
From Verif Require Import LibSum ModelBem ProofsBem ModelBc ProofsBc PropBem ModelSolve SpecSolve ProofsSolve PropSolve ModelResid.
Import ListNotations.
Local Open Scope R_scope.

(** contract of AffineConstraints::close beyond [closes]: chains are resolved, so the lines it leaves refer to
    unconstrained dofs only *)
Definition resolved (n : nat) (c : constraints) : Prop :=
  forall i l e, (i < n)%nat -> c i = Some l -> In e (l_entries l) -> constrained c (fst e) = false.

Lemma residual_row S owns rhs sol c i : partition (s_n S) owns -> (i < s_n S)%nat ->
  merge (s_n S) (node_constraints S rhs) (s_hanging S) = Some c ->
  residual S owns rhs sol i =
  match s_close S c i with
  | Some l => match l_inhom l with
              | Some v => Some (v - (sol i - suml (l_entries l) (fun e => snd e * sol (fst e))))
              | None => None end
  | None => Some (compute_rhs (operator S) (fun _ => 0) rhs i - vmult (operator S) sol i)
  end.
Proof.
  intros HP Hi Hm. unfold residual, all_constraints. rewrite Hm. set (c' := s_close S c).
  assert (MF : map fst (map (fun own => (own, constr_cpu_set (s_n S) c' own)) owns) = owns) by (rewrite map_map; cbn; apply map_id).
  rewrite (co_vmult_eq c').
  - unfold co_distribute_rhs, row_value. rewrite (existsb_one (fun own => own i) owns (HP i Hi)).
    destruct (c' i) as [l|]; [destruct (l_inhom l)|]; reflexivity.
  - eapply partition_fst; eauto. now rewrite MF.
  - intros own ghost l Hin Ho Hci e He. apply in_map_iff in Hin as (o & E & _). inversion E; subst. eapply constr_cpu_set_spec; eauto.
Qed.

(** An exact solution is one with residual zero. *)
Theorem C75_exact_is_zero_residual : forall S owns rhs sol, partition (s_n S) owns ->
  (solves S owns rhs sol <-> all_constraints S rhs <> None /\ forall i, (i < s_n S)%nat -> residual S owns rhs sol i = Some 0).
Proof.
  intros S owns rhs sol HP. destruct (merge (s_n S) (node_constraints S rhs) (s_hanging S)) as [c|] eqn:Hm.
  2:{ unfold solves, all_constraints. rewrite Hm. split; [tauto|]. intros [X _]. congruence. }
  assert (Ha : all_constraints S rhs = Some (s_close S c)) by (unfold all_constraints; rewrite Hm; auto).
  unfold solves. rewrite Ha. set (c' := s_close S c).
  assert (E : forall i, (i < s_n S)%nat -> exists a, co_vmult (vmult (operator S)) c' (map (fun own => (own, constr_cpu_set (s_n S) c' own)) owns) sol i = Some a).
  { intros i Hi. eexists. apply co_vmult_eq.
    - eapply partition_fst; eauto. rewrite map_map. cbn. rewrite map_id. exact HP.
    - intros own ghost l Hin Ho Hci e He. apply in_map_iff in Hin as (o & E & _). inversion E; subst. eapply constr_cpu_set_spec; eauto. }
  split.
  - intros X. split; [discriminate|]. intros i Hi. unfold residual. rewrite Ha. fold c'. rewrite <- (X i Hi).
    destruct (E i Hi) as (a & ->). f_equal. lra.
  - intros [_ X] i Hi. specialize (X i Hi). unfold residual in X. rewrite Ha in X. fold c' in X. destruct (E i Hi) as (a & Ea). rewrite Ea in *.
    destruct (co_distribute_rhs c' owns (compute_rhs (operator S) (fun _ => 0) rhs) i) as [b|]; [|discriminate]. injection X as X. f_equal. lra.
Qed.

Lemma equation_residual S rhs phi0 dphi0 sol i :
  s_have_dirichlet S = true -> linear_op (s_n S) (s_N S) -> linear_op (s_n S) (s_D S) -> imposed S rhs phi0 dphi0 -> (i < s_n S)%nat ->
  compute_rhs (operator S) (fun _ => 0) rhs i - vmult (operator S) sol i =
  s_D S (solved_dphi S dphi0 sol) i - (s_N S (solved_phi S phi0 sol) i - solved_phi S phi0 sol i * s_N S (fun _ => 1) i).
Proof.
  intros Hh LN LD Him Hi.
  assert (V := vmult_dir (operator S) sol i Hh). assert (Rr := rhs_eq (operator S) rhs i).
  cbn [operator b_N b_D b_alpha b_n] in V, Rr. fold (operator S) in V, Rr. rewrite V, Rr.
  assert (EA : compute_alpha (s_N S) fresh_ones i = - s_N S (fun _ => 1) i).
  { unfold compute_alpha. rewrite (lin_comb (s_n S) (s_N S) (fun _ => 1) (fun _ => 1) fresh_ones (-1) 0 i LN Hi) by (intros; unfold fresh_ones, shift; lra). lra. }
  cbn [operator b_dir b_neu]. rewrite EA.
  set (dd := fun i => if s_dir S i then 1 else 0). set (nn := fun i => if s_dir S i then 0 else 1).
  assert (EN : s_N S (solved_phi S phi0 sol) i = s_N S (scale sol nn) i + s_N S (scale rhs dd) i).
  { rewrite (lin_comb (s_n S) (s_N S) (scale sol nn) (scale rhs dd) _ 1 1 i LN Hi); [lra|].
    intros k Hk. rewrite (proj1 (solved_at S phi0 dphi0 sol k)). unfold scale, nn, dd. specialize (Him k Hk). destruct (s_dir S k); lra. }
  assert (ED : s_D S (solved_dphi S dphi0 sol) i = s_D S (scale sol dd) i + s_D S (scale rhs nn) i).
  { rewrite (lin_comb (s_n S) (s_D S) (scale sol dd) (scale rhs nn) _ 1 1 i LD Hi); [lra|].
    intros k Hk. rewrite (proj2 (solved_at S phi0 dphi0 sol k)). unfold scale, nn, dd. specialize (Him k Hk). destruct (s_dir S k); lra. }
  assert (EP : solved_phi S phi0 sol i = sol i * nn i + rhs i * dd i).
  { rewrite (proj1 (solved_at S phi0 dphi0 sol i)). unfold scale, nn, dd. specialize (Him i Hi). destruct (s_dir S i); lra. }
  rewrite EN, ED, EP. fold dd nn. fold (nn i) (dd i). ring.
Qed.

Section Residual.
  Variables (S : system) (owns : list (nat -> bool)) (rhs phi0 dphi0 sol r : vec).
  Hypothesis Hh : s_have_dirichlet S = true.
  Hypothesis LN : linear_op (s_n S) (s_N S).
  Hypothesis LD : linear_op (s_n S) (s_D S).
  Hypothesis C : coincidence (s_n S) (s_doubles S).
  Hypothesis HP : partition (s_n S) owns.
  Hypothesis Him : imposed S rhs phi0 dphi0.
  Hypothesis Hcl : forall c, merge (s_n S) (node_constraints S rhs) (s_hanging S) = Some c -> closes (s_n S) c (s_close S c) /\ resolved (s_n S) (s_close S c).
  Hypothesis Hr : forall i, (i < s_n S)%nat -> residual S owns rhs sol i = Some (r i).
  Variable c : constraints.
  Hypothesis Hm : merge (s_n S) (node_constraints S rhs) (s_hanging S) = Some c.

  Definition slack (k : nat) : R := if constrained c k then r k else 0.

  Lemma free_row i : (i < s_n S)%nat -> c i = None -> compute_rhs (operator S) (fun _ => 0) rhs i - vmult (operator S) sol i = r i.
  Proof.
    intros Hi Ni. destruct (Hcl c Hm) as ((Hc1 & _) & _). specialize (Hr i Hi). rewrite (residual_row S owns rhs sol c i HP Hi Hm) in Hr.
    specialize (Hc1 i). unfold constrained in Hc1. rewrite Ni in Hc1. destruct (s_close S c i); [discriminate|]. now injection Hr.
  Qed.
  Lemma slack_lines : lines_hold (s_n S) c (fun k => sol k + slack k).
  Proof.
    destruct (Hcl c Hm) as ((Hc1 & Hc2) & Hres). apply Hc2. intros i l Hi Hl. unfold line_holds.
    assert (R0 := Hr i Hi). rewrite (residual_row S owns rhs sol c i HP Hi Hm), Hl in R0. destruct (l_inhom l) as [v|]; [|discriminate].
    exists v. split; auto. injection R0 as R0.
    assert (Si : slack i = r i). { unfold slack. rewrite <- Hc1. unfold constrained. rewrite Hl. reflexivity. }
    rewrite Si, <- R0.
    assert (E : suml (l_entries l) (fun e => snd e * (sol (fst e) + slack (fst e))) = suml (l_entries l) (fun e => snd e * sol (fst e))).
    { apply suml_ext. intros e He. unfold slack. rewrite <- Hc1, (Hres i l e Hi Hl He). ring. }
    rewrite E. ring.
  Qed.
  Lemma slack_line i l : (i < s_n S)%nat -> c i = Some l ->
    exists v, l_inhom l = Some v /\ sol i = suml (l_entries l) (fun e => snd e * sol (fst e)) + v - r i + suml (l_entries l) (fun e => snd e * slack (fst e)).
  Proof.
    intros Hi Hl. destruct (slack_lines i l Hi Hl) as (v & Ev & Es). exists v. split; auto.
    assert (Si : slack i = r i) by (unfold slack, constrained; rewrite Hl; reflexivity). rewrite Si in Es.
    assert (E : suml (l_entries l) (fun e => snd e * (sol (fst e) + slack (fst e))) =
                suml (l_entries l) (fun e => snd e * sol (fst e)) + suml (l_entries l) (fun e => snd e * slack (fst e))).
    { rewrite <- suml_plus. apply suml_ext. intros; ring. }
    rewrite E in Es. lra.
  Qed.
End Residual.

Lemma suml_abs {T} (l : list T) f : Rabs (suml l f) <= suml l (fun x => Rabs (f x)).
Proof.
  unfold suml. induction l as [|x l IH]; cbn; [rewrite Rabs_R0; lra|]. eapply Rle_trans; [apply Rabs_triang|]. lra.
Qed.
Lemma suml_le {T} (l : list T) f g : (forall x, In x l -> f x <= g x) -> suml l f <= suml l g.
Proof.
  unfold suml. induction l as [|x l IH]; intros K; cbn; [lra|]. assert (A := K x (or_introl eq_refl)). assert (B := IH (fun z Z => K z (or_intror Z))). lra.
Qed.
Lemma slack_bound r c k : Rabs (slack r c k) <= Rabs (r k).
Proof. unfold slack. destruct (constrained c k); [lra|]. rewrite Rabs_R0. apply Rabs_pos. Qed.

(** The problem of C65 with every condition violated by an amount read off the residual: exactly the entry of the
    residual in the integral equation, in the imposed values and fluxes at coincident nodes; the sum of two entries
    between coincident Neumann nodes; the entries of the node and of its parents at a hanging node. *)
Definition problem_up_to (r : vec) (S : system) (rhs phi dphi : vec) : Prop :=
  (forall i, (i < s_n S)%nat -> constrained (s_hanging S) i = true -> free_of_doubles S i) /\
  (forall i, (i < s_n S)%nat -> equation_node S i -> s_N S phi i - phi i * s_N S (fun _ => 1) i - s_D S dphi i = - r i) /\
  (forall i f, (i < s_n S)%nat -> s_dir S i = false -> first_dirichlet S i f -> phi i - rhs f = - r i) /\
  (forall i f post, (i < s_n S)%nat -> neumann_group S i -> s_doubles S i = f :: post ->
     Rabs (phi i - phi f) <= Rabs (r i) + Rabs (r f) /\
     (constrained (s_hanging S) f = false -> i <> f -> phi i - phi f = - r i)) /\
  (s_cont S = true -> forall i f, (i < s_n S)%nat -> s_dir S i = true -> first_dirichlet S i f -> i <> f -> exists g,
     other_normal_gradient (s_normal S f) (s_normal S i) (s_sgrad S rhs f) (s_sgrad S rhs i) = Some g /\ dphi i - g = - r i) /\
  (s_cont S = true -> forall i j pre post, (i < s_n S)%nat -> first_dirichlet S i i -> s_doubles S i = pre ++ j :: post ->
     s_dir S j = true -> j <> i -> (forall m, In m post -> s_dir S m = false) -> exists g,
     this_normal_gradient (s_normal S i) (s_normal S j) (s_sgrad S rhs i) (s_sgrad S rhs j) = Some g /\ dphi i - g = - r i) /\
  (forall h l, (h < s_n S)%nat -> s_hanging S h = Some l -> exists v, l_inhom l = Some v /\
     Rabs (unknown S phi dphi h - (suml (l_entries l) (fun e => snd e * unknown S phi dphi (fst e)) + v)) <=
     Rabs (r h) + suml (l_entries l) (fun e => Rabs (snd e) * Rabs (r (fst e)))).

Theorem C75_accepted_solution : forall S owns rhs phi0 dphi0 sol r,
  s_have_dirichlet S = true -> linear_op (s_n S) (s_N S) -> linear_op (s_n S) (s_D S) ->
  coincidence (s_n S) (s_doubles S) -> partition (s_n S) owns -> imposed S rhs phi0 dphi0 -> (0 < s_n S)%nat ->
  (forall c, merge (s_n S) (node_constraints S rhs) (s_hanging S) = Some c -> closes (s_n S) c (s_close S c) /\ resolved (s_n S) (s_close S c)) ->
  (forall i, (i < s_n S)%nat -> residual S owns rhs sol i = Some (r i)) ->
  problem_up_to r S rhs (solved_phi S phi0 sol) (solved_dphi S dphi0 sol).
Proof.
  intros S owns rhs phi0 dphi0 sol r Hh LN LD C HP Him Hn Hcl Hr.
  set (phi := solved_phi S phi0 sol). set (dphi := solved_dphi S dphi0 sol).
  assert (U : forall i, unknown S phi dphi i = sol i) by (intros; apply unknown_sol).
  assert (UD : forall i, s_dir S i = true -> dphi i = sol i) by (intros i D; rewrite <- U; unfold unknown; rewrite D; auto).
  assert (UN : forall i, s_dir S i = false -> phi i = sol i) by (intros i D; rewrite <- U; unfold unknown; rewrite D; auto).
  destruct (merge (s_n S) (node_constraints S rhs) (s_hanging S)) as [c|] eqn:Hm.
  2:{ exfalso. assert (X := Hr 0%nat Hn). unfold residual, all_constraints in X. rewrite Hm in X. discriminate. }
  assert (Hcl' : forall c0, merge (s_n S) (node_constraints S rhs) (s_hanging S) = Some c0 -> closes (s_n S) c0 (s_close S c0) /\ resolved (s_n S) (s_close S c0)).
  { intros c0 E. rewrite Hm in E. apply Hcl; auto. }
  assert (Free : forall i, (i < s_n S)%nat -> constrained (s_hanging S) i = true -> free_of_doubles S i).
  { assert (Hm' := Hm). unfold merge in Hm'. destruct (existsb _ (seq 0 (s_n S))) eqn:E; [discriminate|].
    intros i Hi Hx. apply (node_free S rhs C); auto. destruct (constrained (node_constraints S rhs) i) eqn:Ex; auto.
    assert (existsb (fun i => constrained (node_constraints S rhs) i && constrained (s_hanging S) i) (seq 0 (s_n S)) = true); [|congruence].
    apply existsb_exists. exists i. split; [apply in_seq; lia|]. rewrite Ex, Hx. reflexivity. }
  assert (Ec : forall i, c i = match node_constraints S rhs i with Some l => Some l | None => s_hanging S i end).
  { unfold merge in Hm. destruct (existsb _ _); [discriminate|]. injection Hm as <-. reflexivity. }
  assert (Nod : forall i l, (i < s_n S)%nat -> node_constraints S rhs i = Some l -> exists v, l_inhom l = Some v /\
     sol i = suml (l_entries l) (fun e => snd e * sol (fst e)) + v - r i + suml (l_entries l) (fun e => snd e * slack r c (fst e))).
  { intros i l Hi El. apply (slack_line S owns rhs sol r HP Hcl' Hr c Hm i l Hi). rewrite Ec, El. reflexivity. }
  assert (NL := node_line_holds S rhs C).
  split; [exact Free|]. split; [|split; [|split; [|split; [|split]]]].
  - intros i Hi (E1 & E2). assert (N : c i = None).
    { rewrite Ec. apply (node_free S rhs C i Hi) in E2. unfold constrained in E1, E2. destruct (node_constraints S rhs i); [discriminate|]. destruct (s_hanging S i); [discriminate|auto]. }
    assert (X := free_row S owns rhs sol r HP Hcl' Hr c Hm i Hi N). rewrite (equation_residual S rhs phi0 dphi0 sol i Hh LN LD Him Hi) in X.
    fold phi dphi in X. lra.
  - intros i f Hi Di Hf. rewrite (UN i Di).
    destruct (NL i Hi) as [[F _]|[(_ & g & Hg & E)|[(N & _)|[(_ & D' & _)|(_ & Hg & _)]]]].
    + exfalso. unfold free_of_doubles in F. rewrite Di in F. destruct F as (N & _). destruct (first_D_facts S C i f Hi Hf) as (Df & If & _). rewrite (N f If) in Df. discriminate.
    + destruct (Nod i _ Hi E) as (v & Ev & Es). cbn in Ev, Es. injection Ev as <-. unfold suml in Es. cbn in Es.
      assert (g = f) by (rewrite <- (first_D S rhs i g Hg), <- (first_D S rhs i f Hf); auto). subst. lra.
    + exfalso. destruct (first_D_facts S C i f Hi Hf) as (Df & If & _). rewrite (N f If) in Df. discriminate.
    + congruence.
    + destruct (first_D_facts S C i i Hi Hg) as (Df & _). congruence.
  - intros i f post Hi N E. assert (Di := N i (proj1 C i Hi)). assert (If : In f (s_doubles S i)) by (rewrite E; left; auto).
    rewrite (UN i Di), (UN f (N f If)). destruct (Nat.eq_dec i f) as [->|Ne].
    { split; [|congruence]. rewrite Rminus_diag_eq, Rabs_R0 by auto. assert (Z := Rabs_pos (r f)). lra. }
    destruct (NL i Hi) as [[F _]|[(_ & g & Hg & _)|[(_ & g & post' & E' & _ & El)|[(_ & D' & _)|(_ & Hg & _)]]]].
    + exfalso. unfold free_of_doubles in F. rewrite Di in F. destruct F as (_ & p' & E'). rewrite E in E'. congruence.
    + exfalso. destruct (first_D_facts S C i g Hi Hg) as (Dg & Ig & _). rewrite (N g Ig) in Dg. discriminate.
    + rewrite E in E'. injection E' as <- <-. destruct (Nod i _ Hi El) as (v & Ev & Es). cbn in Ev. injection Ev as <-. unfold suml in Es. cbn in Es.
      assert (Q : sol i - sol f = slack r c f - r i) by lra. split.
      * rewrite Q. unfold Rminus. eapply Rle_trans; [apply Rabs_triang|]. rewrite Rabs_Ropp. assert (Z := slack_bound r c f). lra.
      * intros Nh _. rewrite Q. assert (Zf : slack r c f = 0); [|lra]. unfold slack. assert (Lf := proj1 (proj1 (proj2 C) i f Hi If)).
        assert (Ff : free_of_doubles S f).
        { unfold free_of_doubles. rewrite (N f If). destruct (proj1 (proj2 C) i f Hi If) as (_ & Ef). split; [unfold neumann_group; rewrite Ef; exact N|]. exists post. rewrite Ef. exact E. }
        apply (node_free S rhs C f Lf) in Ff. unfold constrained in *. rewrite Ec. destruct (node_constraints S rhs f); [discriminate|].
        destruct (s_hanging S f); [discriminate|auto].
    + congruence.
    + exfalso. destruct (first_D_facts S C i i Hi Hg) as (Dg & _). congruence.
  - intros Hc i f Hi Di Hf Ne. rewrite UD by auto. assert (Ff := first_D S rhs i f Hf).
    destruct (NL i Hi) as [[F _]|[(D' & _)|[(N & _)|[(_ & _ & g & Hg & _ & El)|(_ & Hg & _)]]]].
    + exfalso. unfold free_of_doubles in F. rewrite Di in F. destruct F as [F|F]; [congruence|]. apply F. exists f. destruct (first_D_facts S C i f Hi Hf) as (Df & If & _). auto.
    + congruence.
    + rewrite (N i) in Di by (apply C; auto). discriminate.
    + assert (g = f) by (rewrite <- (first_D S rhs i g Hg); auto). subst g. destruct (Nod i _ Hi El) as (v & Ev & Es). cbn in Ev, Es. exists v. split; auto. unfold suml in Es. cbn in Es. lra.
    + exfalso. apply Ne. rewrite <- Ff. symmetry. apply (first_D S rhs); auto.
  - intros Hc i j pre post Hi Hf E Dj Nj Bj. destruct (first_D_facts S C i i Hi Hf) as (Di & _). rewrite UD by auto.
    destruct (NL i Hi) as [[F _]|[(D' & _)|[(N & _)|[(_ & _ & g & Hg & Ng & El)|(_ & _ & j' & pre' & post' & E' & Dj' & Nj' & Bj' & El)]]]].
    + exfalso. unfold free_of_doubles in F. rewrite Di in F. destruct F as [F|F]; [congruence|]. apply F. exists j. split; [rewrite E; apply in_elt|auto].
    + congruence.
    + rewrite (N i) in Di by (apply C; auto). discriminate.
    + exfalso. apply Ng. rewrite <- (first_D S rhs i g Hg). symmetry. apply (first_D S rhs); auto.
    + assert (J : j = j').
      { assert (L1 : last_dir (kdata S rhs) (s_doubles S i) = Some j) by (apply (last_dir_some S rhs); exists pre, post; auto).
        assert (L2 : last_dir (kdata S rhs) (s_doubles S i) = Some j') by (apply (last_dir_some S rhs); exists pre', post'; auto). congruence. }
      subst j'. destruct (Nod i _ Hi El) as (v & Ev & Es). cbn in Ev, Es. exists v. split; auto. unfold suml in Es. cbn in Es. lra.
  - intros h l Hhn Hl. assert (Cl : c h = Some l).
    { rewrite Ec. assert (F : constrained (node_constraints S rhs) h = false) by (apply (node_free S rhs C); auto; apply Free; auto; unfold constrained; rewrite Hl; auto).
      unfold constrained in F. destruct (node_constraints S rhs h); [discriminate|exact Hl]. }
    destruct (slack_line S owns rhs sol r HP Hcl' Hr c Hm h l Hhn Cl) as (v & Ev & Es). exists v. split; auto. rewrite U.
    assert (E : suml (l_entries l) (fun e => snd e * unknown S phi dphi (fst e)) = suml (l_entries l) (fun e => snd e * sol (fst e))) by (apply suml_ext; intros; rewrite U; auto).
    rewrite E. replace (sol h - (suml (l_entries l) (fun e => snd e * sol (fst e)) + v)) with (- r h + suml (l_entries l) (fun e => snd e * slack r c (fst e))) by lra.
    eapply Rle_trans; [apply Rabs_triang|]. rewrite Rabs_Ropp. apply Rplus_le_compat_l. eapply Rle_trans; [apply suml_abs|].
    apply suml_le. intros e _. rewrite Rabs_mult. apply Rmult_le_compat_l; [apply Rabs_pos|apply slack_bound].
Qed.

(** Distance to the exact solution: condition of the problem times residual times (1 + the largest sum of weights of a
    constraint line). *)
Theorem C75_error_of_the_solution : forall S owns rhs phi0 dphi0 sol sol' r M W eps,
  s_have_dirichlet S = true -> linear_op (s_n S) (s_N S) -> linear_op (s_n S) (s_D S) ->
  partition (s_n S) owns -> imposed S rhs phi0 dphi0 ->
  (forall c, merge (s_n S) (node_constraints S rhs) (s_hanging S) = Some c -> closes (s_n S) c (s_close S c) /\ resolved (s_n S) (s_close S c)) ->
  (forall i, (i < s_n S)%nat -> residual S owns rhs sol i = Some (r i)) -> solves S owns rhs sol' -> stable S rhs M ->
  (forall c i l, merge (s_n S) (node_constraints S rhs) (s_hanging S) = Some c -> (i < s_n S)%nat -> c i = Some l ->
     suml (l_entries l) (fun e => Rabs (snd e)) <= W /\ forall e, In e (l_entries l) -> (fst e < s_n S)%nat) ->
  (forall i, (i < s_n S)%nat -> Rabs (r i) <= eps) -> 0 <= W ->
  forall i, (i < s_n S)%nat ->
    Rabs (solved_phi S phi0 sol i - solved_phi S phi0 sol' i) <= M * ((1 + W) * eps) /\
    Rabs (solved_dphi S dphi0 sol i - solved_dphi S dphi0 sol' i) <= M * ((1 + W) * eps).
Proof.
  intros S owns rhs phi0 dphi0 sol sol' r M W eps Hh LN LD HP Him Hcl Hr Hs St Hw He W0.
  destruct (merge (s_n S) (node_constraints S rhs) (s_hanging S)) as [c|] eqn:Hm; [|unfold solves, all_constraints in Hs; rewrite Hm in Hs; destruct Hs].
  assert (Hcl' : forall c0, merge (s_n S) (node_constraints S rhs) (s_hanging S) = Some c0 -> closes (s_n S) c0 (s_close S c0) /\ resolved (s_n S) (s_close S c0)).
  { intros c0 E. rewrite Hm in E. apply Hcl; auto. }
  destruct (proj1 (all_lines S owns rhs sol' c HP Hm (proj1 (Hcl c eq_refl))) Hs) as (F' & L').
  assert (Main : forall i, (i < s_n S)%nat -> Rabs (sol i - sol' i) <= M * ((1 + W) * eps)).
  { apply (St c (fun k => sol k - sol' k) _ Hm). intros i Hi.
    assert (Ei : 0 <= eps) by (eapply Rle_trans; [apply Rabs_pos|apply (He i Hi)]).
    unfold homogeneous_row. destruct (c i) as [l|] eqn:Ci.
    - destruct (slack_line S owns rhs sol r HP Hcl' Hr c Hm i l Hi Ci) as (v & Ev & Es). destruct (L' i l Hi Ci) as (v' & Ev' & Es').
      assert (v = v') by congruence. subst v'.
      assert (E : suml (l_entries l) (fun e => snd e * (sol (fst e) - sol' (fst e))) = suml (l_entries l) (fun e => snd e * sol (fst e)) + -1 * suml (l_entries l) (fun e => snd e * sol' (fst e))) by (rewrite <- suml_scal, <- suml_plus; apply suml_ext; intros; ring).
      rewrite E. replace (sol i - sol' i - (suml (l_entries l) (fun e => snd e * sol (fst e)) + -1 * suml (l_entries l) (fun e => snd e * sol' (fst e))))
        with (- r i + suml (l_entries l) (fun e => snd e * slack r c (fst e))) by lra.
      destruct (Hw c i l eq_refl Hi Ci) as (Wl & In_n).
      eapply Rle_trans; [apply Rabs_triang|]. rewrite Rabs_Ropp.
      assert (A := He i Hi). assert (B : Rabs (suml (l_entries l) (fun e => snd e * slack r c (fst e))) <= eps * suml (l_entries l) (fun e => Rabs (snd e))).
      { eapply Rle_trans; [apply suml_abs|]. rewrite <- suml_scal. apply suml_le. intros e Ie. rewrite Rabs_mult, Rmult_comm. apply Rmult_le_compat_r; [apply Rabs_pos|].
        eapply Rle_trans; [apply slack_bound|]. apply He. apply In_n; auto. }
      assert (D : eps * suml (l_entries l) (fun e => Rabs (snd e)) <= eps * W) by (apply Rmult_le_compat_l; auto). lra.
    - assert (X := free_row S owns rhs sol r HP Hcl' Hr c Hm i Hi Ci). assert (Y := F' i Hi Ci).
      rewrite (equation_residual S rhs phi0 dphi0 sol i Hh LN LD Him Hi) in X.
      assert (Y' : compute_rhs (operator S) (fun _ => 0) rhs i - vmult (operator S) sol' i = 0) by lra.
      rewrite (equation_residual S rhs phi0 dphi0 sol' i Hh LN LD Him Hi) in Y'.
      set (phi := solved_phi S phi0 sol) in *. set (dphi := solved_dphi S dphi0 sol) in *. set (phi' := solved_phi S phi0 sol') in *. set (dphi' := solved_dphi S dphi0 sol') in *.
      assert (Ph : forall k, (if s_dir S k then 0 else sol k - sol' k) = 1 * phi k + -1 * phi' k).
      { intros k. unfold phi, phi'. rewrite (proj1 (solved_at S phi0 dphi0 sol k)), (proj1 (solved_at S phi0 dphi0 sol' k)). destruct (s_dir S k); ring. }
      assert (Dh : forall k, (if s_dir S k then sol k - sol' k else 0) = 1 * dphi k + -1 * dphi' k).
      { intros k. unfold dphi, dphi'. rewrite (proj2 (solved_at S phi0 dphi0 sol k)), (proj2 (solved_at S phi0 dphi0 sol' k)). destruct (s_dir S k); ring. }
      cbv zeta. rewrite (lin_comb (s_n S) (s_N S) phi phi' _ 1 (-1) i LN Hi (fun k _ => Ph k)), (lin_comb (s_n S) (s_D S) dphi dphi' _ 1 (-1) i LD Hi (fun k _ => Dh k)), (Ph i).
      replace (1 * s_N S phi i + -1 * s_N S phi' i - (1 * phi i + -1 * phi' i) * s_N S (fun _ => 1) i - (1 * s_D S dphi i + -1 * s_D S dphi' i)) with (- r i) by lra.
      rewrite Rabs_Ropp. assert (A := He i Hi). assert (B : 0 <= W * eps) by (apply Rmult_le_pos; auto). lra. }
  intros i Hi. assert (Mi := Main i Hi). assert (Z : 0 <= M * ((1 + W) * eps)) by (eapply Rle_trans; [apply Rabs_pos|exact Mi]).
  rewrite (proj1 (solved_at S phi0 dphi0 sol i)), (proj1 (solved_at S phi0 dphi0 sol' i)), (proj2 (solved_at S phi0 dphi0 sol i)), (proj2 (solved_at S phi0 dphi0 sol' i)).
  destruct (s_dir S i); split; auto; rewrite Rminus_diag_eq, Rabs_R0; auto.
Qed.

(** The tolerance bounds the residual after preconditioning.  If [mat] undoes the preconditioner, the residual is
    bounded by the tolerance times the l1 norm of the row of [mat]. *)
Lemma l2_entry n a i : (i < n)%nat -> Rabs (a i) <= l2_norm n a.
Proof.
  intros Hi. unfold l2_norm. rewrite <- sqrt_Rsqr_abs. apply sqrt_le_1_alt. unfold Rsqr.
  assert (K : forall m, 0 <= sumn m (fun k => a k * a k) /\ ((i < m)%nat -> a i * a i <= sumn m (fun k => a k * a k))).
  { induction m as [|m (I1 & I2)]; cbn [sumn].
    - split; [lra|lia].
    - assert (Z := Rle_0_sqr (a m)). unfold Rsqr in Z. split; [lra|]. intros Lt. destruct (Nat.eq_dec i m) as [->|]; [lra|]. specialize (I2 ltac:(lia)). lra. }
  apply K; auto.
Qed.
Theorem C75_residual_of_an_accepted_solution : forall S owns rhs pre tol sol mat,
  solver_accepts S owns rhs pre tol sol ->
  (forall v i, (i < s_n S)%nat -> v i = sumn (s_n S) (fun j => mat i j * pre v j)) ->
  exists r, (forall i, (i < s_n S)%nat -> residual S owns rhs sol i = Some (r i)) /\
    forall i, (i < s_n S)%nat -> Rabs (r i) <= tol * sumn (s_n S) (fun j => Rabs (mat i j)).
Proof.
  intros S owns rhs pre tol sol mat (r & Hr & Ht) Hmat. exists r. split; auto. intros i Hi. rewrite (Hmat r i Hi).
  rewrite <- !suml_seq. eapply Rle_trans; [apply suml_abs|]. rewrite <- suml_scal. apply suml_le. intros j Hj. apply in_seq in Hj.
  rewrite Rabs_mult, Rmult_comm. apply Rmult_le_compat_r; [apply Rabs_pos|]. eapply Rle_trans; [apply (l2_entry (s_n S)); lia|exact Ht].
Qed.

(** It does not bound the residual itself, not even when the preconditioner is the exact inverse of the matrix: one
    Dirichlet node whose single layer entry is K. *)
Definition one_node (K : R) : system := {|
  s_n := 1; s_direct := true; s_N := matvec 1 (fun _ _ => 0); s_D := matvec 1 (fun _ _ => K);
  s_dir := fun _ => true; s_have_dirichlet := true; s_doubles := fun i => [i]; s_normal := fun _ _ => 0; s_sgrad := fun _ _ _ => 0;
  s_cont := false; s_hanging := fun _ => None; s_close := fun c => c |}.
Lemma one_coincidence : coincidence 1 (fun i => [i]).
Proof. split; [|split]; [intros; left; auto|intros i j Hi [<-|[]]; auto|intros; repeat constructor; auto]. Qed.
Lemma one_node_residual K x i : (i < 1)%nat -> residual (one_node K) [fun _ => true] (fun _ => 0) x i = Some (K * x 0%nat).
Proof.
  intros Hi. replace i with 0%nat by lia.
  assert (HP : partition (s_n (one_node K)) [fun _ => true]) by (intros j Hj; reflexivity).
  assert (C : coincidence (s_n (one_node K)) (s_doubles (one_node K))) by exact one_coincidence.
  assert (F : forall j, (j < 1)%nat -> node_constraints (one_node K) (fun _ => 0) j = None).
  { intros j Hj. assert (Ff : free_of_doubles (one_node K) j) by (left; reflexivity).
    apply (node_free (one_node K) (fun _ => 0) C j Hj) in Ff. unfold constrained in Ff. destruct (node_constraints (one_node K) (fun _ => 0) j); [discriminate|auto]. }
  assert (Hm : merge (s_n (one_node K)) (node_constraints (one_node K) (fun _ => 0)) (s_hanging (one_node K)) =
    Some (fun i => match node_constraints (one_node K) (fun _ => 0) i with Some l => Some l | None => s_hanging (one_node K) i end)).
  { unfold merge. cbn [s_n one_node seq existsb s_hanging constrained]. rewrite andb_false_r. reflexivity. }
  rewrite (residual_row (one_node K) _ _ x _ 0 HP ltac:(cbn; lia) Hm). cbn [s_close one_node s_hanging].
  fold (one_node K). rewrite (F 0%nat) by lia. f_equal. rewrite vmult_dir, rhs_eq by reflexivity.
  cbn [operator one_node b_N b_D b_alpha b_dir b_neu s_N s_D s_dir s_n s_have_dirichlet s_direct].
  unfold scale, matvec. cbn [sumn]. unfold compute_alpha, matvec. cbn [sumn]. ring.
Qed.
Theorem C75_tolerance_bounds_the_residual_refuted : forall K, 0 < K -> exists S owns rhs pre sol,
  s_have_dirichlet S = true /\ linear_op (s_n S) (s_N S) /\ linear_op (s_n S) (s_D S) /\ coincidence (s_n S) (s_doubles S) /\
  partition (s_n S) owns /\ (forall i, s_close S (fun _ => None) i = None /\ s_hanging S i = None) /\
  (forall x i, (i < s_n S)%nat -> pre (vmult (operator S) x) i = x i) /\
  solver_accepts S owns rhs pre 1 sol /\ exists i, (i < s_n S)%nat /\ residual S owns rhs sol i = Some K.
Proof.
  intros K HK. exists (one_node K), [fun _ => true], (fun _ => 0), (fun v i => v i / - K), (fun _ => 1).
  split; [reflexivity|]. split; [apply matvec_linear|]. split; [apply matvec_linear|]. split; [exact one_coincidence|].
  split; [intros j Hj; reflexivity|]. split; [intros; split; reflexivity|]. split; [|split].
  - intros x i Hi. cbn in Hi. replace i with 0%nat by lia. rewrite vmult_dir by reflexivity.
    cbn [operator one_node b_N b_D b_alpha b_dir b_neu s_N s_D s_dir]. unfold scale, matvec. cbn [sumn]. unfold compute_alpha, matvec. cbn [sumn]. field. lra.
  - exists (fun _ => K * 1). split; [intros i Hi; now rewrite one_node_residual|]. unfold l2_norm. cbn [one_node s_n sumn].
    replace (0 + K * 1 / - K * (K * 1 / - K)) with 1 by (field; lra). rewrite sqrt_1. lra.
  - exists 0%nat. split; [cbn; lia|]. rewrite one_node_residual by lia. f_equal. ring.
Qed.

(** the residual of any vector is defined when the system has a solution *)
Lemma residual_defined S owns rhs sol' sol : partition (s_n S) owns -> solves S owns rhs sol' -> exists r, forall i, (i < s_n S)%nat -> residual S owns rhs sol i = Some (r i).
Proof.
  intros HP Hs. exists (fun i => match residual S owns rhs sol i with Some v => v | None => 0 end). intros i Hi.
  destruct (proj1 (C75_exact_is_zero_residual S owns rhs sol' HP) Hs) as (_ & Z). specialize (Z i Hi).
  destruct (merge (s_n S) (node_constraints S rhs) (s_hanging S)) as [c|] eqn:Hm; [|unfold solves, all_constraints in Hs; rewrite Hm in Hs; destruct Hs].
  rewrite (residual_row S owns rhs sol' c i HP Hi Hm) in Z. rewrite (residual_row S owns rhs sol c i HP Hi Hm).
  destruct (s_close S c i) as [l|]; [destruct (l_inhom l); [reflexivity|discriminate]|reflexivity].
Qed.
(** Non-vacuity: in the example of C65 (Dirichlet node, coincident Neumann node, hanging node, two processes), a
    vector that is off by 1/10 at the coincident node. *)
Example C75_instance : let S := ex_sys 0 in let x := fun i => if (i =? 1)%nat then 51 / 10 else ex_sol (7 / 2) i in
  s_have_dirichlet S = true /\ linear_op (s_n S) (s_N S) /\ linear_op (s_n S) (s_D S) /\
  coincidence (s_n S) (s_doubles S) /\ partition (s_n S) ex_owns /\ imposed S ex_rhs ex_rhs ex_rhs /\ (0 < s_n S)%nat /\
  (forall c, merge (s_n S) (node_constraints S ex_rhs) (s_hanging S) = Some c -> closes (s_n S) c (s_close S c) /\ resolved (s_n S) (s_close S c)) /\
  solves S ex_owns ex_rhs (ex_sol (7 / 2)) /\
  exists r, (forall i, (i < s_n S)%nat -> residual S ex_owns ex_rhs x i = Some (r i)) /\ r 1%nat = - (1 / 10).
Proof.
  intros S x. destruct (ex_solves 0 (7 / 2) ltac:(unfold ex_sol; cbn; lra)) as (A & B & D & E). fold S in A, B, D, E.
  assert (C := ex_coincidence 0). fold S in C.
  assert (F0 : free_of_doubles S 0) by (left; reflexivity).
  assert (F2 : free_of_doubles S 2) by (split; [intros j [<-|[]]; reflexivity|exists []; reflexivity]).
  assert (Cl : forall c, merge (s_n S) (node_constraints S ex_rhs) (s_hanging S) = Some c -> closes (s_n S) c (s_close S c) /\ resolved (s_n S) (s_close S c)).
  { intros c Hm. split; [exact (B c Hm)|]. change (s_close S c) with c.
    assert (Ec : forall i, c i = match node_constraints S ex_rhs i with Some l => Some l | None => s_hanging S i end).
    { unfold merge in Hm. destruct (existsb _ _); [discriminate|]. injection Hm as <-. reflexivity. }
    assert (N0 : constrained c 0 = false).
    { apply (node_free S ex_rhs C 0 ltac:(cbn; lia)) in F0. unfold constrained in *. rewrite Ec. destruct (node_constraints S ex_rhs 0%nat); [discriminate|reflexivity]. }
    assert (N2 : constrained c 2 = false).
    { apply (node_free S ex_rhs C 2 ltac:(cbn; lia)) in F2. unfold constrained in *. rewrite Ec. destruct (node_constraints S ex_rhs 2%nat); [discriminate|reflexivity]. }
    intros i l e Hi Hl He. rewrite Ec in Hl. destruct (node_line_holds S ex_rhs C i Hi) as [[_ El]|[(_ & f & Hf & El)|[(_ & f & post & Ed & Ne & El)|[(_ & _ & f & _ & _ & El)|(_ & _ & j & pre & post & _ & _ & _ & _ & El)]]]];
      rewrite El in Hl; try (injection Hl as <-; cbn in He; destruct He; fail).
    - cbn [s_hanging S ex_sys] in Hl. destruct (Nat.eqb_spec i 3); [|discriminate]. injection Hl as <-. destruct He as [<-|[<-|[]]]; assumption.
    - injection Hl as <-. destruct He as [<-|[]]. cbn [fst]. cbn [s_doubles S ex_sys] in Ed. destruct (i <? 2)%nat; [injection Ed as <- _; exact N0|]. injection Ed as Ed _. congruence. }
  split; [reflexivity|]. split; [apply matvec_linear|]. split; [apply matvec_linear|]. split; [exact C|]. split; [exact ex_partition|].
  split; [exact E|]. split; [cbn; lia|]. split; [exact Cl|]. split; [exact A|].
  destruct (residual_defined S ex_owns ex_rhs (ex_sol (7 / 2)) x ex_partition A) as (r & Hr). exists r. split; [exact Hr|].
  assert (P := C75_accepted_solution S ex_owns ex_rhs ex_rhs ex_rhs x r eq_refl (matvec_linear _ _) (matvec_linear _ _) C ex_partition E ltac:(cbn; lia) Cl Hr).
  destruct P as (_ & _ & P & _). assert (Fd : first_dirichlet S 1 0) by (exists [], [1%nat]; repeat split; intros j []).
  specialize (P 1%nat 0%nat ltac:(cbn; lia) eq_refl Fd). rewrite (proj1 (solved_at S ex_rhs ex_rhs x 1)) in P. cbn in P. unfold x, ex_rhs in P. cbn in P. lra.
Qed.
