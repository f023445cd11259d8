(** Property theorems C82: the numbering of the unknowns does not matter. *)
From Coq Require Import Reals List Bool Arith Lia Lra Permutation.
From Verif Require Import LibSum ModelBem ProofsBem ModelBc ProofsBc PropBem ModelSolve SpecSolve ProofsSolve PropSolve SpecRenumber.
Import ListNotations.
Local Open Scope R_scope.

Lemma dot3_comm a b : dot3 a b = dot3 b a.
Proof. unfold dot3. apply sumn_ext. intros; ring. Qed.
Lemma this_other n1 n2 s1 s2 : other_normal_gradient n1 n2 s1 s2 = this_normal_gradient n2 n1 s2 s1.
Proof. unfold other_normal_gradient, this_normal_gradient. rewrite (dot3_comm n2 n1). reflexivity. Qed.
Lemma dot3_ext a a' b b' : (forall d, a d = a' d) -> (forall d, b d = b' d) -> dot3 a b = dot3 a' b'.
Proof. intros E F. unfold dot3. apply sumn_ext. intros; rewrite E, F; auto. Qed.
Lemma this_ext a a' b b' s s' t t' : (forall d, a d = a' d) -> (forall d, b d = b' d) -> (forall d, s d = s' d) -> (forall d, t d = t' d) ->
  this_normal_gradient a b s t = this_normal_gradient a' b' s' t'.
Proof. intros A B E F. unfold this_normal_gradient. rewrite (dot3_ext a a' b b'), (dot3_ext t t' a a'), (dot3_ext s s' b b') by auto. reflexivity. Qed.

(** the fluxes at an edge or vertex do not depend on which node is listed first *)
Lemma pair_flux S rhs phi dphi a b : coincidence (s_n S) (s_doubles S) -> regular S rhs -> discrete_problem S rhs phi dphi -> s_cont S = true ->
  (a < s_n S)%nat -> In b (s_doubles S a) -> a <> b -> s_dir S a = true -> s_dir S b = true ->
  this_normal_gradient (s_normal S a) (s_normal S b) (s_sgrad S rhs a) (s_sgrad S rhs b) = Some (dphi a).
Proof.
  intros C G (_ & _ & _ & E4 & E5 & _) Hc Ha Hb Ne Da Db.
  destruct (first_cases S C a Ha) as [(f & Hf)|(N & _)]; [|rewrite (N b Hb) in Db; discriminate].
  destruct (first_D_facts S C a f Ha Hf) as (Df & If & Lf & Ef).
  destruct (Nat.eq_dec a f) as [<-|Nf].
  - assert (Hf' := Hf). destruct Hf' as (pre & post & E & _ & Bp).
    assert (Ib : In b post). { rewrite E in Hb. apply in_app_or in Hb. destruct Hb as [Hb|[Hb|Hb]]; auto; [rewrite (Bp b Hb) in Db; discriminate|congruence]. }
    destruct (last_dir (kdata S rhs) post) as [j|] eqn:Lst.
    2:{ assert (Lst2 := proj1 (last_dir_none S rhs post) Lst). rewrite (Lst2 b Ib) in Db. discriminate. }
    destruct (proj1 (last_dir_some S rhs post j) Lst) as (p1 & p2 & Ep & Dj & Bj). assert (ND := proj2 (proj2 C) a Ha). rewrite E, Ep in ND.
    assert (Nj : j <> a). { intros ->. apply NoDup_remove_2 in ND. apply ND. apply in_or_app. right. apply in_or_app. right. left. auto. }
    assert (Ij : In j (s_doubles S a)) by (rewrite E, Ep; apply in_or_app; right; right; apply in_or_app; right; left; auto).
    rewrite (rg_flux S rhs G Hc a b j) by auto.
    apply (E5 Hc a j (pre ++ a :: p1) p2); auto. rewrite E, Ep, <- app_assoc. reflexivity.
  - rewrite (rg_flux S rhs G Hc a b f) by auto. rewrite <- this_other. apply E4; auto.
Qed.

Section Transfer.
  Variables (pi rho : nat -> nat) (S S' : system) (rhs rhs' : vec).
  Hypothesis RN : renumbered pi rho S S' rhs rhs'.
  Let n := s_n S.

  Lemma pi_lt i : (i < n)%nat -> (pi i < n)%nat.
  Proof. intros Hi. apply (rn_bij _ _ _ _ _ _ RN i Hi). Qed.
  Lemma rho_lt i : (i < n)%nat -> (rho i < n)%nat.
  Proof. intros Hi. apply (rn_bij _ _ _ _ _ _ RN i Hi). Qed.
  Lemma rho_pi i : (i < n)%nat -> rho (pi i) = i.
  Proof. intros Hi. apply (rn_bij _ _ _ _ _ _ RN i Hi). Qed.
  Lemma pi_rho i : (i < n)%nat -> pi (rho i) = i.
  Proof. intros Hi. apply (rn_bij _ _ _ _ _ _ RN i Hi). Qed.

  Lemma renumbered_sym : (forall i l, (i < n)%nat -> s_hanging S i = Some l -> forall e, In e (l_entries l) -> (fst e < n)%nat) ->
    linear_op n (s_N S) -> linear_op n (s_D S) -> renumbered rho pi S' S rhs' rhs.
  Proof.
    intros HE LN LD. assert (En := rn_n _ _ _ _ _ _ RN). constructor.
    - auto.
    - rewrite En. intros i Hi. destruct (rn_bij _ _ _ _ _ _ RN i Hi) as (A & B & D & E). auto.
    - rewrite En. intros i Hi. rewrite (rn_dir _ _ _ _ _ _ RN) by (apply rho_lt; auto). rewrite pi_rho; auto.
    - symmetry. apply RN.
    - rewrite En. intros i k Hi Hk. rewrite (rn_dbl _ _ _ _ _ _ RN) by (apply rho_lt; auto). rewrite !pi_rho by auto. tauto.
    - rewrite En. intros i d Hi. rewrite (rn_normal _ _ _ _ _ _ RN) by (apply rho_lt; auto). rewrite pi_rho; auto.
    - rewrite En. intros i d Hi. rewrite (rn_sgrad _ _ _ _ _ _ RN) by (apply rho_lt; auto). rewrite pi_rho; auto.
    - symmetry. apply RN.
    - rewrite En. intros i Hi. assert (X := rn_hang _ _ _ _ _ _ RN (rho i) (rho_lt i Hi)). rewrite pi_rho in X by auto.
      specialize (HE i). unfold renamed_line in *. destruct (s_hanging S i) as [a|], (s_hanging S' (rho i)) as [c|]; auto.
      destruct X as (X1 & X2 & X3). split; [auto|]. split; [|intros e He; apply (HE a Hi eq_refl e He)].
      apply (Permutation_map (fun e => (rho (fst e), snd e))) in X2. rewrite map_map in X2. cbn in X2.
      rewrite <- X2. erewrite map_ext_in; [rewrite map_id; reflexivity|]. intros [u v] Hu. cbn. rewrite rho_pi; auto. apply (X3 _ Hu).
    - rewrite En. intros x x' i Hi Ex. rewrite <- (pi_rho i Hi) at 1. symmetry. apply (rn_N _ _ _ _ _ _ RN); [apply rho_lt; auto|].
      intros k Hk. rewrite Ex by (apply pi_lt; auto). rewrite rho_pi; auto.
    - rewrite En. intros x x' i Hi Ex. rewrite <- (pi_rho i Hi) at 1. symmetry. apply (rn_D _ _ _ _ _ _ RN); [apply rho_lt; auto|].
      intros k Hk. rewrite Ex by (apply pi_lt; auto). rewrite rho_pi; auto.
    - rewrite En. intros i Hi. rewrite (rn_rhs _ _ _ _ _ _ RN) by (apply rho_lt; auto). rewrite pi_rho; auto.
  Qed.

  Hypothesis C : coincidence (s_n S) (s_doubles S).
  Hypothesis C' : coincidence (s_n S') (s_doubles S').

  Lemma hang_iff i : (i < n)%nat -> constrained (s_hanging S') i = constrained (s_hanging S) (pi i).
  Proof.
    intros Hi. assert (X := rn_hang _ _ _ _ _ _ RN i Hi). unfold constrained. unfold renamed_line in X.
    destruct (s_hanging S (pi i)), (s_hanging S' i); tauto.
  Qed.
  Lemma dbl_to i k : (i < n)%nat -> In k (s_doubles S' i) -> (k < n)%nat /\ In (pi k) (s_doubles S (pi i)).
  Proof.
    intros Hi Hk. assert (Lk : (k < n)%nat). { unfold n. rewrite <- (rn_n _ _ _ _ _ _ RN). apply (proj1 (proj2 C') i k); auto. rewrite (rn_n _ _ _ _ _ _ RN). auto. }
    split; auto. apply (rn_dbl _ _ _ _ _ _ RN); auto.
  Qed.
  Lemma dbl_from i j : (i < n)%nat -> In j (s_doubles S (pi i)) -> (j < n)%nat /\ In (rho j) (s_doubles S' i).
  Proof.
    intros Hi Hj. assert (Lj : (j < n)%nat) by (apply (proj1 (proj2 C) (pi i) j); auto; apply pi_lt; auto).
    split; auto. apply (rn_dbl _ _ _ _ _ _ RN); auto; [apply rho_lt; auto|]. rewrite pi_rho; auto.
  Qed.

  Lemma regular_to : regular S rhs -> regular S' rhs'.
  Proof.
    intros G. assert (En := rn_n _ _ _ _ _ _ RN). constructor.
    - rewrite En. intros i j Hi Hj x. destruct (dbl_to i j Hi Hj) as (Lj & Ij).
      destruct (rg_rows S rhs G (pi i) (pi j) (pi_lt i Hi) Ij (fun k => x (rho k))) as [A B].
      assert (Ex : forall k, (k < n)%nat -> x k = (fun k => x (rho k)) (pi k)) by (intros k Hk; cbn; rewrite rho_pi; auto).
      rewrite !(rn_N _ _ _ _ _ _ RN (fun k => x (rho k)) x), !(rn_D _ _ _ _ _ _ RN (fun k => x (rho k)) x) by auto. auto.
    - rewrite En. intros i j Hi Hj Di Dj. destruct (dbl_to i j Hi Hj) as (Lj & Ij). rewrite !(rn_rhs _ _ _ _ _ _ RN) by auto.
      rewrite (rn_dir _ _ _ _ _ _ RN) in Di, Dj by auto. apply (rg_data S rhs G); auto. apply pi_lt; auto.
    - rewrite En. rewrite (rn_cont _ _ _ _ _ _ RN). intros Hc i j k Hi Hj Hk Nj Nk Di Dj Dk. destruct (dbl_to i j Hi Hj) as (Lj & Ij). destruct (dbl_to i k Hi Hk) as (Lk & Ik).
      rewrite (rn_dir _ _ _ _ _ _ RN) in Di, Dj, Dk by auto.
      assert (Inj : forall u v, (u < n)%nat -> (v < n)%nat -> u <> v -> pi u <> pi v) by (intros u v Hu Hv N E; apply N; rewrite <- (rho_pi u Hu), <- (rho_pi v Hv), E; auto).
      assert (T := fun u v (Hu : (u < n)%nat) (Hv : (v < n)%nat) => this_ext (s_normal S' u) (s_normal S (pi u)) (s_normal S' v) (s_normal S (pi v)) (s_sgrad S' rhs' u) (s_sgrad S rhs (pi u)) (s_sgrad S' rhs' v) (s_sgrad S rhs (pi v))
        (fun d => rn_normal _ _ _ _ _ _ RN u d Hu) (fun d => rn_normal _ _ _ _ _ _ RN v d Hv) (fun d => rn_sgrad _ _ _ _ _ _ RN u d Hu) (fun d => rn_sgrad _ _ _ _ _ _ RN v d Hv)).
      rewrite (T i j Hi Lj), (T i k Hi Lk). apply (rg_flux S rhs G Hc); auto. apply pi_lt; auto.
    - rewrite En. intros i j Hi Hx Hj. destruct (dbl_to i j Hi Hj) as (Lj & Ij). rewrite hang_iff in Hx by auto.
      assert (E := rg_hang S rhs G (pi i) (pi j) (pi_lt i Hi) Hx Ij). rewrite <- (rho_pi i Hi), <- (rho_pi j Lj), E. auto.
  Qed.

  Lemma problem_to phi dphi phi' dphi' : linear_op n (s_N S) -> regular S rhs ->
    (forall i, (i < n)%nat -> phi' i = phi (pi i)) -> (forall i, (i < n)%nat -> dphi' i = dphi (pi i)) ->
    discrete_problem S rhs phi dphi -> discrete_problem S' rhs' phi' dphi'.
  Proof.
    intros LN G Ep Ed P. assert (En := rn_n _ _ _ _ _ _ RN). assert (Dir := rn_dir _ _ _ _ _ _ RN). assert (Hcont := rn_cont _ _ _ _ _ _ RN).
    assert (Flux := fun a b => pair_flux S rhs phi dphi a b C G P).
    destruct P as (E1 & E2 & E3 & _ & _ & E6).
    unfold discrete_problem, discrete_problem_with. rewrite En, Hcont.
    assert (Neu : forall i, (i < n)%nat -> neumann_group S' i -> neumann_group S (pi i)).
    { intros i Hi N j Hj. destruct (dbl_from i j Hi Hj) as (Lj & Ij). specialize (N _ Ij). rewrite Dir in N by (apply rho_lt; auto). rewrite pi_rho in N; auto. }
    assert (Same : forall q e post, (q < n)%nat -> neumann_group S q -> s_doubles S q = e :: post -> phi q = phi e) by (intros; eapply E3; eauto).
    assert (Flux' : s_cont S = true -> forall i k, (i < n)%nat -> In k (s_doubles S' i) -> i <> k -> s_dir S' i = true -> s_dir S' k = true ->
      this_normal_gradient (s_normal S' i) (s_normal S' k) (s_sgrad S' rhs' i) (s_sgrad S' rhs' k) = Some (dphi' i)).
    { intros Hc i k Hi Hk Ne Di Dk. destruct (dbl_to i k Hi Hk) as (Lk & Ik). rewrite Dir in Di, Dk by auto. rewrite Ed by auto.
      rewrite <- (Flux (pi i) (pi k)); auto; [|apply pi_lt; auto|intros E; apply Ne; rewrite <- (rho_pi i Hi), <- (rho_pi k Lk), E; auto].
      apply this_ext; intros d; first [apply (rn_normal _ _ _ _ _ _ RN)|apply (rn_sgrad _ _ _ _ _ _ RN)]; auto. }
    split; [|split; [|split; [|split; [|split]]]].
    - intros i Hi (Eh & Ef). unfold bie_row.
      rewrite (rn_N _ _ _ _ _ _ RN phi phi' i Hi Ep), (rn_D _ _ _ _ _ _ RN dphi dphi' i Hi Ed), (rn_N _ _ _ _ _ _ RN (fun _ => 1) (fun _ => 1) i Hi ltac:(auto)), (Ep i Hi).
      change (bie_row S phi dphi (pi i)). set (q := pi i). assert (Lq : (q < n)%nat) by (apply pi_lt; auto).
      rewrite (hang_iff i Hi) in Eh. fold q in Eh. unfold free_of_doubles in Ef. rewrite (Dir i Hi) in Ef. fold q in Ef. destruct (s_dir S q) eqn:Dq.
      + apply E1; auto. split; auto. unfold free_of_doubles. rewrite Dq. rewrite Hcont in Ef. destruct Ef as [Ef|Ef]; [auto|right].
        intros (j & Ij & Nj & Dj). apply Ef. destruct (dbl_from i j Hi Ij) as (Lj & Ij'). exists (rho j). split; auto.
        split; [intros X; apply Nj; unfold q; rewrite <- X, pi_rho; auto|]. rewrite Dir by (apply rho_lt; auto). rewrite pi_rho; auto.
      + destruct Ef as (N & _). assert (NS := Neu i Hi N). fold q in NS.
        destruct (first_cases S C q Lq) as [(f & Hf)|(_ & e & post & Ee)].
        { destruct (first_D_facts S C q f Lq Hf) as (Df & If & _). rewrite (NS f If) in Df. discriminate. }
        assert (Ie : In e (s_doubles S q)) by (rewrite Ee; left; auto). destruct (proj1 (proj2 C) q e Lq Ie) as (Le & Ede).
        assert (Eq : equation_node S e).
        { split.
          - destruct (constrained (s_hanging S) e) eqn:Hx; auto. assert (q = e) by (apply (rg_hang S rhs G e q Le Hx); rewrite Ede; apply C; auto). congruence.
          - unfold free_of_doubles. rewrite (NS e Ie). split; [unfold neumann_group; rewrite Ede; exact NS|exists post; rewrite Ede; exact Ee]. }
        assert (B := E1 e Le Eq). unfold bie_row in *. rewrite (Same q e post Lq NS Ee).
        destruct (rg_rows S rhs G q e Lq Ie phi) as [R1 _], (rg_rows S rhs G q e Lq Ie dphi) as [_ R2], (rg_rows S rhs G q e Lq Ie (fun _ => 1)) as [R3 _].
        rewrite R1, R2, R3. exact B.
    - intros i f' Hi Di Hf'. assert (Hi' : (i < s_n S')%nat) by (rewrite En; auto). destruct (first_D_facts S' C' i f' Hi' Hf') as (Df & If & _).
      destruct (dbl_to i f' Hi If) as (Lf & Jf). rewrite Ep, (rn_rhs _ _ _ _ _ _ RN) by auto. rewrite Dir in Di, Df by auto.
      destruct (first_cases S C (pi i) (pi_lt i Hi)) as [(f & Hf)|(N & _)]; [|rewrite (N _ Jf) in Df; discriminate].
      rewrite (E2 (pi i) f (pi_lt i Hi) Di Hf). destruct (first_D_facts S C (pi i) f (pi_lt i Hi) Hf) as (Dff & Iff & Lff & Eff).
      apply (rg_data S rhs G); auto. rewrite Eff. auto.
    - intros i f' post Hi N Ef. assert (If : In f' (s_doubles S' i)) by (rewrite Ef; left; auto). destruct (dbl_to i f' Hi If) as (Lf & Jf).
      rewrite !Ep by auto. assert (NS := Neu i Hi N).
      destruct (first_cases S C (pi i) (pi_lt i Hi)) as [(f & Hf)|(_ & e & p & Ee)].
      { destruct (first_D_facts S C (pi i) f (pi_lt i Hi) Hf) as (Df & Iff & _). rewrite (NS f Iff) in Df. discriminate. }
      rewrite (Same (pi i) e p (pi_lt i Hi) NS Ee). symmetry. destruct (proj1 (proj2 C) (pi i) (pi f') (pi_lt i Hi) Jf) as (_ & Edd).
      apply (Same (pi f') e p); [apply pi_lt; auto|unfold neumann_group; rewrite Edd; exact NS|rewrite Edd; exact Ee].
    - intros Hc i f' Hi Di Hf' Ne. assert (Hi' : (i < s_n S')%nat) by (rewrite En; auto). destruct (first_D_facts S' C' i f' Hi' Hf') as (Df & If & _).
      rewrite this_other. apply Flux'; auto.
    - intros Hc i j pre post Hi Hf Ej Dj Ne _. assert (Hi' : (i < s_n S')%nat) by (rewrite En; auto). destruct (first_D_facts S' C' i i Hi' Hf) as (Di & _).
      apply Flux'; auto. rewrite Ej. apply in_elt.
    - intros h l Hh Hl. assert (X := rn_hang _ _ _ _ _ _ RN h Hh). rewrite Hl in X. destruct (s_hanging S (pi h)) as [a|] eqn:Ea; [|destruct X].
      destruct X as (X1 & X2 & X3). destruct (E6 (pi h) a (pi_lt h Hh) Ea) as (v & Ev & Es). exists v. split; [congruence|].
      assert (U : forall k, (k < n)%nat -> unknown S' phi' dphi' k = unknown S phi dphi (pi k)) by (intros k Hk; unfold unknown; rewrite Dir, Ep, Ed by auto; reflexivity).
      rewrite (U h Hh), Es. f_equal. rewrite <- (suml_perm _ _ _ X2), suml_map. apply suml_ext. intros e He. cbn [fst snd]. rewrite U; auto.
  Qed.

  Lemma hanging_free : regular S rhs -> forall i, (i < s_n S)%nat -> constrained (s_hanging S) i = true -> free_of_doubles S i.
  Proof.
    intros G i Hi Hx. unfold free_of_doubles. destruct (s_dir S i) eqn:D.
    - right. intros (j & Ij & Nj & _). apply Nj. apply (rg_hang S rhs G i j); auto.
    - split; [intros j Hj; rewrite (rg_hang S rhs G i j Hi Hx Hj); auto|].
      assert (Ii := proj1 C i Hi). destruct (s_doubles S i) as [|a l] eqn:E; [destruct Ii|]. assert (a = i) by (apply (rg_hang S rhs G i a Hi Hx); rewrite E; left; auto). subst. eauto.
  Qed.
End Transfer.

(** C82.  Renumber the unknowns of a problem and distribute them over any number of processes: the solutions are the
    same, node by node. *)
Theorem C82_numbering_and_distribution_do_not_matter : forall pi rho S S' owns owns' rhs rhs' sol sol',
  renumbered pi rho S S' rhs rhs' -> regular S rhs ->
  s_have_dirichlet S = true -> linear_op (s_n S) (s_N S) -> linear_op (s_n S) (s_D S) -> linear_op (s_n S') (s_N S') -> linear_op (s_n S') (s_D S') ->
  coincidence (s_n S) (s_doubles S) -> coincidence (s_n S') (s_doubles S') -> partition (s_n S) owns -> partition (s_n S') owns' ->
  (forall i l e, (i < s_n S)%nat -> s_hanging S i = Some l -> In e (l_entries l) -> (fst e < s_n S)%nat) ->
  (forall c, merge (s_n S) (node_constraints S rhs) (s_hanging S) = Some c -> closes (s_n S) c (s_close S c)) ->
  (forall c, merge (s_n S') (node_constraints S' rhs') (s_hanging S') = Some c -> closes (s_n S') c (s_close S' c)) ->
  (forall i, (i < s_n S)%nat -> sol' i = sol (pi i)) ->
  (solves S owns rhs sol <-> solves S' owns' rhs' sol').
Proof.
  intros pi rho S S' owns owns' rhs rhs' sol sol' RN G Hh LN LD LN' LD' C C' HP HP' HE Hcl Hcl' Es.
  assert (RN' := renumbered_sym pi rho S S' rhs rhs' RN (fun i l Hi Hl e He => HE i l e Hi Hl He) LN LD).
  assert (G' := regular_to pi rho S S' rhs rhs' RN C' G). assert (En := rn_n _ _ _ _ _ _ RN).
  assert (Im : imposed S rhs rhs rhs) by (intros i Hi; destruct (s_dir S i); auto).
  assert (Im' : imposed S' rhs' rhs' rhs') by (intros i Hi; destruct (s_dir S' i); auto).
  rewrite (C65_solve_system S owns rhs rhs rhs sol Hh LN LD C HP Im Hcl).
  rewrite (C65_solve_system S' owns' rhs' rhs' rhs' sol' ltac:(rewrite (rn_have _ _ _ _ _ _ RN); auto) LN' LD' C' HP' Im' Hcl').
  assert (Ep : forall i, (i < s_n S)%nat -> solved_phi S' rhs' sol' i = solved_phi S rhs sol (pi i)).
  { intros i Hi. rewrite (proj1 (solved_at S' rhs' rhs' sol' i)), (proj1 (solved_at S rhs rhs sol (pi i))), (rn_dir _ _ _ _ _ _ RN), (rn_rhs _ _ _ _ _ _ RN), Es by auto. reflexivity. }
  assert (Ed : forall i, (i < s_n S)%nat -> solved_dphi S' rhs' sol' i = solved_dphi S rhs sol (pi i)).
  { intros i Hi. rewrite (proj2 (solved_at S' rhs' rhs' sol' i)), (proj2 (solved_at S rhs rhs sol (pi i))), (rn_dir _ _ _ _ _ _ RN), (rn_rhs _ _ _ _ _ _ RN), Es by auto. reflexivity. }
  split; intros (_ & P).
  - split; [apply (hanging_free S' rhs' C' G')|]. eapply problem_to; eauto.
  - split; [apply (hanging_free S rhs C G)|].
    apply (problem_to rho pi S' S rhs' rhs RN' C' C (solved_phi S' rhs' sol') (solved_dphi S' rhs' sol')); auto; rewrite En; intros i Hi.
    + rewrite Ep by (apply (rho_lt pi rho S S' rhs rhs' RN); auto). rewrite (pi_rho pi rho S S' rhs rhs' RN); auto.
    + rewrite Ed by (apply (rho_lt pi rho S S' rhs rhs' RN); auto). rewrite (pi_rho pi rho S S' rhs rhs' RN); auto.
Qed.
