(** Property theorems C81: coincident nodes have the same equation. *)
From Coq Require Import Reals List Bool Arith Lia Lra QArith.
From Verif Require Import ModelOctree ModelFmm ModelAssemble ModelRules ModelFloat ProofsBit ProofsRndDirect.
From Verif Require Import LibSum LibLinAlg ModelBem ProofsBem ModelBc ProofsBc PropBem ModelSolve SpecSolve ProofsSolve PropSolve SpecRenumber.
From Verif Require ModelKernel.
Import ListNotations.
Local Open Scope R_scope.

(** ** Rows *)
Lemma first_in_ext a b l k : (forall d, In d a <-> In d b) -> ModelAssemble.first_in a l k = ModelAssemble.first_in b l k.
Proof.
  intros E. revert k. induction l as [|d l IH]; intros k; cbn; auto.
  assert (mem d a = mem d b) as ->; [|rewrite IH; reflexivity].
  unfold mem. destruct (existsb (Nat.eqb d) a) eqn:A, (existsb (Nat.eqb d) b) eqn:B; auto; exfalso.
  - apply existsb_exists in A as (x & Hx & Ex). apply Nat.eqb_eq in Ex. subst x. apply E in Hx.
    assert (existsb (Nat.eqb d) b = true) by (apply existsb_exists; exists d; split; auto; apply Nat.eqb_refl). congruence.
  - apply existsb_exists in B as (x & Hx & Ex). apply Nat.eqb_eq in Ex. subst x. apply E in Hx.
    assert (existsb (Nat.eqb d) a = true) by (apply existsb_exists; exists d; split; auto; apply Nat.eqb_refl). congruence.
Qed.
Lemma fold_ext {A B} (f g : A -> B -> A) l : (forall a b, In b l -> f a b = g a b) -> forall a, fold_left f l a = fold_left g l a.
Proof. intros E. induction l as [|x l IH]; intros a; cbn; auto. rewrite E by (left; auto). apply IH. intros; apply E; right; auto. Qed.

(** In every arithmetic: two nodes with the same coincident nodes and the same kernel values get the same matrix row,
    whichever processes own them. *)
Theorem C81_same_row : forall (A : arith) I K T owned owned' i j d,
  (i < o_nd I)%nat -> (j < o_nd I)%nat -> owned i = true -> owned' j = true ->
  (forall m, In m (o_dbl I i) <-> In m (o_dbl I j)) -> (forall q, kd K i q = kd K j q) ->
  (forall c idx q, sr_kernel T i c idx q = sr_kernel T j c idx q) ->
  @entry A (@assemble_adds A I K T owned) i d = @entry A (@assemble_adds A I K T owned') j d.
Proof.
  intros A I K T owned owned' i j d Hi Hj Oi Oj Ed Ek Et. rewrite !entry_rows by auto.
  apply fold_ext. intros a c _.
  assert (L : forall k, @local_row A I K T i c k = @local_row A I K T j c k).
  { intros k. unfold local_row. assert (singular_index I i c = singular_index I j c) as -> by (apply (first_in_ext _ _ _ 0%nat); auto).
    destruct (singular_index I j c).
    - unfold singular_row. apply fold_ext. intros b q _. rewrite Et. reflexivity.
    - apply fold_ext. intros b q _. rewrite Ek. reflexivity. }
  revert a. induction (seq 0 (length (o_cdofs I c))) as [|k l IH]; intros a; [reflexivity|]. cbn [map fold_left]. rewrite IH. f_equal.
  unfold ent_step. cbn [fst snd]. rewrite !Nat.eqb_refl, L. reflexivity.
Qed.
(** Nodes at the same point have the same rows of both matrices, in exact and in every rounded arithmetic. *)
Theorem C81_nodes_at_one_point : forall (F : flops) dim m I node P Sg owned owned' i j d,
  (i < o_nd I)%nat -> (j < o_nd I)%nat -> owned i = true -> owned' j = true ->
  (forall k, In k (o_dbl I i) <-> In k (o_dbl I j)) -> node i = node j ->
  stored dim m I node P Sg owned i d = stored dim m I node P Sg owned' j d /\
  fstored dim m I node P Sg owned i d = fstored dim m I node P Sg owned' j d.
Proof.
  intros F dim m I node P Sg owned owned' i j d Hi Hj Oi Oj Ed En. split; apply C81_same_row; auto; cbn; intros; rewrite En; reflexivity.
Qed.
Theorem C81_products_at_one_point : forall dim m I node P Sg owned owned' i j v,
  (i < o_nd I)%nat -> (j < o_nd I)%nat -> owned i = true -> owned' j = true ->
  (forall k, In k (o_dbl I i) <-> In k (o_dbl I j)) -> node i = node j ->
  stored_vmult dim m I node P Sg owned v i = stored_vmult dim m I node P Sg owned' v j.
Proof.
  intros. unfold stored_vmult, direct_vmult. apply fold_ext. intros a d _.
  rewrite (C81_same_row exact_arith I (regular_kern dim m node P) (rule_at dim m node Sg) owned owned' i j d); auto; cbn; intros; congruence.
Qed.

(** ** The linear system *)

(** With one normal gradient per edge imposed ("Continuos gradient across edges"), at most one node of every group of
    coincident nodes keeps its integral equation. *)
Theorem C81_one_equation_per_point : forall S i j, coincidence (s_n S) (s_doubles S) -> s_cont S = true ->
  (i < s_n S)%nat -> In j (s_doubles S i) -> equation_node S i -> equation_node S j -> i = j.
Proof.
  intros S i j C Hc Hi Hj (_ & Ei) (_ & Ej). destruct (Nat.eq_dec i j) as [|Ne]; auto. exfalso.
  destruct (proj1 (proj2 C) i j Hi Hj) as [Lj Edj]. assert (Hij : In i (s_doubles S j)) by (rewrite Edj; apply C; auto).
  unfold free_of_doubles in Ei, Ej. destruct (s_dir S i) eqn:Di, (s_dir S j) eqn:Dj.
  - destruct Ei as [Ei|Ei]; [congruence|]. apply Ei. exists j. auto.
  - destruct Ej as (N & _). rewrite (N i Hij) in Di. discriminate.
  - destruct Ei as (N & _). rewrite (N j Hj) in Dj. discriminate.
  - destruct Ei as (_ & p & E1), Ej as (_ & p' & E2). rewrite Edj, E1 in E2. congruence.
Qed.

Section Singular.
  Variables (S : system) (owns : list (nat -> bool)) (rhs : vec) (i j : nat).
  Hypothesis Hh : s_have_dirichlet S = true.
  Hypothesis LN : linear_op (s_n S) (s_N S).
  Hypothesis LD : linear_op (s_n S) (s_D S).
  Hypothesis C : coincidence (s_n S) (s_doubles S).
  Hypothesis HP : partition (s_n S) owns.
  Hypothesis Hcl : forall c, merge (s_n S) (node_constraints S rhs) (s_hanging S) = Some c -> closes (s_n S) c (s_close S c).
  Hypothesis Hi : (i < s_n S)%nat.
  Hypothesis Hj : (j < s_n S)%nat.
  Hypothesis Ne : i <> j.
  Hypothesis Ei : equation_node S i.
  Hypothesis Ej : equation_node S j.
  Hypothesis Di : s_dir S i = true.
  Hypothesis Dj : s_dir S j = true.
  Hypothesis Rows : same_rows S i j.

  Let b := operator S.
  Let row (c : constraints) (x : vec) (m : nat) : R :=
    match c m with None => vmult b x m | Some l => x m - suml (l_entries l) (fun e => snd e * x (fst e)) end.
  Let basis (k : nat) : vec := fun l => if Nat.eqb l k then 1 else 0.

  Lemma row_comb c s t x y m : (m < s_n S)%nat -> row c (fun k => s * x k + t * y k) m = s * row c x m + t * row c y m.
  Proof.
    intros Hm. unfold row. destruct (c m) as [l|].
    - assert (E : suml (l_entries l) (fun e => snd e * (s * x (fst e) + t * y (fst e))) = s * suml (l_entries l) (fun e => snd e * x (fst e)) + t * suml (l_entries l) (fun e => snd e * y (fst e))).
      { rewrite <- !suml_scal, <- suml_plus. apply suml_ext. intros; ring. }
      rewrite E. ring.
    - apply (vmult_linear b); auto.
  Qed.
  Lemma row_ext c x y m : (m < s_n S)%nat -> (forall k, x k = y k) -> row c x m = row c y m.
  Proof.
    intros Hm E. unfold row. destruct (c m) as [l|].
    - rewrite E. f_equal. apply suml_ext. intros; rewrite E; auto.
    - unfold b. rewrite !vmult_dir by auto. cbn [operator b_D b_N b_dir b_neu b_alpha b_n].
      rewrite (proj2 (proj2 LN) _ (scale y (b_neu b))), (proj2 (proj2 LD) _ (scale y (b_dir b))), E by (auto; intros; unfold scale; rewrite E; auto). reflexivity.
  Qed.
  Lemma row_sum c L z m : (m < s_n S)%nat -> NoDup L -> (forall l, ~ In l L -> z l = 0) -> row c z m = suml L (fun l => row c (basis l) m * z l).
  Proof.
    intros Hm. revert z. induction L as [|p L IH]; intros z ND Hz.
    - cbn. rewrite (row_ext c z (fun k => 0 * z k + 0 * z k) m Hm) by (intros k; rewrite (Hz k) by (intros []); lra). rewrite row_comb by auto. lra.
    - inversion ND as [|? ? NI ND']. subst.
      set (w := fun l => if Nat.eqb l p then 0 else z l).
      rewrite (row_ext c z (fun k => z p * basis p k + 1 * w k) m Hm).
      2:{ intros k. unfold basis, w. destruct (Nat.eqb_spec k p) as [->|]; lra. }
      rewrite row_comb by auto. rewrite (IH w ND').
      2:{ intros l Hl. unfold w. destruct (Nat.eqb_spec l p); auto. apply Hz. intros [->|X]; auto. }
      cbn [suml]. change (suml (p :: L) ?f) with (f p + suml L f). cbv beta. rewrite Rmult_comm. f_equal. rewrite Rmult_1_l. apply suml_ext.
      intros l Hl. unfold w. destruct (Nat.eqb_spec l p) as [->|]; auto. tauto.
  Qed.
  Lemma rows_same_value c x : c i = None -> c j = None -> row c x i = row c x j.
  Proof.
    intros Ni Nj. unfold row. rewrite Ni, Nj. unfold b. rewrite !vmult_dir by auto. cbn [operator b_D b_N b_dir b_neu b_alpha b_n].
    rewrite Di, Dj. destruct (Rows (scale x (b_neu b))) as [A _], (Rows (scale x (b_dir b))) as [_ B].
    cbn [b operator b_neu b_dir] in A, B. rewrite A, B. lra.
  Qed.
  Lemma eq_free c : merge (s_n S) (node_constraints S rhs) (s_hanging S) = Some c -> forall m, (m < s_n S)%nat -> equation_node S m -> c m = None.
  Proof.
    intros Hm m Lm (E1 & E2). unfold merge in Hm. destruct (existsb _ _); [discriminate|]. injection Hm as <-.
    apply (node_free S rhs C m Lm) in E2. unfold constrained in *. destruct (node_constraints S rhs m); [discriminate|]. destruct (s_hanging S m); [discriminate|auto].
  Qed.
  Lemma singular_core :
    exists z, (exists k, (k < s_n S)%nat /\ z k <> 0) /\ forall sol t, solves S owns rhs sol -> solves S owns rhs (fun k => sol k + t * z k).
  Proof.
    destruct (merge (s_n S) (node_constraints S rhs) (s_hanging S)) as [c|] eqn:Hm.
    2:{ exists (fun _ => 1). split; [exists i; split; auto; lra|]. intros sol t X. unfold solves, all_constraints in X. rewrite Hm in X. destruct X. }
    assert (Ni := eq_free c Hm i Hi Ei). assert (Nj := eq_free c Hm j Hj Ej).
    set (L := seq 0 (s_n S)). assert (ND : NoDup L) by apply seq_NoDup.
    assert (Inj : In j L) by (apply in_seq; lia).
    destruct (in_split _ _ Inj) as (L1 & L2 & EL).
    destruct (nonzero_solution (map (fun m l => row c (basis l) m) (L1 ++ L2)) L ND) as (z & Z1 & (k & Hk & Z2) & Z3).
    { rewrite map_length, EL, !app_length. cbn. lia. }
    assert (Zrow : forall m, (m < s_n S)%nat -> row c z m = 0).
    { assert (O : forall m, (m < s_n S)%nat -> m <> j -> row c z m = 0).
      { intros m Lm Nm. rewrite (row_sum c L z m Lm ND Z1). refine (Z3 _ (in_map (fun m l => row c (basis l) m) _ m _)).
        assert (Im : In m L) by (apply in_seq; lia). rewrite EL in Im. apply in_app_or in Im. apply in_or_app. cbn in Im. intuition congruence. }
      intros m Lm. destruct (Nat.eq_dec m j) as [->|Nm]; auto. rewrite <- (rows_same_value c z Ni Nj). apply O; auto. }
    exists z. split; [exists k; split; auto; apply in_seq in Hk; lia|].
    intros sol t Hs. apply (all_lines S owns rhs _ c HP Hm (Hcl c eq_refl)) in Hs as [A B]. apply (all_lines S owns rhs _ c HP Hm (Hcl c eq_refl)).
    assert (Comb : forall m, (m < s_n S)%nat -> row c (fun k => sol k + t * z k) m = row c sol m).
    { intros m Lm. rewrite (row_ext c _ (fun k => 1 * sol k + t * z k) m Lm) by (intros; lra). rewrite row_comb by auto. rewrite Zrow by auto. lra. }
    split.
    - intros m Lm Nm. rewrite <- A by auto. specialize (Comb m Lm). unfold row in Comb. rewrite Nm in Comb. exact Comb.
    - intros m l Lm Hl. destruct (B m l Lm Hl) as (v & Ev & Es). exists v. split; auto. specialize (Comb m Lm). unfold row in Comb. rewrite Hl in Comb. lra.
  Qed.
End Singular.

(** Without the option, two coincident Dirichlet nodes make the system singular: no solution is unique ... *)
Theorem C81_coincident_dirichlet_nodes_make_the_system_singular : forall S owns rhs i j,
  s_have_dirichlet S = true -> linear_op (s_n S) (s_N S) -> linear_op (s_n S) (s_D S) ->
  coincidence (s_n S) (s_doubles S) -> partition (s_n S) owns ->
  (forall c, merge (s_n S) (node_constraints S rhs) (s_hanging S) = Some c -> closes (s_n S) c (s_close S c)) ->
  s_cont S = false -> (i < s_n S)%nat -> i <> j -> In j (s_doubles S i) -> s_dir S i = true -> s_dir S j = true ->
  s_hanging S i = None -> s_hanging S j = None -> same_rows S i j ->
  (exists z, (exists k, (k < s_n S)%nat /\ z k <> 0) /\ forall sol t, solves S owns rhs sol -> solves S owns rhs (fun k => sol k + t * z k)) /\
  (forall phi0 dphi0 sol, imposed S rhs phi0 dphi0 -> rhs i <> rhs j -> s_N S (fun _ => 1) i <> 0 -> ~ solves S owns rhs sol).
Proof.
  intros S owns rhs i j Hh LN LD C HP Hcl Hc Hi Ne Hj Di Dj Fi Fj Rows.
  assert (Lj := proj1 (proj1 (proj2 C) i j Hi Hj)).
  assert (Ei : equation_node S i) by (split; [unfold constrained; rewrite Fi; auto|unfold free_of_doubles; rewrite Di; auto]).
  assert (Ej : equation_node S j) by (split; [unfold constrained; rewrite Fj; auto|unfold free_of_doubles; rewrite Dj; auto]).
  split; [apply (singular_core S owns rhs i j); auto|].
  intros phi0 dphi0 sol Im Nr N1 Hs. apply (C65_solve_system S owns rhs phi0 dphi0 sol) in Hs as (_ & P & _); auto.
  assert (A := P i Hi Ei). assert (B := P j Lj Ej). unfold bie_row in A, B.
  destruct (Rows (solved_phi S phi0 sol)) as [R1 _], (Rows (solved_dphi S dphi0 sol)) as [_ R2], (Rows (fun _ => 1)) as [R3 _].
  rewrite <- R1, <- R2, <- R3 in B.
  rewrite (proj1 (solved_at S phi0 dphi0 sol i)), Di in A. rewrite (proj1 (solved_at S phi0 dphi0 sol j)), Dj in B.
  assert (I1 := Im i Hi). assert (I2 := Im j Lj). rewrite Di in I1. rewrite Dj in I2. rewrite I1 in A. rewrite I2 in B.
  apply N1. apply (Rmult_eq_reg_l (rhs i - rhs j)); lra.
Qed.

(** In a solution the integral equation holds at every node that coincides with an equation node: it does not matter
    which of the coincident nodes carries it. *)
Theorem C81_equation_at_every_coincident_node : forall S owns rhs phi0 dphi0 sol,
  s_have_dirichlet S = true -> linear_op (s_n S) (s_N S) -> linear_op (s_n S) (s_D S) ->
  coincidence (s_n S) (s_doubles S) -> partition (s_n S) owns -> imposed S rhs phi0 dphi0 ->
  (forall c, merge (s_n S) (node_constraints S rhs) (s_hanging S) = Some c -> closes (s_n S) c (s_close S c)) ->
  (forall i j, (i < s_n S)%nat -> In j (s_doubles S i) -> s_dir S i = true -> s_dir S j = true -> rhs i = rhs j) ->
  solves S owns rhs sol -> forall i j, (i < s_n S)%nat -> equation_node S i -> In j (s_doubles S i) -> same_rows S i j ->
  bie_row S (solved_phi S phi0 sol) (solved_dphi S dphi0 sol) j.
Proof.
  intros S owns rhs phi0 dphi0 sol Hh LN LD C HP Him Hcl Hr Hs i j Hi Ei Hj Rows.
  assert (Cont := C65_potential_is_continuous S owns rhs phi0 dphi0 sol Hh LN LD C HP Him Hcl Hs Hr i j Hi Hj).
  apply (C65_solve_system S owns rhs phi0 dphi0 sol) in Hs as (_ & P & _); auto. assert (A := P i Hi Ei). unfold bie_row in *.
  destruct (Rows (solved_phi S phi0 sol)) as [R1 _], (Rows (solved_dphi S dphi0 sol)) as [_ R2], (Rows (fun _ => 1)) as [R3 _].
  rewrite <- R1, <- R2, <- R3, <- Cont. exact A.
Qed.

(** Examples: nodes 0 and 1 coincide, node 2 does not; all Dirichlet, respectively all Neumann but node 2. *)
Definition co_sys (cont : bool) (dir : nat -> bool) : system := {|
  s_n := 3; s_direct := true;
  s_N := matvec 3 (fun i k => if Nat.ltb i 2 then if Nat.eqb k 2 then 1 else 0 else 0);
  s_D := matvec 3 (fun i k => if Nat.ltb i 2 then if Nat.ltb k 2 then 1 else 0 else if Nat.eqb k 2 then 1 else 0);
  s_dir := dir; s_have_dirichlet := true;
  s_doubles := fun i => if Nat.ltb i 2 then [0; 1]%nat else [i]; s_normal := fun _ _ => 0; s_sgrad := fun _ _ _ => 0; s_cont := cont;
  s_hanging := fun _ => None; s_close := fun c => c |}.
Definition all_nodes : nat -> bool := fun _ => true.
Lemma co_coincidence cont dir : coincidence 3 (s_doubles (co_sys cont dir)).
Proof.
  split; [|split]; cbn [s_doubles co_sys].
  - intros i Hi. do 3 (destruct i as [|i]; [cbn; auto|]). lia.
  - intros i j Hi. do 3 (destruct i as [|i]; [cbn; intros X; repeat destruct X as [<-|X]; cbn; auto; try tauto; split; auto; lia|]). lia.
  - intros i Hi. destruct (Nat.ltb i 2); repeat constructor; cbn; intuition lia.
Qed.
Lemma co_same_rows cont dir : same_rows (co_sys cont dir) 0 1.
Proof. intros x. split; reflexivity. Qed.
Lemma co_partition : partition 3 [all_nodes].
Proof. intros i Hi. reflexivity. Qed.
Lemma co_solves : forall t, solves (co_sys false all_nodes) [all_nodes] (fun _ => 5) (fun k => if Nat.eqb k 0 then t else if Nat.eqb k 1 then - t else 0).
Proof.
  intros t. apply (C65_solve_system (co_sys false all_nodes) _ (fun _ => 5) (fun _ => 5) (fun _ => 0) _ eq_refl (matvec_linear _ _) (matvec_linear _ _) (co_coincidence _ _) co_partition).
  - intros i Hi. reflexivity.
  - intros; split; tauto.
  - split; [intros i Hi X; discriminate|]. unfold discrete_problem, discrete_problem_with.
    split; [|split; [|split; [|split; [|split]]]]; try (intros; discriminate).
    + intros i Hi _. unfold bie_row. cbn [s_N s_D co_sys]. unfold matvec. cbn [sumn].
      rewrite !(proj1 (solved_at (co_sys false all_nodes) (fun _ => 5) (fun _ => 0) _ _)), !(proj2 (solved_at (co_sys false all_nodes) (fun _ => 5) (fun _ => 0) _ _)).
      cbn [s_dir co_sys all_nodes]. destruct i as [|[|[|i]]]; cbn in *; try lra; lia.
    + intros i f post Hi N. exfalso. specialize (N i (proj1 (co_coincidence false all_nodes) i Hi)). discriminate.
Qed.
(** the hypotheses of the singularity theorem, with solutions; different imposed potentials then have none *)
Example C81_instance :
  s_have_dirichlet (co_sys false all_nodes) = true /\ linear_op 3 (s_N (co_sys false all_nodes)) /\ linear_op 3 (s_D (co_sys false all_nodes)) /\
  same_rows (co_sys false all_nodes) 0 1 /\ In 1%nat (s_doubles (co_sys false all_nodes) 0) /\
  (forall t, solves (co_sys false all_nodes) [all_nodes] (fun _ => 5) (fun k => if Nat.eqb k 0 then t else if Nat.eqb k 1 then - t else 0)) /\
  (forall sol, ~ solves (co_sys false all_nodes) [all_nodes] (fun k => INR k) sol).
Proof.
  split; [reflexivity|]. split; [apply matvec_linear|]. split; [apply matvec_linear|]. split; [apply co_same_rows|]. split; [cbn; auto|]. split; [exact co_solves|].
  intros sol.
  destruct (C81_coincident_dirichlet_nodes_make_the_system_singular (co_sys false all_nodes) [all_nodes] (fun k => INR k) 0 1) as (_ & X); try reflexivity; auto.
  - apply matvec_linear.
  - apply matvec_linear.
  - apply co_coincidence.
  - apply co_partition.
  - intros; split; tauto.
  - cbn. lia.
  - cbn. auto.
  - apply co_same_rows.
  - apply (X (fun k => INR k) (fun _ => 0)).
    + intros i Hi. reflexivity.
    + cbn. lra.
    + cbn. unfold matvec. cbn. lra.
Qed.
(** with the option the two nodes carry no equation *)
Example C81_one_equation_instance : coincidence 3 (s_doubles (co_sys true all_nodes)) /\ equation_node (co_sys true all_nodes) 2 /\
  ~ equation_node (co_sys true all_nodes) 0 /\ equation_node (co_sys true (fun k => Nat.eqb k 2)) 0 /\ ~ equation_node (co_sys true (fun k => Nat.eqb k 2)) 1.
Proof.
  split; [apply co_coincidence|]. unfold equation_node, free_of_doubles, constrained, other_dirichlet, neumann_group. cbn. split; [|split; [|split]].
  - split; auto. right. intros (j & [<-|[]] & N & _). auto.
  - intros (_ & [X|X]); [discriminate|]. apply X. exists 1%nat. auto.
  - split; auto. split; [intros j [<-|[<-|[]]]; reflexivity|eauto].
  - intros (_ & (_ & p & X)). discriminate.
Qed.
(** rows of two coincident nodes of a mesh: two cells sharing a point with two nodes *)
Definition co_in : oin := {| o_N := 0; o_max := 1; o_nc := 2; o_nqc := 1; o_nd := 4; o_pos := fun i => match i with 0%nat => mkpt 0 0 0 | 3%nat => mkpt 2 0 0 | _ => mkpt 1 0 0 end;
  o_qpos := fun q => if Nat.eqb q 0 then mkpt (1#2) 0 0 else mkpt (3#2) 0 0; o_cdofs := fun c => if Nat.eqb c 0 then [0; 1]%nat else [2; 3]%nat;
  o_dbl := fun i => if Nat.eqb i 1 || Nat.eqb i 2 then [1; 2]%nat else [i]; o_rnd := fun x => x; o_old := fun _ => [] |}.
Example C81_rows_instance : (1 < o_nd co_in)%nat /\ (2 < o_nd co_in)%nat /\ (forall k, In k (o_dbl co_in 1) <-> In k (o_dbl co_in 2)) /\
  coords (o_pos co_in 1) = coords (o_pos co_in 2) /\ ~ (forall k, In k (o_dbl co_in 0) <-> In k (o_dbl co_in 1)).
Proof. cbn. split; [lia|]. split; [lia|]. split; [tauto|]. split; [reflexivity|]. intros X. destruct (X 0%nat) as [A _]. destruct (A (or_introl eq_refl)) as [B|[B|[]]]; discriminate. Qed.
