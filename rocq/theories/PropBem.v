(** Property theorems C15-C26 (the linear system). *)
From Coq Require Import Reals List Bool Arith Lia Lra.
From Verif Require Import LibSum ModelBem ProofsBem ModelBc ProofsBc.
Import ListNotations.
Local Open Scope R_scope.

(** A partition of the dofs 0..n-1 among processes: each dof has exactly one owner. *)
Definition partition (n : nat) (owns : list (nat -> bool)) : Prop :=
  forall i, (i < n)%nat -> length (filter (fun own => own i) owns) = 1%nat.
(** Every process holds the elements its own constrained rows refer to. *)
Definition holds_entries (n : nat) (c : constraints) (procs : list ((nat -> bool) * (nat -> bool))) : Prop :=
  forall own ghost i l e, In (own, ghost) procs -> (i < n)%nat -> own i = true -> c i = Some l ->
    In e (l_entries l) -> ghost (fst e) = true.

Lemma partition_fst n (procs : list ((nat -> bool) * (nat -> bool))) i : partition n (map fst procs) -> (i < n)%nat ->
  length (filter (fun pr => fst pr i) procs) = 1%nat.
Proof.
  intros H Hi. rewrite <- (H i Hi). clear. induction procs as [|p t IH]; simpl; auto.
  destruct (fst p i); simpl; auto.
Qed.

(** C15. The constrained system of [co_vmult] and [co_distribute_rhs] is, row by row, the
    constraint equations on constrained dofs and the original equations elsewhere. *)
Theorem C15_constrained_system : forall n (M : vec -> vec) c procs (b x : vec),
  partition n (map fst procs) -> holds_entries n c procs ->
  ((forall i, (i < n)%nat -> co_vmult M c procs x i = co_distribute_rhs c (map fst procs) b i)
   <->
   (forall i, (i < n)%nat ->
      (c i = None -> M x i = b i) /\
      (forall l, c i = Some l -> exists v, l_inhom l = Some v /\
         x i = suml (l_entries l) (fun e => snd e * x (fst e)) + v))).
Proof.
  intros n M c procs b x HP HG.
  assert (E : forall i, (i < n)%nat -> co_vmult M c procs x i = Some (row_value c M x i)).
  { intros i Hi. apply co_vmult_eq; [eapply partition_fst; eauto|]. intros; eapply HG; eauto. }
  assert (F : forall i, (i < n)%nat -> co_distribute_rhs c (map fst procs) b i =
     match c i with Some l => l_inhom l | None => Some (b i) end).
  { intros i Hi. unfold co_distribute_rhs. rewrite existsb_one; auto. }
  split; intros H i Hi; specialize (H i Hi).
  - rewrite E, F in H by auto. unfold row_value in H. destruct (c i) as [l|]; split; try discriminate.
    + intros l' [= <-]. rewrite <- H. eexists; split; [reflexivity|]. lra.
    + intros _. congruence.
  - rewrite E, F by auto. unfold row_value. destruct H as [H1 H2]. destruct (c i) as [l|].
    + destruct (H2 l eq_refl) as (v & -> & Hv). f_equal. lra.
    + f_equal. auto.
Qed.

(** Two dofs, dof 1 tied to dof 0: the hypotheses hold for two processes. *)
Example C15_instance :
  let c : constraints := fun i => if (i =? 1)%nat then Some {| l_entries := [(0%nat, 1)]; l_inhom := Some 0 |} else None in
  let procs := [((fun i => (i =? 0)%nat), (fun i => (i =? 0)%nat)); ((fun i => (i =? 1)%nat), (fun _ => true))] in
  partition 2 (map fst procs) /\ holds_entries 2 c procs /\
  (forall i, (i < 2)%nat -> co_vmult (matvec 2 (fun i j => 1)) c procs (fun _ => 3) i =
      co_distribute_rhs c (map fst procs) (fun _ => 6) i).
Proof.
  intros c procs. assert (P : partition 2 (map fst procs)).
  { intros i Hi. destruct i as [|[|]]; simpl; auto; lia. }
  assert (G : holds_entries 2 c procs).
  { intros own ghost i l e [E|[E|[]]] Hi Ho Hc He; inversion E; subst; clear E.
    - apply Nat.eqb_eq in Ho. subst. discriminate.
    - reflexivity. }
  split; [exact P|]. split; [exact G|].
  apply (C15_constrained_system 2 _ c procs (fun _ => 6) (fun _ => 3) P G).
  intros i Hi. unfold c. destruct i as [|[|]]; simpl; try lia; split; intros; try discriminate.
  - unfold matvec; simpl; lra.
  - injection H as <-. simpl. exists 0. split; auto. lra.
Qed.

(** C16. The result is the same for every partition, with the element sets the solver builds. *)
Theorem C16_partition_independent : forall n (M : vec -> vec) c (owns1 owns2 : list (nat -> bool)) (x b : vec),
  partition n owns1 -> partition n owns2 ->
  forall i, (i < n)%nat ->
  exists r, co_vmult M c (map (fun own => (own, constr_cpu_set n c own)) owns1) x i = Some r
         /\ co_vmult M c (map (fun own => (own, constr_cpu_set n c own)) owns2) x i = Some r
         /\ co_distribute_rhs c owns1 b i = co_distribute_rhs c owns2 b i.
Proof.
  intros n M c owns1 owns2 x b H1 H2 i Hi. exists (row_value c M x i).
  assert (G : forall owns, partition n owns ->
     co_vmult M c (map (fun own => (own, constr_cpu_set n c own)) owns) x i = Some (row_value c M x i)).
  { intros owns H. apply co_vmult_eq.
    - apply partition_fst with (n := n); auto. rewrite map_map. simpl. rewrite map_id. auto.
    - intros own ghost l Hin Ho Hc e He. apply in_map_iff in Hin as (o & E & _). inversion E; subst.
      eapply constr_cpu_set_spec; eauto. }
  split; [auto|]. split; [auto|]. unfold co_distribute_rhs. rewrite !existsb_one; auto.
Qed.
(** The element set is also minimal in the sense that it contains only owned dofs and entries of
    owned constrained rows. *)
Theorem C16_element_set : forall n c own j,
  constr_cpu_set n c own j = true <->
  exists i, (i < n)%nat /\ own i = true /\
    (j = i \/ exists l e, c i = Some l /\ In e (l_entries l) /\ fst e = j).
Proof.
  intros n c own j. unfold constr_cpu_set. rewrite existsb_exists. split.
  - intros (i & Hi & H). apply in_seq in Hi. apply andb_true_iff in H as [Ho H]. exists i.
    split; [lia|]. split; auto. apply orb_true_iff in H as [H|H]; [left; apply Nat.eqb_eq; auto|right].
    destruct (c i) as [l|] eqn:E; [|discriminate]. apply existsb_exists in H as (e & He & Hj).
    exists l, e. repeat split; auto. apply Nat.eqb_eq; auto.
  - intros (i & Hi & Ho & H). exists i. split; [apply in_seq; lia|]. rewrite Ho. simpl. apply orb_true_iff.
    destruct H as [->|(l & e & Hc & He & Hf)]; [left; apply Nat.eqb_refl|right]. rewrite Hc.
    apply existsb_exists. exists e. split; auto. apply Nat.eqb_eq; auto.
Qed.

Example C16_instance : partition 4 [(fun i => i <? 2)%nat; (fun i => 2 <=? i)%nat] /\ partition 4 [fun _ => true].
Proof. split; intros i Hi; do 4 (destruct i as [|i]; [reflexivity|]); lia. Qed.

(** C17. Unconstrained rows of the matrix handed to the ILU preconditioner are the rows of the
    operator [vmult] built on the near-field matrices; constrained rows carry the constraint
    coefficients with the wrong sign. *)
Theorem C17_free_rows : forall n pat c (dir neu alpha : vec) es i (x : vec),
  (i < n)%nat -> c i = None ->
  (forall j, (j < n)%nat -> (dir j = 1 /\ neu j = 0) \/ (dir j = 0 /\ neu j = 1)) ->
  (forall e, In e es -> (nr_j e < n)%nat) ->
  (forall e, In e es -> nr_i e = i -> pat i (nr_j e) = true) ->
  sumn n (fun j => prec_row n pat c dir alpha es i j * x j) =
  vmult {| b_n := n; b_direct := true; b_N := matvec n (near_N es); b_D := matvec n (near_D es);
           b_alpha := alpha; b_dir := dir; b_neu := neu; b_have_dirichlet := true |} x i.
Proof. intros. apply prec_free_row; auto. Qed.

Theorem C17_constrained_rows : forall n pat c (dir alpha : vec) es i l (x : vec),
  (i < n)%nat -> c i = Some l -> NoDup (map fst (l_entries l)) ->
  (forall e, In e (l_entries l) -> (fst e < n)%nat /\ fst e <> i) ->
  sumn n (fun j => prec_row n pat c dir alpha es i j * x j) =
    x i + suml (l_entries l) (fun e => snd e * x (fst e)) /\
  (sumn n (fun j => prec_row n pat c dir alpha es i j * x j) =
    x i - suml (l_entries l) (fun e => snd e * x (fst e)) <->
   suml (l_entries l) (fun e => snd e * x (fst e)) = 0).
Proof.
  intros n pat c dir alpha es i l x Hi Hc ND He. assert (E := prec_constrained_row n pat c dir alpha es i l x Hi Hc ND He).
  split; [exact E|]. rewrite E. split; intro; lra.
Qed.

(** The user's expectation (the row encodes x_i - sum) fails. *)
Theorem C17_constrained_rows_refuted : exists n pat c (dir alpha : vec) es i l (x : vec),
  (i < n)%nat /\ c i = Some l /\ NoDup (map fst (l_entries l)) /\
  (forall e, In e (l_entries l) -> (fst e < n)%nat /\ fst e <> i) /\
  sumn n (fun j => prec_row n pat c dir alpha es i j * x j) <>
    x i - suml (l_entries l) (fun e => snd e * x (fst e)).
Proof.
  exists 2%nat, (fun _ _ => true), (fun i => if (i =? 1)%nat then Some {| l_entries := [(0%nat, 1)]; l_inhom := Some 0 |} else None),
    (fun _ => 0), (fun _ => 0), [], 1%nat, {| l_entries := [(0%nat, 1)]; l_inhom := Some 0 |}, (fun _ => 1).
  assert (N : NoDup (map fst [(0%nat, 1)])) by (simpl; constructor; [intros []|constructor]).
  assert (H : forall e : nat * R, In e [(0%nat, 1)] -> (fst e < 2)%nat /\ fst e <> 1%nat).
  { intros e [<-|[]]. simpl. split; lia. }
  repeat (split; [auto; lia|]).
  rewrite prec_constrained_row with (l := {| l_entries := [(0%nat, 1)]; l_inhom := Some 0 |}); auto.
  simpl. lra.
Qed.

(** a Dirichlet node beside a Neumann node, two near-field contributions to the same entry: the row of node 0 is (7 + 5, - 4) *)
Example C17_instance :
  let es := [{| nr_i := 0; nr_j := 0; nr_N := 3; nr_D := 1 |}; {| nr_i := 0; nr_j := 0; nr_N := 4; nr_D := 1 |}; {| nr_i := 0; nr_j := 1; nr_N := 6; nr_D := 4 |}] in
  let dir : vec := fun j => if (j =? 1)%nat then 1 else 0 in let neu : vec := fun j => if (j =? 1)%nat then 0 else 1 in
  (forall j, (j < 2)%nat -> (dir j = 1 /\ neu j = 0) \/ (dir j = 0 /\ neu j = 1)) /\
  (forall e, In e es -> (nr_j e < 2)%nat) /\
  (forall j, (j < 2)%nat -> prec_row 2 (fun _ _ => true) (fun _ => None) dir (fun _ => 5) es 0 j = if (j =? 0)%nat then 12 else - 4).
Proof.
  cbv zeta. split; [|split].
  - intros [|[|j]] Hj; [right|left|lia]; split; reflexivity.
  - intros e [<-|[<-|[<-|[]]]]; cbn; lia.
  - intros [|[|j]] Hj; [| |lia]; unfold prec_row, prec_row_free, init_prec, upd; cbn; destruct (Req_EM_T 0 0); try lra;
      repeat match goal with |- context [Rlt_dec ?a ?b] => destruct (Rlt_dec a b) end; try (cbn; lra).
    cbn [Nat.eqb Nat.leb andb fold_right nr_j nr_D nr_N]. destruct (Rlt_dec (8 / 10) 1); lra.
Qed.

(** C18. Groups of coincident nodes. *)
Section C18.
  (** [k_doubles] describes a partition of 0..n-1 into groups. *)
  Definition groups (k : cdata) : Prop :=
    (forall i, (i < k_n k)%nat -> In i (k_doubles k i)) /\
    (forall i j, (i < k_n k)%nat -> In j (k_doubles k i) -> (j < k_n k)%nat /\ k_doubles k j = k_doubles k i) /\
    (forall i, (i < k_n k)%nat -> NoDup (k_doubles k i)).

  Theorem C18_neumann_group : forall k m, groups k -> (m < k_n k)%nat ->
    (forall j, In j (k_doubles k m) -> k_dir k j = false) ->
    exists f, In f (k_doubles k m) /\ compute_constraints k f = None /\
      forall j, In j (k_doubles k m) -> j <> f ->
        compute_constraints k j = Some {| l_entries := [(f, 1)]; l_inhom := Some 0 |}.
  Proof.
    intros k m (H1 & H2 & H3) Hm Hn. exists (first_of_doubles k m).
    pose proof (first_in k H1 m Hm) as Hf. split; auto.
    assert (G : forall j, In j (k_doubles k m) -> first_of_doubles k j = first_of_doubles k m)
      by (intros; apply first_class; auto).
    split.
    - rewrite constraints_char; auto; [|eapply H2; eauto]. rewrite (G _ Hf), Nat.eqb_refl, (Hn _ Hf). reflexivity.
    - intros j Hj N. rewrite constraints_char; auto; [|eapply H2; eauto]. rewrite (G _ Hj), (Hn _ Hf).
      apply Nat.eqb_neq in N. rewrite N. reflexivity.
  Qed.

  (** [f] is the first Dirichlet node of the group in the order of the set. *)
  Theorem C18_mixed_group : forall k m f pre post, groups k -> (m < k_n k)%nat ->
    k_doubles k m = pre ++ f :: post -> k_dir k f = true -> (forall j, In j pre -> k_dir k j = false) ->
    forall j, In j (k_doubles k m) -> k_dir k j = false ->
      compute_constraints k j = Some {| l_entries := []; l_inhom := Some (k_rhs k f) |}.
  Proof.
    intros k m f pre post (H1 & H2 & H3) Hm E Hf Hp j Hj Nj.
    assert (F : first_of_doubles k m = f).
    { unfold first_of_doubles. rewrite E.
      assert (X : find (k_dir k) (pre ++ f :: post) = Some f).
      { clear E. induction pre as [|a pre IH]; simpl; [rewrite Hf; auto|].
        rewrite (Hp a) by (left; auto). apply IH. intros; apply Hp; right; auto. }
      rewrite X. reflexivity. }
    destruct (H2 m j Hm Hj) as [Lj Dj].
    rewrite constraints_char; auto. rewrite (first_class k H2 m j Hm Hj), F, Hf, Nj.
    destruct (Nat.eqb_spec j f); [subst; congruence|reflexivity].
  Qed.

  (** Without the continuous-gradient option every Dirichlet node of a group stays free. *)
  Theorem C18_dirichlet_free : forall k m, groups k -> (m < k_n k)%nat -> k_dir k m = true -> k_cont k = false ->
    compute_constraints k m = None.
  Proof.
    intros k m (H1 & H2 & H3) Hm Hd Hc. rewrite constraints_char; auto. rewrite Hd, Hc, andb_false_r.
    destruct (Nat.eqb_spec m (first_of_doubles k m)); auto.
    assert (Kf : k_dir k (first_of_doubles k m) = true).
    { unfold first_of_doubles. destruct (find (k_dir k) (k_doubles k m)) eqn:E; [eapply find_some; eauto|].
      exfalso. eapply find_none in E; [|apply H1; eauto]. congruence. }
    rewrite Kf. reflexivity.
  Qed.

  (** No chains: an entry never refers to the row itself nor to a constrained node. *)
  Theorem C18_no_chain : forall k m l e, groups k -> (m < k_n k)%nat ->
    compute_constraints k m = Some l -> In e (l_entries l) ->
    fst e <> m /\ (fst e < k_n k)%nat /\ compute_constraints k (fst e) = None /\ In (fst e) (k_doubles k m) /\ snd e = 1.
  Proof.
    intros k m l e (H1 & H2 & H3) Hm Hc He. rewrite constraints_char in Hc; auto.
    pose proof (first_in k H1 m Hm) as Hf.
    destruct (Nat.eqb_spec m (first_of_doubles k m)) as [E|N].
    - destruct (_ && _); [|discriminate]. destruct (last_dir _ _); [|discriminate]. injection Hc as <-. destruct He.
    - destruct (k_dir k (first_of_doubles k m)) eqn:Kf.
      + destruct (k_dir k m); [destruct (k_cont k); [|discriminate]|]; injection Hc as <-; destruct He.
      + injection Hc as <-. destruct He as [<-|[]]. simpl. split; [auto|].
        destruct (H2 m _ Hm Hf) as [Lf _]. split; [auto|]. split; [|auto].
        rewrite constraints_char; auto. rewrite (first_class k H2 m _ Hm Hf), Nat.eqb_refl, Kf. reflexivity.
  Qed.
End C18.

Definition ex_k (dirs : nat -> bool) : cdata :=
  {| k_n := 3; k_doubles := fun i => if (i <? 2)%nat then [0%nat; 1%nat] else [2%nat]; k_dir := dirs;
     k_normal := fun _ _ => 0; k_sgrad := fun _ _ => 0; k_rhs := fun i => INR i; k_cont := true |}.
Example C18_instance : forall dirs, groups (ex_k dirs).
Proof.
  intros dirs. split; [|split]; simpl.
  - intros i Hi. do 3 (destruct i as [|i]; [simpl; auto|]). lia.
  - intros i j Hi. do 3 (destruct i as [|i]; [simpl; intros H; repeat destruct H as [<-|H]; simpl; auto; tauto|]). lia.
  - intros i Hi. destruct (i <? 2)%nat; repeat constructor; simpl; intuition lia.
Qed.

(** C19. *)
Theorem C19_corner_exact : forall ni nj g si sj,
  dot3 ni ni = 1 -> dot3 nj nj = 1 -> (dot3 ni nj) ^ 2 <> 1 ->
  (forall d, (d < 3)%nat -> si d = g d - dot3 g ni * ni d) ->
  (forall d, (d < 3)%nat -> sj d = g d - dot3 g nj * nj d) ->
  this_normal_gradient ni nj si sj = Some (dot3 g ni) /\
  other_normal_gradient ni nj si sj = Some (dot3 g nj).
Proof. exact corner_exact. Qed.
Theorem C19_corner_unique : forall ni nj si sj, dot3 ni ni = 1 -> dot3 nj nj = 1 -> (dot3 ni nj) ^ 2 <> 1 ->
  dot3 si ni = 0 -> dot3 sj nj = 0 ->
  forall a b,
  (this_normal_gradient ni nj si sj = Some a /\ other_normal_gradient ni nj si sj = Some b) <->
  (dot3 (fun d => a * ni d + si d) ni = dot3 (fun d => b * nj d + sj d) ni /\
   dot3 (fun d => a * ni d + si d) nj = dot3 (fun d => b * nj d + sj d) nj).
Proof. exact corner_unique. Qed.

(** What the solver imposes on a group with exactly two Dirichlet nodes i, j sitting on faces with
    non-parallel unit normals where phi has gradient g: the two normal derivatives of g. *)
Theorem C19_imposed : forall k i j g, groups k -> (i < k_n k)%nat -> k_doubles k i = [i; j] -> i <> j ->
  k_cont k = true -> k_dir k i = true -> k_dir k j = true ->
  dot3 (k_normal k i) (k_normal k i) = 1 -> dot3 (k_normal k j) (k_normal k j) = 1 ->
  (dot3 (k_normal k i) (k_normal k j)) ^ 2 <> 1 ->
  (forall d, (d < 3)%nat -> k_sgrad k i d = g d - dot3 g (k_normal k i) * k_normal k i d) ->
  (forall d, (d < 3)%nat -> k_sgrad k j d = g d - dot3 g (k_normal k j) * k_normal k j d) ->
  compute_constraints k i = Some {| l_entries := []; l_inhom := Some (dot3 g (k_normal k i)) |} /\
  compute_constraints k j = Some {| l_entries := []; l_inhom := Some (dot3 g (k_normal k j)) |}.
Proof.
  intros k i j g (H1 & H2 & H3) Hi Ei Nij Hc Di Dj N1 N2 N3 S1 S2.
  destruct (corner_exact _ _ g _ _ N1 N2 N3 S1 S2) as [A B].
  assert (Ij : In j (k_doubles k i)) by (rewrite Ei; simpl; auto).
  destruct (H2 i j Hi Ij) as [Lj Ej].
  assert (F : first_of_doubles k i = i) by (unfold first_of_doubles; rewrite Ei; simpl; rewrite Di; auto).
  assert (Fj : first_of_doubles k j = i) by (rewrite (first_class k H2 i j Hi Ij); auto).
  split; rewrite constraints_char; auto.
  - rewrite F, Nat.eqb_refl, Di, Hc. simpl. unfold others. rewrite F, Ei. simpl. rewrite Nat.eqb_refl.
    assert (X : (j =? i)%nat = false) by (apply Nat.eqb_neq; auto). rewrite X. unfold last_dir. simpl. rewrite Dj, A. reflexivity.
  - rewrite Fj, Di, Dj, Hc. assert (X : (j =? i)%nat = false) by (apply Nat.eqb_neq; auto). rewrite X, B. reflexivity.
Qed.
(** With three or more Dirichlet nodes (a vertex of three faces) only the last pair decides the
    value imposed on the first node. *)
Theorem C19_vertex_last_pair : forall k i js j, groups k -> (i < k_n k)%nat -> k_doubles k i = i :: js ++ [j] ->
  k_cont k = true -> k_dir k i = true -> k_dir k j = true ->
  compute_constraints k i = Some {| l_entries := [];
    l_inhom := this_normal_gradient (k_normal k i) (k_normal k j) (k_sgrad k i) (k_sgrad k j) |}.
Proof.
  intros k i js j (H1 & H2 & H3) Hi Ei Hc Di Dj.
  assert (F : first_of_doubles k i = i) by (unfold first_of_doubles; rewrite Ei; simpl; rewrite Di; auto).
  assert (Nij : j <> i).
  { intros ->. specialize (H3 i Hi). rewrite Ei in H3. inversion H3; subst. apply H4. apply in_app_iff. simpl; auto. }
  rewrite constraints_char; auto. rewrite F, Nat.eqb_refl, Di, Hc. simpl.
  unfold others. rewrite F, Ei. cbn [filter]. rewrite Nat.eqb_refl. simpl negb. cbv iota.
  rewrite filter_app. cbn [filter]. assert (X : (j =? i)%nat = false) by (apply Nat.eqb_neq; auto). rewrite X. simpl negb. cbv iota.
  unfold last_dir. rewrite fold_left_app. simpl. rewrite Dj. reflexivity.
Qed.
(** Faces z=0 and x=0, gradient (1,2,3). *)
Example C19_instance :
  let ni := fun d => if (d =? 0)%nat then 1 else 0 in let nj := fun d => if (d =? 2)%nat then 1 else 0 in
  dot3 ni ni = 1 /\ dot3 nj nj = 1 /\ (dot3 ni nj) ^ 2 <> 1.
Proof. simpl. unfold dot3; simpl. repeat split; lra. Qed.

(** C20. The branch that should tie coplanar Dirichlet nodes is never taken (the program divides
    the scalar product by itself), and parallel unit normals make the imposed value non-finite. *)
Theorem C20_coplanar_never_recognised : forall k i j, coplanar_test k i j = false.
Proof. exact coplanar_dead. Qed.
Theorem C20_parallel_normals_break : forall k i j, groups k -> (i < k_n k)%nat -> k_doubles k i = [i; j] -> i <> j ->
  k_cont k = true -> k_dir k i = true -> k_dir k j = true ->
  (dot3 (k_normal k i) (k_normal k j)) ^ 2 = 1 ->
  compute_constraints k i = Some {| l_entries := []; l_inhom := None |} /\
  compute_constraints k j = Some {| l_entries := []; l_inhom := None |}.
Proof.
  intros k i j (H1 & H2 & H3) Hi Ei Nij Hc Di Dj N3.
  assert (Ij : In j (k_doubles k i)) by (rewrite Ei; simpl; auto).
  destruct (H2 i j Hi Ij) as [Lj Ej].
  assert (F : first_of_doubles k i = i) by (unfold first_of_doubles; rewrite Ei; simpl; rewrite Di; auto).
  assert (Fj : first_of_doubles k j = i) by (rewrite (first_class k H2 i j Hi Ij); auto).
  assert (X : (j =? i)%nat = false) by (apply Nat.eqb_neq; auto).
  assert (Z : forall a, fdiv a (1 - dot3 (k_normal k i) (k_normal k j) ^ 2) = None).
  { intros a. unfold fdiv. destruct (Req_EM_T _ 0); auto. exfalso. lra. }
  split; rewrite constraints_char; auto.
  - rewrite F, Nat.eqb_refl, Di, Hc. simpl. unfold others. rewrite F, Ei. simpl. rewrite Nat.eqb_refl, X.
    unfold last_dir. simpl. rewrite Dj. unfold this_normal_gradient. rewrite Z. reflexivity.
  - rewrite Fj, Di, Dj, Hc, X. unfold other_normal_gradient. rewrite Z. reflexivity.
Qed.
(** Consequence: the constrained system then has no solution (the row equates a number with a
    non-finite value), whatever the matrix. *)
Theorem C20_system_unsolvable : forall n M c procs b x i l, partition n (map fst procs) -> holds_entries n c procs ->
  (i < n)%nat -> c i = Some l -> l_inhom l = None ->
  ~ (forall i, (i < n)%nat -> co_vmult M c procs x i = co_distribute_rhs c (map fst procs) b i).
Proof.
  intros n M c procs b x i l HP HG Hi Hc Hl H.
  apply (C15_constrained_system n M c procs b x HP HG) with (i := i) in H; auto.
  destruct H as [_ H]. destruct (H l Hc) as (v & E & _). congruence.
Qed.
Example C20_instance : (dot3 (fun d => if (d =? 2)%nat then 1 else 0) (fun d => if (d =? 2)%nat then 1 else 0)) ^ 2 = 1.
Proof. unfold dot3; simpl; lra. Qed.

(** C21. *)
Theorem C21_indicators : forall ids cells owner i,
  let D := exists c, In c cells /\ c_sub c = owner i /\ In (c_mat c) ids /\ In i (c_dofs c) in
  (D -> dirichlet_nodes ids cells owner i = 1 /\ neumann_nodes ids cells owner i = 0) /\
  (~ D -> dirichlet_nodes ids cells owner i = 0 /\ neumann_nodes ids cells owner i = 1).
Proof.
  intros ids cells owner i D.
  destruct (indicators_spec ids (owner i) cells (fun _ => 0) (shift (fun _ => 0) 1) false) as (A & B & _).
  unfold dirichlet_nodes, neumann_nodes, indicators_local. rewrite A, B.
  assert (E : touched ids cells (owner i) i = true <-> D).
  { unfold touched, D. rewrite existsb_exists. split.
    - intros (c & Hc & H). apply andb_true_iff in H as [H H3]. apply andb_true_iff in H as [H1 H2].
      exists c. apply Nat.eqb_eq in H1. unfold is_dirichlet_cell in H2. apply existsb_exists in H2 as (d & Hd & E2).
      apply existsb_exists in H3 as (d' & Hd' & E3). apply Nat.eqb_eq in E2, E3. subst. auto.
    - intros (c & Hc & H1 & H2 & H3). exists c. split; auto. rewrite !andb_true_iff. repeat split.
      + apply Nat.eqb_eq; auto.
      + apply existsb_exists. exists (c_mat c). split; auto using Nat.eqb_refl.
      + apply existsb_exists. exists i. split; auto using Nat.eqb_refl. }
  split; intros H.
  - apply E in H. rewrite H. auto.
  - destruct (touched ids cells (owner i) i); [exfalso; tauto|]. unfold shift. split; auto. lra.
Qed.
(** On one process (all cells and dofs belong to it) Dirichlet means: in some Dirichlet cell. *)
Theorem C21_one_process : forall ids cells me i, (forall c, In c cells -> c_sub c = me) ->
  (dirichlet_nodes ids cells (fun _ => me) i = 1 <->
   exists c, In c cells /\ In (c_mat c) ids /\ In i (c_dofs c)).
Proof.
  intros ids cells me i Hs. destruct (C21_indicators ids cells (fun _ => me) i) as [A B].
  split.
  - intros H. destruct (existsb (fun c => existsb (Nat.eqb (c_mat c)) ids && existsb (Nat.eqb i) (c_dofs c)) cells) eqn:E.
    + apply existsb_exists in E as (c & Hc & E). apply andb_true_iff in E as [E1 E2].
      apply existsb_exists in E1 as (a & A1 & A2). apply existsb_exists in E2 as (a' & A1' & A2').
      apply Nat.eqb_eq in A2, A2'. subst. eauto.
    + exfalso. destruct B as [B _]; [|lra]. intros (c & Hc & _ & H1 & H2).
      assert (X : existsb (fun c => existsb (Nat.eqb (c_mat c)) ids && existsb (Nat.eqb i) (c_dofs c)) cells = true).
      { apply existsb_exists. exists c. split; auto. apply andb_true_iff. split; apply existsb_exists; eexists; split; eauto using Nat.eqb_refl. }
      congruence.
  - intros (c & Hc & H1 & H2). apply A. exists c; auto.
Qed.
Theorem C21_flag : forall ids cells np, (forall c, In c cells -> (c_sub c < np)%nat) ->
  (have_dirichlet ids cells np = true <-> exists c, In c cells /\ In (c_mat c) ids).
Proof.
  intros ids cells np Hs. unfold have_dirichlet. rewrite existsb_exists.
  assert (F : forall me, snd (indicators_local ids cells me) = existsb (fun c => (c_sub c =? me)%nat && is_dirichlet_cell ids c) cells).
  { intros me. unfold indicators_local.
    destruct (indicators_spec ids me cells (fun _ => 0) (shift (fun _ => 0) 1) false) as (_ & _ & C). exact C. }
  assert (G : forall c, is_dirichlet_cell ids c = true <-> In (c_mat c) ids).
  { intros c. unfold is_dirichlet_cell. rewrite existsb_exists. split.
    - intros (d & Hd & E). apply Nat.eqb_eq in E. subst; auto.
    - intros H. exists (c_mat c). split; auto using Nat.eqb_refl. }
  split.
  - intros (me & Hme & H). rewrite F in H. apply existsb_exists in H as (c & Hc & H).
    apply andb_true_iff in H as [_ H]. exists c. split; auto. apply G; auto.
  - intros (c & Hc & H). exists (c_sub c). split; [apply in_seq; specialize (Hs c Hc); lia|].
    rewrite F. apply existsb_exists. exists c. split; auto. rewrite Nat.eqb_refl. simpl. apply G; auto.
Qed.
(** With several processes a dof shared by a Dirichlet cell of another process is taken as
    Neumann: the result depends on the partition. *)
Theorem C21_depends_on_partition_refuted : exists ids cells owner i,
  (exists c, In c cells /\ In (c_mat c) ids /\ In i (c_dofs c)) /\
  (exists c, In c cells /\ c_sub c = owner i /\ In i (c_dofs c)) /\
  dirichlet_nodes ids cells owner i = 0.
Proof.
  exists [1%nat], [{| c_dofs := [0;1]%nat; c_mat := 1; c_sub := 0 |}; {| c_dofs := [1;2]%nat; c_mat := 2; c_sub := 1 |}],
    (fun i => if (i =? 0)%nat then 0%nat else 1%nat), 1%nat.
  split; [|split].
  - eexists; split; [left; reflexivity|]. simpl; auto.
  - eexists; split; [right; left; reflexivity|]. simpl; auto.
  - apply C21_indicators. intros (c & [<-|[<-|[]]] & H); simpl in H; [lia|]. destruct H as (_ & [H|[]] & _); lia.
Qed.
Example C21_instance : dirichlet_nodes [1%nat] [{| c_dofs := [0;1]%nat; c_mat := 1; c_sub := 0 |}] (fun _ => 0%nat) 1%nat = 1.
Proof. apply C21_one_process; [intros c [<-|[]]; auto|]. eexists; split; [left; reflexivity|]. simpl; auto. Qed.

(** C22. *)
Theorem C22_double_nodes : forall n dist edge,
  (forall i j, dist i j = dist j i) ->
  (forall i, (i < n)%nat -> In i (double_nodes n dist edge i)) /\
  (forall i j, (i < n)%nat -> (j < n)%nat -> (In j (double_nodes n dist edge i) <-> In i (double_nodes n dist edge j))) /\
  (forall i j, (i < n)%nat -> (j < n)%nat -> i <> j ->
     (In j (double_nodes n dist edge i) <-> In i edge /\ In j edge /\ dist i j < 1 / 10 ^ 10)).
Proof.
  intros n dist edge Hs. split; [|split].
  - intros i Hi. apply in_double_nodes. auto.
  - intros i j Hi Hj. rewrite !in_double_nodes. rewrite (Hs j i). intuition.
  - intros i j Hi Hj N. rewrite in_double_nodes. split; [intros (_ & [E|H]); [congruence|auto]|auto].
Qed.
(** When points are either exactly coincident or at least 1e-10 apart, the sets are the classes of
    an equivalence, i.e. the hypothesis [groups] of C18 holds. *)
Theorem C22_equivalence_classes : forall (P : Type) (pos : nat -> P) n dist edge k,
  (forall i j, dist i j < 1 / 10 ^ 10 <-> pos i = pos j) ->
  (forall i, In i edge -> (i < n)%nat) ->
  k_n k = n -> (forall i, (i < n)%nat -> k_doubles k i = double_nodes n dist edge i) -> groups k.
Proof.
  intros P pos n dist edge k Hd He Hn Hk.
  assert (Cl : forall i j, (i < n)%nat -> In j (double_nodes n dist edge i) ->
            (j < n)%nat /\ double_nodes n dist edge j = double_nodes n dist edge i).
  { intros i j Hi Hj. pose proof Hj as Hj'. apply in_double_nodes in Hj as (Lj & H). split; auto.
    destruct H as [->|(Ei & Ej & D)]; auto. apply Hd in D.
    unfold double_nodes. apply filter_ext_in. intros a Ha. apply in_seq in Ha.
    assert (X : forall b, In b edge -> existsb (Nat.eqb b) edge = true).
    { intros b Hb. apply existsb_exists. exists b; split; auto using Nat.eqb_refl. }
    rewrite (X i Ei), (X j Ej). cbn [andb].
    assert (R : (if Rlt_dec (dist j a) (1 / 10 ^ 10) then true else false) = (if Rlt_dec (dist i a) (1 / 10 ^ 10) then true else false)).
    { destruct (Rlt_dec (dist j a) _) as [A|A], (Rlt_dec (dist i a) _) as [B|B]; auto; exfalso.
      - apply B, Hd. apply Hd in A. congruence.
      - apply A, Hd. apply Hd in B. congruence. }
    rewrite R.
    destruct (Nat.eqb_spec a j) as [Eaj|]; destruct (Nat.eqb_spec a i) as [Eai|]; cbn [andb orb]; auto; subst a.
    - rewrite (X j Ej). cbn [andb]. destruct (Rlt_dec (dist i j) (1 / 10 ^ 10)) as [|NN]; auto. exfalso. apply NN, Hd; auto.
    - rewrite (X i Ei). cbn [andb]. destruct (Rlt_dec (dist i i) (1 / 10 ^ 10)) as [|NN]; auto. exfalso. apply NN, Hd; auto. }
  split; [|split]; rewrite Hn.
  - intros i Hi. rewrite Hk by auto. apply in_double_nodes; auto.
  - intros i j Hi Hj. rewrite Hk in Hj by auto. destruct (Cl i j Hi Hj) as [A B]. split; auto. rewrite !Hk; auto.
  - intros i Hi. rewrite Hk by auto. apply NoDup_filter, seq_NoDup.
Qed.
Example C22_instance : let pos := fun i => (i / 2)%nat in
  let dist := fun i j => if (i / 2 =? j / 2)%nat then 0 else 1 in
  (forall i j, dist i j < 1 / 10 ^ 10 <-> pos i = pos j) /\ double_nodes 4 dist [0;1]%nat 1%nat = [0;1]%nat /\
  double_nodes 4 dist [0;1]%nat 2%nat = [2]%nat.
Proof.
  intros pos dist. assert (X : 0 < 1 / 10 ^ 10 < 1) by (simpl; lra).
  split; [|split].
  - intros i j. unfold dist, pos. destruct (Nat.eqb_spec (i / 2) (j / 2)); split; intros; auto; try lra; congruence.
  - unfold double_nodes, dist. cbn. destruct (Rlt_dec 0 _) as [|N]; [reflexivity|]. exfalso. apply N. simpl in X. lra.
  - reflexivity.
Qed.

(** C23. *)
Theorem C23_inverse : forall m perm, (forall i, (i < m)%nat -> (perm i < m)%nat) ->
  (forall i j, (i < m)%nat -> (j < m)%nat -> perm i = perm j -> i = j) ->
  (forall i, (i < m)%nat -> inverse_table m perm (perm i) = i) /\
  (forall j, (j < m)%nat -> (inverse_table m perm j < m)%nat /\ perm (inverse_table m perm j) = j).
Proof.
  intros m perm H1 H2. split; [apply inverse_table_spec; auto|].
  intros j Hj. destruct (inj_surj m perm H1 H2 j Hj) as (i & Hi & <-). rewrite inverse_table_spec; auto.
Qed.
Theorem C23_vector_index_injective : forall n dim perm vperm, (0 < dim)%nat ->
  (forall i, (i < n)%nat -> (perm i < n)%nat) ->
  (forall i j, (i < n)%nat -> (j < n)%nat -> perm i = perm j -> i = j) ->
  (forall i, (i < dim * n)%nat -> (vperm i < dim * n)%nat) ->
  (forall i j, (i < dim * n)%nat -> (j < dim * n)%nat -> vperm i = vperm j -> i = j) ->
  forall d i d' i', (d < dim)%nat -> (d' < dim)%nat -> (i < n)%nat -> (i' < n)%nat ->
  (vec_index (dim * n) dim vperm (inverse_table n perm) d i < dim * n)%nat /\
  (vec_index (dim * n) dim vperm (inverse_table n perm) d i =
   vec_index (dim * n) dim vperm (inverse_table n perm) d' i' -> d = d' /\ i = i').
Proof.
  intros n dim perm vperm Hdim H1 H2 H3 H4 d i d' i' Hd Hd' Hi Hi'.
  destruct (C23_inverse n perm H1 H2) as [_ Q].
  unfold vec_index. rewrite (Nat.mul_comm dim n), Nat.div_mul by lia. rewrite <- (Nat.mul_comm dim n).
  destruct (Q i Hi) as [A B], (Q i' Hi') as [A' B'].
  assert (X : forall d s, (d < dim)%nat -> (s < n)%nat -> (n * d + s < dim * n)%nat).
  { intros a s Ha Hs. assert ((S a) * n <= dim * n)%nat by (apply Nat.mul_le_mono_r; lia).
    rewrite Nat.mul_succ_l, (Nat.mul_comm a n) in H. lia. }
  split; [auto|]. intros E. apply H4 in E; auto.
  assert (D : forall d s, (s < n)%nat -> ((n * d + s) / n)%nat = d).
  { intros a s Hs. rewrite Nat.mul_comm, Nat.div_add_l by lia. rewrite Nat.div_small by auto. lia. }
  assert (d = d'). { rewrite <- (D d _ A), E, (D d' _ A'). reflexivity. } subst d'.
  split; auto. apply Nat.add_cancel_l in E. rewrite <- B, <- B', E. reflexivity.
Qed.
Example C23_instance : let perm := fun i => (2 - i)%nat in
  (forall i, (i < 3)%nat -> (perm i < 3)%nat) /\ (forall i j, (i < 3)%nat -> (j < 3)%nat -> perm i = perm j -> i = j) /\
  inverse_table 3 perm 0%nat = 2%nat.
Proof. intros perm. split; [|split]; [intros; unfold perm; lia|unfold perm; intros; lia|reflexivity]. Qed.

(** C24. *)
Theorem C24_linear_with_dirichlet : forall b, b_have_dirichlet b = true -> linear_op (b_n b) (b_N b) -> linear_op (b_n b) (b_D b) ->
  forall a c x y i, (i < b_n b)%nat ->
  vmult b (fun k => a * x k + c * y k) i = a * vmult b x i + c * vmult b y i.
Proof. exact vmult_linear. Qed.
Theorem C24_neumann_characterised : forall b, b_have_dirichlet b = false -> linear_op (b_n b) (b_N b) -> linear_op (b_n b) (b_D b) ->
  (forall i, (i < b_n b)%nat -> b_dir b i = 0) -> (forall i, (i < b_n b)%nat -> b_neu b i = 1) ->
  (forall i, (i < b_n b)%nat -> b_alpha b i = compute_alpha (b_N b) fresh_ones i) ->
  forall x,
  ((forall i, (i < b_n b)%nat -> vmult b (fun k => - x k) i = - vmult b x i) <->
   (forall i, (i < b_n b)%nat -> b_N b x i + x i * b_alpha b i = 0)).
Proof. exact neumann_not_linear. Qed.
Definition ex_neumann : bem :=
  {| b_n := 2; b_direct := true; b_N := matvec 2 (fun i j => if (i =? j)%nat then 1 else 2);
     b_D := matvec 2 (fun _ _ => 0); b_alpha := compute_alpha (matvec 2 (fun i j => if (i =? j)%nat then 1 else 2)) fresh_ones;
     b_dir := fun _ => 0; b_neu := fun _ => 1; b_have_dirichlet := false |}.
Theorem C24_pure_neumann_refuted : exists b x i, (i < b_n b)%nat /\
  linear_op (b_n b) (b_N b) /\ linear_op (b_n b) (b_D b) /\
  vmult b (fun k => - x k) i <> - vmult b x i.
Proof.
  set (x := fun k => if (k =? 0)%nat then 1 else 0).
  assert (L1 : linear_op 2 (b_N ex_neumann)) by apply matvec_linear.
  assert (L2 : linear_op 2 (b_D ex_neumann)) by apply matvec_linear.
  assert (Q : (forall i, (i < 2)%nat -> vmult ex_neumann (fun k => - x k) i = - vmult ex_neumann x i) -> False).
  { intros H. assert (G := proj1 (C24_neumann_characterised ex_neumann eq_refl L1 L2 ltac:(reflexivity) ltac:(reflexivity) ltac:(reflexivity) x) H 0%nat ltac:(simpl; lia)).
    clear H. rename G into H. simpl in H. unfold x, compute_alpha, matvec, fresh_ones, shift in H. simpl in H. lra. }
  exists ex_neumann, x.
  destruct (Req_EM_T (vmult ex_neumann (fun k => - x k) 0%nat) (- vmult ex_neumann x 0%nat)) as [E0|N0];
    [|exists 0%nat; simpl; auto].
  exists 1%nat. simpl. repeat (split; [auto; lia|]). intros E1. apply Q. intros i Hi.
  destruct i as [|[|]]; auto; lia.
Qed.
Example C24_instance : exists b, b_have_dirichlet b = true /\ linear_op (b_n b) (b_N b) /\ linear_op (b_n b) (b_D b) /\ (0 < b_n b)%nat.
Proof.
  exists {| b_n := 2; b_direct := true; b_N := matvec 2 (fun i j => 1); b_D := matvec 2 (fun _ _ => 2); b_alpha := fun _ => 1;
     b_dir := fun i => INR i; b_neu := fun i => 1 - INR i; b_have_dirichlet := true |}.
  repeat split; try apply matvec_linear; simpl; lia.
Qed.

(** C25. *)
Theorem C25_system_is_bie : forall b phi dphi rhs sol,
  b_have_dirichlet b = true -> linear_op (b_n b) (b_N b) -> linear_op (b_n b) (b_D b) ->
  (forall i, (i < b_n b)%nat -> (b_dir b i = 1 /\ b_neu b i = 0) \/ (b_dir b i = 0 /\ b_neu b i = 1)) ->
  (forall i, (i < b_n b)%nat -> b_dir b i = 1 -> phi i = rhs i) ->
  (forall i, (i < b_n b)%nat -> b_dir b i = 0 -> dphi i = rhs i) ->
  forall i, (i < b_n b)%nat ->
  (vmult b sol i = compute_rhs b (fun _ => 0) rhs i <->
   b_N b (scatter_phi b phi sol) i + scatter_phi b phi sol i * b_alpha b i =
   b_D b (scatter_dphi b dphi sol) i).
Proof. exact system_is_bie. Qed.
Theorem C25_imposed_untouched : forall b phi dphi sol i,
  (b_dir b i = 1 -> scatter_phi b phi sol i = phi i /\ scatter_dphi b dphi sol i = sol i) /\
  (b_dir b i = 0 -> scatter_phi b phi sol i = sol i /\ scatter_dphi b dphi sol i = dphi i).
Proof. exact scatter_keeps. Qed.
(** compute_rhs is public: what a caller gets when the vector handed in is not zero.  The Direct branch
    overwrites it; the FMM branch subtracts whatever was in it, so the two agree on the system above only
    because solve_system clears the vector first (:1709-1710). *)
Theorem C25_rhs_incoming_vector : forall b dst0 src i,
  compute_rhs b dst0 src i =
  compute_rhs b (fun _ => 0) src i - (if b_direct b then 0 else dst0 i).
Proof. intros. unfold compute_rhs. destruct (b_direct b); cbv zeta beta; lra. Qed.
Theorem C25_rhs_overwrites_iff : forall b i,
  (forall dst0 dst1 src, compute_rhs b dst0 src i = compute_rhs b dst1 src i) <-> b_direct b = true.
Proof.
  intros b i; split.
  - intros E. destruct (b_direct b) eqn:D; auto.
    specialize (E (fun _ => 1) (fun _ => 0) (fun _ => 0)).
    rewrite (C25_rhs_incoming_vector b (fun _ => 1)), D in E. lra.
  - intros D dst0 dst1 src. rewrite (C25_rhs_incoming_vector b dst0), (C25_rhs_incoming_vector b dst1), D. lra.
Qed.
Example C25_instance : exists b : bem, b_have_dirichlet b = true /\ linear_op (b_n b) (b_N b) /\
  (forall i, (i < b_n b)%nat -> (b_dir b i = 1 /\ b_neu b i = 0) \/ (b_dir b i = 0 /\ b_neu b i = 1)) /\
  b_dir b 0%nat = 0 /\ b_dir b 1%nat = 1 /\ b_n b = 2%nat.
Proof.
  exists {| b_n := 2; b_direct := true; b_N := matvec 2 (fun i j => 1); b_D := matvec 2 (fun _ _ => 2); b_alpha := fun _ => 1;
     b_dir := fun i => INR i; b_neu := fun i => 1 - INR i; b_have_dirichlet := true |}.
  repeat split; try apply matvec_linear; simpl; auto.
  intros i Hi. destruct i as [|[|]]; simpl; try lia; [right|left]; split; lra.
Qed.

(** C26. *)
Theorem C26_constants : forall n N, linear_op n N -> forall k i, (i < n)%nat ->
  N (fun _ => k) i + k * compute_alpha N fresh_ones i = 0.
Proof. exact constants_solve. Qed.
(** Hence, for the matrices themselves, row sums of N + diag(alpha) vanish. *)
Theorem C26_row_sums : forall n (A : mat) i, (i < n)%nat ->
  sumn n (fun j => A i j + (if (j =? i)%nat then compute_alpha (matvec n A) fresh_ones i else 0)) = 0.
Proof.
  intros n A i Hi. rewrite sumn_plus. rewrite (sumn_single n i (fun j => if (j =? i)%nat then _ else 0)); auto.
  2:{ intros j Hj N. apply Nat.eqb_neq in N. rewrite N. reflexivity. }
  rewrite Nat.eqb_refl. unfold compute_alpha, matvec, fresh_ones, shift.
  rewrite <- sumn_plus. apply sumn_zero. intros; lra.
Qed.
Example C26_instance : linear_op 3 (matvec 3 (fun i j => INR (i + j))).
Proof. apply matvec_linear. Qed.
