(** * C90: the second ConstrainedOperator (true_constrained_matrix.h) *)
From Coq Require Import Reals List Lia Lra.
From Verif Require Import LibSum ModelTrueCon.
Import ListNotations.
Local Open Scope R_scope.

(** ** Specification *)
(** the weight of dof j in the line of dof i (entries naming the same dof add up); a free dof is not constrained by anything *)
Definition weight (c : tcons) (i j : nat) : R :=
  match c i with Some (es, _) => suml es (fun e => if Nat.eqb (fst e) j then snd e else 0) | None => 0 end.
Definition free (c : tcons) (i : nat) : Prop := c i = None.
(** u obeys the constraints: at each constrained dof it is the combination of the line, plus the inhomogeneity (times s) *)
Definition obeys (n : nat) (c : tcons) (s : R) (u : tvec) : Prop := forall i es g, (i < n)%nat -> c i = Some (es, g) ->
  u i = suml es (fun e => snd e * u (fst e)) + s * g.
(** lines of dofs < n, on free dofs only (what AffineConstraints::close establishes) *)
Definition closed (n : nat) (c : tcons) : Prop := forall i es g, (i < n)%nat -> c i = Some (es, g) ->
  forall e, In e es -> (fst e < n)%nat /\ free c (fst e).
(** every constrained dof comes after the dofs of its line *)
Definition downward (n : nat) (c : tcons) : Prop := forall i j, (i < n)%nat -> (i < j < n)%nat -> weight c i j = 0.
Definition matrix (n : nat) (A : nat -> nat -> R) (x : tvec) : tvec := fun i => sumn n (fun j => A i j * x j).
(** x solves the constrained problem: it obeys the constraints and the residual is orthogonal to every admissible variation *)
Definition weak_solution (n : nat) (A : nat -> nat -> R) (c : tcons) (b x : tvec) : Prop :=
  obeys n c 1 x /\ forall z, obeys n c 0 z -> sumn n (fun i => z i * (matrix n A x i - b i)) = 0.

(** ** Lemmas *)
Lemma fold_sum (es : list (nat * R)) (f : nat * R -> R) : forall a, fold_left (fun d e => d + f e) es a = a + suml es f.
Proof. induction es as [|e es IH]; intros a; cbn; [lra|]. rewrite IH. unfold suml; cbn. lra. Qed.
Lemma cv_spec c src i : constraint_vmult c src i = match c i with Some (es, _) => suml es (fun e => snd e * src (fst e)) | None => src i end.
Proof. unfold constraint_vmult. destruct (c i) as [[es g]|]; auto. rewrite (fold_sum es (fun e => src (fst e) * snd e)), Rplus_0_l. apply suml_ext. intros; lra. Qed.
Lemma fold_upd (es : list (nat * R)) s j : forall l : tvec,
  fold_left (fun l e => upd l (fst e) (l (fst e) + s * snd e)) es l j = l j + s * suml es (fun e => if Nat.eqb (fst e) j then snd e else 0).
Proof.
  induction es as [|e es IH]; intros l; cbn [fold_left suml fold_right]; [lra|].
  rewrite IH. unfold upd at 1. cbn [suml fold_right]. fold (suml es (fun e => if Nat.eqb (fst e) j then snd e else 0)).
  rewrite (Nat.eqb_sym j (fst e)). destruct (Nat.eqb (fst e) j) eqn:E; [apply Nat.eqb_eq in E; subst j|]; lra.
Qed.
Lemma step_spec c src loc i j : tv_step c src loc i j =
  (if Nat.eqb j i then match c i with Some _ => 0 | None => src i end else loc j) + weight c i j * src i.
Proof.
  unfold tv_step, weight. destruct (c i) as [[es g]|].
  - rewrite fold_upd. unfold upd. destruct (Nat.eqb j i); lra.
  - unfold upd. destruct (Nat.eqb j i); lra.
Qed.
Definition base (c : tcons) (src : tvec) (j : nat) : R := match c j with Some _ => 0 | None => src j end.
Lemma loop_spec c src j k : fold_left (tv_step c src) (seq 0 k) (fun _ => 0) j =
  (if Nat.ltb j k then base c src j else 0) + sumn k (fun i => if andb (Nat.ltb j k) (Nat.ltb i j) then 0 else weight c i j * src i).
Proof.
  induction k as [|k IH].
  - cbn. lra.
  - rewrite seq_S, fold_left_app. cbn [fold_left Nat.add]. rewrite step_spec, IH. cbn [sumn].
    destruct (Nat.eqb j k) eqn:E.
    + apply Nat.eqb_eq in E. subst k. rewrite (proj2 (Nat.ltb_lt j (S j))) by lia. cbn [andb].
      rewrite Nat.ltb_irrefl. cbn [andb].
      assert (Z : sumn j (fun i => if Nat.ltb i j then 0 else weight c i j * src i) = 0).
      { apply sumn_zero. intros i Hi. rewrite (proj2 (Nat.ltb_lt i j)) by lia. reflexivity. }
      rewrite Z. unfold base. destruct (c j); lra.
    + apply Nat.eqb_neq in E. destruct (Nat.ltb j k) eqn:L.
      * apply Nat.ltb_lt in L. rewrite (proj2 (Nat.ltb_lt j (S k))) by lia. cbn [andb]. rewrite (proj2 (Nat.ltb_ge k j)) by lia. lra.
      * apply Nat.ltb_ge in L. rewrite (proj2 (Nat.ltb_ge j (S k))) by lia. cbn [andb]. lra.
Qed.
Lemma tv_spec n c dst src j : (j < n)%nat ->
  constraint_tvmult n c dst src j = dst j + base c src j + sumn n (fun i => if Nat.ltb i j then 0 else weight c i j * src i).
Proof. intros Hj. unfold constraint_tvmult. rewrite loop_spec, (proj2 (Nat.ltb_lt j n)) by lia. cbn [andb]. lra. Qed.
Lemma weight_sum n c i x : (i < n)%nat -> (forall es g, c i = Some (es, g) -> forall e, In e es -> (fst e < n)%nat) ->
  sumn n (fun j => weight c i j * x j) = match c i with Some (es, _) => suml es (fun e => snd e * x (fst e)) | None => 0 end.
Proof.
  intros Hi Hc. unfold weight. destruct (c i) as [[es g]|].
  - specialize (Hc es g eq_refl). clear Hi. induction es as [|e es IH]; [apply sumn_zero; intros; cbn; lra|].
    rewrite (sumn_ext n _ (fun j => (if Nat.eqb (fst e) j then snd e else 0) * x j + suml es (fun e => if Nat.eqb (fst e) j then snd e else 0) * x j)) by (intros; cbn; unfold suml; ring).
    rewrite sumn_plus, IH by (intros; apply Hc; right; auto). cbn [suml fold_right]. f_equal.
    rewrite (sumn_single n (fst e)).
    + rewrite Nat.eqb_refl. reflexivity.
    + apply Hc. left; auto.
    + intros j _ Hj. rewrite (proj2 (Nat.eqb_neq (fst e) j)) by congruence. ring.
  - apply sumn_zero. intros; ring.
Qed.
Lemma closed_range n c : closed n c -> forall i, (i < n)%nat -> forall es g, c i = Some (es, g) -> forall e, In e es -> (fst e < n)%nat.
Proof. intros C i Hi es g E e He. apply (C i es g Hi E e He). Qed.
Lemma weight_free n c i j : closed n c -> (i < n)%nat -> weight c i j <> 0 -> free c j.
Proof.
  intros C Hi W. unfold weight in W. destruct (c i) as [[es g]|] eqn:E; [|lra].
  assert (K := C i es g Hi E). clear E. induction es as [|e es IH]; cbn in W; [lra|].
  destruct (Nat.eqb (fst e) j) eqn:Q; [apply Nat.eqb_eq in Q; subst j; apply K; left; auto|].
  apply IH; [|intros; apply K; right; auto]. unfold suml. lra.
Qed.

(** ** Theorems *)
(** what a call computes: it ADDS to the destination, and drops the contribution of a constrained dof to a later one *)
Theorem C90_product : forall n A c dst src j, (j < n)%nat ->
  let x := fun i => match c i with Some (es, _) => suml es (fun e => snd e * src (fst e)) | None => src i end in
  vmult n c (matrix n A) dst src j =
    dst j + (match c j with None => matrix n A x j | Some _ => 0 end) + sumn n (fun i => if Nat.ltb i j then 0 else weight c i j * matrix n A x i).
Proof.
  intros n A c dst src j Hj x. unfold vmult. rewrite tv_spec by exact Hj. unfold base.
  assert (E : forall i, matrix n A (constraint_vmult c src) i = matrix n A x i) by (intros i; unfold matrix; apply sumn_ext; intros k _; rewrite cv_spec; reflexivity).
  destruct (c j); [|rewrite E]; f_equal; apply sumn_ext; intros i _; rewrite E; reflexivity.
Qed.
(** the transpose product is the transpose of the constraint product exactly when the lines only name earlier dofs *)
Theorem C90_transpose_iff : forall n c, closed n c ->
  ((forall x y, sumn n (fun j => constraint_tvmult n c (fun _ => 0) y j * x j) = sumn n (fun i => y i * constraint_vmult c x i)) <-> downward n c).
Proof.
  intros n c C.
  assert (R : forall x y, sumn n (fun i => y i * constraint_vmult c x i) =
    sumn n (fun j => (base c y j + sumn n (fun i => weight c i j * y i)) * x j)).
  { intros x y. rewrite (sumn_ext n (fun j => (base c y j + _) * x j) (fun j => base c y j * x j + sumn n (fun i => weight c i j * y i * x j))).
    2:{ intros j _. rewrite sumn_scal_r. ring. }
    rewrite sumn_plus, (sumn_swap n n (fun j i => weight c i j * y i * x j)), <- sumn_plus. apply sumn_ext. intros i Hi.
    rewrite (sumn_ext n (fun j => weight c i j * y i * x j) (fun j => y i * (weight c i j * x j))) by (intros; ring).
    rewrite sumn_scal, (weight_sum n c i x Hi (closed_range n c C i Hi)). rewrite cv_spec. unfold base. destruct (c i) as [[es g]|]; ring. }
  split.
  - intros T i j Hi Hj. specialize (T (fun k => if Nat.eqb k j then 1 else 0) (fun k => if Nat.eqb k i then 1 else 0)). rewrite R in T.
    rewrite (sumn_single n j), (sumn_single n j) in T; try lia; try (intros k _ Hk; rewrite (proj2 (Nat.eqb_neq k j)) by exact Hk; ring).
    rewrite tv_spec in T by lia. rewrite Nat.eqb_refl in T.
    rewrite (sumn_single n i), (sumn_single n i) in T; try lia.
    + rewrite Nat.eqb_refl, (proj2 (Nat.ltb_lt i j)) in T by lia. lra.
    + intros k _ Hk. rewrite (proj2 (Nat.eqb_neq k i)) by exact Hk. ring.
    + intros k _ Hk. rewrite (proj2 (Nat.eqb_neq k i)) by exact Hk. destruct (Nat.ltb k j); ring.
  - intros D x y. rewrite R. apply sumn_ext. intros j Hj. rewrite tv_spec by exact Hj. rewrite Rplus_0_l. f_equal. f_equal. apply sumn_ext. intros i Hi.
    destruct (Nat.ltb i j) eqn:L; [|reflexivity]. apply Nat.ltb_lt in L. rewrite (D i j) by lia. ring.
Qed.

Lemma transpose n c x y : closed n c -> downward n c ->
  sumn n (fun j => constraint_tvmult n c (fun _ => 0) y j * x j) = sumn n (fun i => y i * constraint_vmult c x i).
Proof. intros C D. apply C90_transpose_iff; auto. Qed.
Lemma cv_obeys n c x : closed n c -> obeys n c 0 (constraint_vmult c x).
Proof.
  intros C i es g Hi E. rewrite cv_spec, E. rewrite Rmult_0_l, Rplus_0_r. apply suml_ext. intros e He.
  destruct (C i es g Hi E e He) as [_ F]. rewrite cv_spec. unfold free in F. rewrite F. reflexivity.
Qed.
Lemma obeys_cv n c z i : obeys n c 0 z -> (i < n)%nat -> constraint_vmult c z i = z i.
Proof. intros O Hi. rewrite cv_spec. destruct (c i) as [[es g]|] eqn:E; [|reflexivity]. rewrite (O i es g Hi E). lra. Qed.
Lemma tv_minus n c x y j : (j < n)%nat -> constraint_tvmult n c (fun _ => 0) (fun i => x i - y i) j =
  constraint_tvmult n c (fun _ => 0) x j - constraint_tvmult n c (fun _ => 0) y j.
Proof.
  intros Hj. rewrite !tv_spec by exact Hj.
  rewrite (sumn_ext n _ (fun i => (if Nat.ltb i j then 0 else weight c i j * x i) - (if Nat.ltb i j then 0 else weight c i j * y i)))
    by (intros i _; destruct (Nat.ltb i j); ring).
  rewrite sumn_minus. unfold base. destruct (c j); ring.
Qed.
Lemma tv_ext n c x y j : (j < n)%nat -> (forall i, (i < n)%nat -> x i = y i) ->
  constraint_tvmult n c (fun _ => 0) x j = constraint_tvmult n c (fun _ => 0) y j.
Proof.
  intros Hj E. rewrite !tv_spec by exact Hj. f_equal.
  - unfold base. destruct (c j); [reflexivity|]. rewrite (E j Hj). reflexivity.
  - apply sumn_ext. intros i Hi. rewrite (E i Hi). reflexivity.
Qed.
Lemma fin_obeys n c y : closed n c -> obeys n c 1 (finalise c y).
Proof.
  intros C i es g Hi E. unfold finalise at 1. rewrite E. rewrite Rmult_1_l. f_equal. apply suml_ext. intros e He.
  destruct (C i es g Hi E e He) as [_ F]. unfold finalise. unfold free in F. rewrite F. reflexivity.
Qed.
Lemma residual n A c b y j : (j < n)%nat ->
  vmult n c (matrix n A) (fun _ => 0) y j - distribute_rhs n c (matrix n A) b j =
  constraint_tvmult n c (fun _ => 0) (fun i => matrix n A (finalise c y) i - b i) j.
Proof.
  intros Hj. unfold vmult, distribute_rhs. rewrite <- tv_minus by exact Hj. apply tv_ext; [exact Hj|]. intros i Hi.
  assert (S : matrix n A (finalise c y) i = matrix n A (constraint_vmult c y) i - matrix n A (fun k => - inhomogeneity c k) i).
  { unfold matrix. rewrite <- sumn_minus. apply sumn_ext. intros k _. rewrite cv_spec. unfold finalise, inhomogeneity. destruct (c k) as [[es g]|]; ring. }
  rewrite S. ring.
Qed.

(** with such constraints, solving [vmult y = distribute_rhs b] and finalising gives a solution of the constrained problem, and only that *)
Theorem C90_system_iff : forall n A c b y, closed n c -> downward n c ->
  ((forall j, (j < n)%nat -> vmult n c (matrix n A) (fun _ => 0) y j = distribute_rhs n c (matrix n A) b j) <->
   weak_solution n A c b (finalise c y)).
Proof.
  intros n A c b y C D. set (r := fun i => matrix n A (finalise c y) i - b i).
  assert (K : (forall j, (j < n)%nat -> vmult n c (matrix n A) (fun _ => 0) y j = distribute_rhs n c (matrix n A) b j) <->
              (forall j, (j < n)%nat -> constraint_tvmult n c (fun _ => 0) r j = 0)).
  { split; intros S j Hj; specialize (S j Hj); assert (Q := residual n A c b y j Hj); fold r in Q; lra. }
  rewrite K. clear K. split.
  - intros S. split; [apply fin_obeys; exact C|]. intros z Z. change (sumn n (fun i => z i * r i) = 0).
    rewrite (sumn_ext n _ (fun i => r i * constraint_vmult c z i)) by (intros i Hi; rewrite (obeys_cv n c z i Z Hi); ring).
    rewrite <- (transpose n c z r C D). apply sumn_zero. intros j Hj. rewrite (S j Hj). ring.
  - intros [_ S] j Hj. set (e := fun k => if Nat.eqb k j then 1 else 0).
    assert (T := transpose n c e r C D). rewrite (sumn_single n j) in T; [|exact Hj|intros k _ Hk; unfold e; rewrite (proj2 (Nat.eqb_neq k j)) by exact Hk; ring].
    unfold e in T at 1. rewrite Nat.eqb_refl in T. specialize (S _ (cv_obeys n c e C)). fold r in S.
    rewrite Rmult_1_r in T. rewrite T. rewrite <- S. apply sumn_ext. intros i _. unfold r. ring.
Qed.
(** a call adds its product to what the destination holds *)
Theorem C90_adds_to_destination : forall n c M dst y j, (j < n)%nat ->
  vmult n c M dst y j = dst j + vmult n c M (fun _ => 0) y j.
Proof. intros n c M dst y j Hj. unfold vmult. rewrite !tv_spec by exact Hj. ring. Qed.
(** hence it is no product: the same operand gives another result when the destination is not cleared *)
Theorem C90_is_a_product_refuted : exists n A c y,
  closed n c /\ downward n c /\ exists j, (j < n)%nat /\
    let first := vmult n c (matrix n A) (fun _ => 0) y in vmult n c (matrix n A) first y j <> first j.
Proof.
  exists 1%nat, (fun _ _ => 1), (fun _ => None), (fun _ => 1). split; [intros i es g _ E; discriminate|]. split; [intros i j _ _; reflexivity|].
  exists 0%nat. split; [lia|]. intros first. rewrite C90_adds_to_destination by lia. fold first. unfold first.
  unfold vmult. rewrite tv_spec by lia. cbn. lra.
Qed.
(** a line naming a later dof: the operator solves another problem *)
Theorem C90_any_order_refuted : exists n A c b y, closed n c /\
  (forall j, (j < n)%nat -> vmult n c (matrix n A) (fun _ => 0) y j = distribute_rhs n c (matrix n A) b j) /\
  ~ weak_solution n A c b (finalise c y).
Proof.
  set (c := fun i => match i with O => Some ([(1%nat, 1)], 0) | _ => None end : option (list (nat * R) * R)).
  exists 2%nat, (fun i j => if Nat.eqb i j then 1 else 0), c, (fun i => match i with O => 1 | _ => 0 end), (fun _ => 0).
  split.
  - intros i es g Hi E. destruct i as [|i]; cbn in E; [|discriminate]. injection E as <- <-. intros e [<-|[]]. cbn. split; [lia|reflexivity].
  - split.
    + intros j Hj. unfold vmult, distribute_rhs. rewrite !tv_spec by exact Hj. destruct j as [|[|j]]; [| |lia];
      cbn; rewrite ?Rmult_0_r, ?Rplus_0_r, ?Rplus_0_l, ?Ropp_0; cbn; lra.
    + intros [_ S]. specialize (S (fun _ => 1)). cbn in S.
      assert (O : obeys 2 c 0 (fun _ => 1)).
      { intros i es g Hi E. destruct i as [|i]; cbn in E; [|discriminate]. injection E as <- <-. cbn. lra. }
      specialize (S O). unfold matrix in S. cbn in S. lra.
Qed.
(** the operator is singular as soon as there is a constrained dof: its own column is zero (and, for such constraints, its row) *)
Theorem C90_singular : forall n A c dof es g, closed n c -> (dof < n)%nat -> c dof = Some (es, g) ->
  (exists y, y dof <> 0 /\ forall j, (j < n)%nat -> vmult n c (matrix n A) (fun _ => 0) y j = 0) /\
  (forall y, vmult n c (matrix n A) (fun _ => 0) y dof = 0).
Proof.
  intros n A c dof es g C Hd E. split.
  - exists (fun k => if Nat.eqb k dof then 1 else 0). split; [rewrite Nat.eqb_refl; lra|]. intros j Hj.
    assert (Z : forall i, (i < n)%nat -> constraint_vmult c (fun k => if Nat.eqb k dof then 1 else 0) i = 0).
    { intros i Hi. rewrite cv_spec. destruct (c i) as [[es' g']|] eqn:E'.
      - rewrite (suml_ext _ _ (fun _ => 0)); [apply suml_zero; auto|]. intros e He. destruct (C i es' g' Hi E' e He) as [_ F].
        destruct (Nat.eqb_spec (fst e) dof) as [Q|Q]; [unfold free in F; rewrite Q, E in F; discriminate|ring].
      - destruct (Nat.eqb_spec i dof) as [Q|Q]; [congruence|reflexivity]. }
    unfold vmult. rewrite (tv_ext n c _ (fun _ => 0)); [|exact Hj|intros i _; unfold matrix; apply sumn_zero; intros k Hk; rewrite (Z k Hk); ring].
    rewrite tv_spec by exact Hj. rewrite sumn_zero; [unfold base; destruct (c j); lra|]. intros i _. destruct (Nat.ltb i j); ring.
  - intros y. unfold vmult. rewrite tv_spec by exact Hd. rewrite sumn_zero; [unfold base; rewrite E; lra|].
    intros i Hi. destruct (Nat.ltb i dof); [reflexivity|]. destruct (Req_dec (weight c i dof) 0) as [W|W]; [rewrite W; ring|].
    assert (F := weight_free n c i dof C Hi W). unfold free in F. congruence.
Qed.

(** ** Non-vacuity: two dofs, u1 = 2 u0 + 3 (a line naming an earlier dof), A = [[2,1],[1,3]], b = (1,2);
    the system is (2 + 2 + 2 + 12) y0 = (1 - 3) + 2 (2 - 9), i.e. 18 y0 = -16 *)
Definition ex_c : tcons := fun i => match i with 1%nat => Some ([(0%nat, 2)], 3) | _ => None end.
Definition ex_A (i j : nat) : R := match i, j with O, O => 2 | S O, S O => 3 | _, _ => 1 end.
Definition ex_b (i : nat) : R := match i with O => 1 | _ => 2 end.
Example C90_instance : closed 2 ex_c /\ downward 2 ex_c /\
  weak_solution 2 ex_A ex_c ex_b (finalise ex_c (fun _ => - (16 / 18))).
Proof.
  assert (C : closed 2 ex_c).
  { intros i es g Hi E. destruct i as [|[|i]]; cbn in E; try discriminate. injection E as <- <-. intros e [<-|[]]. cbn. split; [lia|reflexivity]. }
  assert (D : downward 2 ex_c).
  { intros i j Hi Hj. destruct i as [|[|i]]; [reflexivity| |lia]. destruct j as [|[|j]]; lia. }
  split; [exact C|]. split; [exact D|]. apply C90_system_iff; [exact C|exact D|].
  intros j Hj. unfold vmult, distribute_rhs. rewrite !tv_spec by exact Hj.
  destruct j as [|[|j]]; [| |lia]; cbn; unfold matrix; cbn; lra.
Qed.
