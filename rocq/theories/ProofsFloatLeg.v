(** The Legendre tables never leave the finite numbers: a checker for their programs, and its soundness. *)
From Coq Require Import ZArith Reals List Lia Lra Bool PArith.
From Flocq Require Import Core.
From Verif Require Import ModelLegendre ModelLegTable ModelLegApi ModelFmm ModelFloat SpecFloat ProofsFloat LibFlx ModelFloatExp SpecFloatExp ProofsFloatExp.
Import ListNotations.
Local Open Scope R_scope.

(** what is known of a value: positive, x * x, 1 - x * x, the root of 1 - x * x *)
Inductive av : Set := APos | ASq | AOm | ARt | AAny.
Definition is_one (a : ex) : bool := match a with Num z => Z.eqb z 1 | _ => false end.
Definition is_X (a : ex) : bool := match a with X => true | _ => false end.
Fixpoint abs (e : list (positive * av)) (a : ex) : av :=
  match a with
  | Num z => if Z.ltb 0 z then APos else AAny
  | Var k => match get k e with Some v => v | None => AAny end
  | Mul a b => if is_X a && is_X b then ASq else AAny
  | Sub a b => if is_one a then match abs e b with ASq => AOm | _ => AAny end else AAny
  | Sqrt a => match abs e a with APos => APos | AOm => ARt | _ => AAny end
  | _ => AAny
  end.
(** [strict]: the argument is neither 1 nor -1 *)
Fixpoint ok (strict : bool) (e : list (positive * av)) (a : ex) : bool :=
  match a with
  | Num _ | X => true
  | Var k => match get k e with Some _ => true | None => false end
  | Neg a | Pow2 a => ok strict e a
  | Add a b | Sub a b | Mul a b => ok strict e a && ok strict e b
  | Div a b => ok strict e a && ok strict e b && match abs e b with APos => true | ARt => strict | _ => false end
  | Sqrt a => ok strict e a && match abs e a with APos | AOm => true | _ => false end
  end.
Fixpoint okl (strict : bool) (e : list (positive * av)) (l : list (positive * ex)) (r : ex) : bool :=
  match l with [] => ok strict e r | (k, a) :: l => ok strict e a && okl strict ((k, abs e a) :: e) l r end.
Definition okp (strict : bool) (p : prog) : bool := okl strict [] (fst p) (snd p).

Section Sound.
  Variable M : fmath.
  Hypothesis HM : double_math M.
  Variable x : R.
  Variable strict : bool.
  Hypothesis Hx : -1 <= x <= 1.
  Hypothesis Hs : strict = true -> double x /\ -1 < x < 1.
  Let om := flx (1 - flx (x * x)).
  Lemma om_nonneg : 0 <= om.
  Proof. apply flx_nonneg. assert (L : flx (x * x) <= flx 1) by (apply flx_le; nra). rewrite flx_1 in L. lra. Qed.
  Lemma om_pos : strict = true -> 0 < om.
  Proof.
    intros E. destruct (Hs E) as [D B]. apply flx_pos. enough (flx (x * x) < 1) by lra.
    assert (S : forall y, double y -> 0 <= y < 1 -> flx (y * y) < 1).
    { intros y Dy By. assert (P : y <= pred53 1). { apply pred_ge_gt; [apply valid53|exact Dy|apply double_1|apply By]. }
      assert (U : ulp53 (bpow radix2 0 * / 2) = bpow radix2 (0 - 53)).
      { apply ulp_at. cbn. rewrite Rabs_pos_eq by lra. lra. }
      assert (P1 : pred53 1 = 1 - / 9007199254740992).
      { change 1 with (bpow radix2 0) at 1. rewrite pred_bpow. unfold FLX_exp. cbn. lra. }
      assert (Q : y * y <= (1 - / 9007199254740992) * (1 - / 9007199254740992)) by (apply Rmult_le_compat; lra).
      assert (F := flx_bounds _ (sq_nn y)). assert (Y0 := sq_nn y).
      assert (T : flx (y * y) <= y * y * (1 + / 9007199254740992)) by lra.
      assert (y * y * (1 + / 9007199254740992) <= (1 - / 9007199254740992) * (1 - / 9007199254740992) * (1 + / 9007199254740992)) by (apply Rmult_le_compat_r; lra). lra. }
    destruct (Rle_or_lt 0 x) as [P|P]; [apply S; [exact D|lra]|].
    replace (x * x) with (- x * - x) by ring. apply S; [apply double_opp, D|lra].
  Qed.
  Definition means (v : R) (a : av) : Prop :=
    match a with APos => 0 < v | ASq => v = flx (x * x) | AOm => v = om | ARt => v = flx (sqrt om) | AAny => True end.
  Definition agree (e : env) (g : list (positive * av)) : Prop := forall k a, get k g = Some a -> exists v, get k e = Some v /\ means v a.
  Lemma isX a : is_X a = true -> a = X. Proof. destruct a; cbn; congruence. Qed.
  Lemma ok_sound e g a : agree e g -> ok strict g a = true -> exists v, feval M x e a = Some v /\ means v (abs g a).
  Proof.
    intros A. induction a as [z| |k|a IH|a IHa b IHb|a IHa b IHb|a IHa b IHb|a IHa b IHb|a IH|a IH]; cbn [ok]; intros O.
    - exists (fnum M z). split; [reflexivity|]. cbn [abs]. destruct (Z.ltb_spec 0 z) as [L|L]; [|exact I].
      cbn [means]. rewrite (proj2 HM). apply flx_pos. apply (IZR_lt 0 z L).
    - exists x. split; [reflexivity|exact I].
    - cbn [feval abs]. destruct (get k g) as [v|] eqn:E; [|discriminate]. apply (A k v E).
    - destruct (IH O) as (v & E & _). exists (- v). cbn [feval]. rewrite E. split; [reflexivity|exact I].
    - apply andb_prop in O. destruct O as [O1 O2]. destruct (IHa O1) as (v & E & _). destruct (IHb O2) as (w & E' & _).
      eexists. cbn [feval]. rewrite E, E'. split; [reflexivity|exact I].
    - apply andb_prop in O. destruct O as [O1 O2]. destruct (IHa O1) as (v & E & _). destruct (IHb O2) as (w & E' & W).
      eexists. cbn [feval]. rewrite E, E'. split; [reflexivity|]. cbn [abs].
      destruct (is_one a) eqn:I1; [|exact I]. destruct (abs g b); try exact I. cbn [means] in *.
      destruct a; try discriminate. cbn in I1. apply Z.eqb_eq in I1. subst z. cbn in E. injection E as <-. rewrite (proj2 HM), flx_1, (e_sub M HM). subst w. reflexivity.
    - apply andb_prop in O. destruct O as [O1 O2]. destruct (IHa O1) as (v & E & _). destruct (IHb O2) as (w & E' & _).
      eexists. cbn [feval]. rewrite E, E'. split; [reflexivity|]. cbn [abs].
      destruct (is_X a && is_X b) eqn:I1; [|exact I]. apply andb_prop in I1. destruct I1 as [I1 I2]. apply isX in I1, I2. subst a b.
      cbn in E, E'. injection E as <-. injection E' as <-. cbn [means]. apply (e_mul M HM).
    - apply andb_prop in O. destruct O as [O O3]. apply andb_prop in O. destruct O as [O1 O2]. destruct (IHa O1) as (v & E & _). destruct (IHb O2) as (w & E' & W).
      eexists. cbn [feval]. rewrite E, E'. cbn [bind]. split; [|exact I]. apply (fdiv_some M HM).
      destruct (abs g b); try discriminate; cbn [means] in W; [lra|]. subst w. assert (P := flx_pos _ (sqrt_lt_R0 _ (om_pos O3))). lra.
    - apply andb_prop in O. destruct O as [O1 O2]. destruct (IH O1) as (v & E & V).
      eexists. cbn [feval abs]. rewrite E. cbn [bind]. split; [apply (froot_some M HM)|].
      + destruct (abs g a); try discriminate; cbn [means] in V; [lra|]. subst v. apply om_nonneg.
      + destruct (abs g a); try discriminate; cbn [means] in V |- *; [|subst v; reflexivity]. apply flx_pos, sqrt_lt_R0. exact V.
    - destruct (IH O) as (v & E & _). eexists. cbn [feval]. rewrite E. split; [reflexivity|exact I].
  Qed.
  Lemma agree_cons e g k a v : agree e g -> means v a -> agree ((k, v) :: e) ((k, a) :: g).
  Proof.
    intros A V j b. cbn [get]. destruct (Pos.eqb k j); [|apply A]. intros E. injection E as <-. exists v. auto.
  Qed.
  Lemma okl_sound l r : forall e g, agree e g -> okl strict g l r = true ->
    exists v, bind (fexec M x e l) (fun e => feval M x e r) = Some v.
  Proof.
    induction l as [|[k a] l IH]; intros e g A O; cbn [okl fexec] in *.
    - destruct (ok_sound e g r A O) as (v & E & _). exists v. exact E.
    - apply andb_prop in O. destruct O as [O1 O2]. destruct (ok_sound e g a A O1) as (v & E & V). rewrite E. cbn [bind].
      apply (IH _ _ (agree_cons e g k _ v A V) O2).
  Qed.
  Lemma okp_sound p : okp strict p = true -> exists v, frun M p x = Some v.
  Proof. intros O. apply (okl_sound (fst p) (snd p) [] []); [|exact O]. intros k a E. discriminate. Qed.
End Sound.

Definition all_ok (strict : bool) (t : list ((nat * nat) * prog)) : bool :=
  forallb (fun n => forallb (fun m => match table t n m with Some p => okp strict p | None => false end) (seq 0 (n + 1))) (seq 0 21).
Lemma tables_ok : all_ok false leg_pointers_assignments = true. Proof. vm_compute. reflexivity. Qed.
Lemma der_tables_ok : all_ok true leg_der_pointers_assignments = true. Proof. vm_compute. reflexivity. Qed.
Lemma all_ok_at s t n m : all_ok s t = true -> (n <= 20)%nat -> (m <= n)%nat -> exists p, table t n m = Some p /\ okp s p = true.
Proof.
  intros A Hn Hm. unfold all_ok in A. rewrite forallb_forall in A. specialize (A n ltac:(apply in_seq; lia)). rewrite forallb_forall in A.
  specialize (A m ltac:(apply in_seq; lia)). destruct (table t n m) as [p|]; [|discriminate]. eauto.
Qed.
Lemma leg_finite M x n m : double_math M -> -1 <= x <= 1 -> (n <= 20)%nat -> (m <= n)%nat -> exists v, fGetAssLegFunSph M n m x = Some v.
Proof.
  intros HM Hx Hn Hm. destruct (all_ok_at _ _ n m tables_ok Hn Hm) as (p & E & O). unfold fGetAssLegFunSph. rewrite E. cbn [bind].
  apply (okp_sound M HM x false Hx); [discriminate|exact O].
Qed.
Lemma leg_der_finite M x n m : double_math M -> double x -> -1 < x < 1 -> (n <= 20)%nat -> (m <= n)%nat -> exists v, fGetAssLegFunSphDeriv M n m x = Some v.
Proof.
  intros HM D Hx Hn Hm. destruct (all_ok_at _ _ n m der_tables_ok Hn Hm) as (p & E & O). unfold fGetAssLegFunSphDeriv. rewrite E. cbn [bind].
  apply (okp_sound M HM x true); [lra|intros _; auto|exact O].
Qed.
