(** * The decidable check run on every table entry, and its soundness. *)
From Coq Require Import ZArith List Reals Lra Lia Bool.
From Coquelicot Require Import Coquelicot.
From Verif Require Import ModelLegendre SpecLegendre ProofsLegendre.
Import ListNotations.
Local Open Scope R_scope.

Fixpoint zfact (n : nat) : Z := match n with O => 1%Z | S k => (Z.of_nat (S k) * zfact k)%Z end.
Lemma zfact_ok n : IZR (zfact n) = INR (fact n).
Proof. induction n as [|n IH]; [reflexivity|]. cbn [zfact]. rewrite mult_IZR, IH, <- INR_IZR_INZ. change (fact (S n)) with (S n * fact n)%nat. rewrite mult_INR. reflexivity. Qed.

(** d^(n+m)/dx^(n+m) (x^2-1)^n *)
Definition rod (n m : nat) : poly := pdern (n + m) (ppow [(-1)%Z; 0%Z; 1%Z] n).
Lemma rod_ok n m x : Derive_n (fun t => (t ^ 2 - 1) ^ n) (n + m) x = peval (rod n m) x.
Proof. unfold rod. rewrite <- pdern_ok. apply Derive_n_ext. intros t. rewrite peval_pow. f_equal. cbn [peval]. ring. Qed.

(** position of the last nonzero coefficient *)
Fixpoint pdeg (p : poly) : nat := match p with [] => O | _ :: r => if pzero r then O else S (pdeg r) end.
(** u is a positive multiple of r with the right square: sqrt(c)^a u / d = sg sqrt(N) r / e, N = f1/f2 *)
Definition cmp (c : Z) (a : bool) (u : poly) (d : positive) (sg : Z) (r : poly) (e f1 f2 : Z) : bool :=
  let rl := nth (pdeg r) r 0%Z in
  let ul := nth (pdeg r) u 0%Z in
  (peqb (pscale rl u) (pscale ul r) && negb (Z.eqb rl 0) && Z.ltb 0 (sg * ul * rl) &&
   Z.eqb (ul * e * (ul * e) * (if a then c else 1) * f2) (f1 * (Zpos d * rl * (Zpos d * rl))))%bool.
Lemma cmp_ok c a u d sg r e f1 f2 x :
  (0 <= c)%Z -> (0 < e)%Z -> (0 < f1)%Z -> (0 < f2)%Z -> (sg * sg = 1)%Z ->
  cmp c a u d sg r e f1 f2 = true ->
  sq a (IZR c) * peval u x / IZR (Zpos d) = IZR sg * sqrt (IZR f1 / IZR f2) * (peval r x / IZR e).
Proof.
  intros Hc He H1 H2 Hs H. unfold cmp in H. cbv zeta in H.
  set (rl := nth (pdeg r) r 0%Z) in *. set (ul := nth (pdeg r) u 0%Z) in *.
  apply andb_prop in H as [H D]. apply andb_prop in H as [H C]. apply andb_prop in H as [A B].
  apply negb_true_iff, Z.eqb_neq in B. apply Z.ltb_lt in C. apply Z.eqb_eq in D.
  assert (A' := peqb_ok _ _ x A). rewrite !peval_scale in A'.
  assert (B' : IZR rl <> 0) by (apply IZR_neq; auto).
  assert (He' : 0 < IZR e) by (apply (IZR_lt 0); lia). assert (H1' : 0 < IZR f1) by (apply (IZR_lt 0); lia). assert (H2' : 0 < IZR f2) by (apply (IZR_lt 0); lia).
  assert (Hd : 0 < IZR (Zpos d)) by (apply (IZR_lt 0); lia).
  assert (E : peval u x = IZR ul / IZR rl * peval r x).
  { apply (Rmult_eq_reg_l (IZR rl)); auto. rewrite A'. field. auto. }
  rewrite E. set (N := IZR f1 / IZR f2). assert (HN : 0 < N) by (apply Rdiv_lt_0_compat; auto).
  assert (S : sq a (IZR c) * IZR ul / IZR rl / IZR (Zpos d) * IZR e = IZR sg * sqrt N).
  { assert (Hsg : IZR sg * IZR sg = 1) by (rewrite <- mult_IZR, Hs; reflexivity).
    set (L := sq a (IZR c) * IZR ul / IZR rl / IZR (Zpos d) * IZR e).
    assert (Hq : 0 <= sq a (IZR c)) by (destruct a; simpl; [apply sqrt_pos|lra]).
    assert (Hq2 : sq a (IZR c) * sq a (IZR c) = IZR (if a then c else 1)).
    { destruct a; simpl; [apply sqrt_sqrt; apply (IZR_le 0); lia|ring]. }
    assert (P : 0 <= IZR sg * L).
    { unfold L. replace (IZR sg * _) with (sq a (IZR c) * (IZR sg * IZR ul * IZR rl) / (IZR rl * IZR rl) / IZR (Zpos d) * IZR e) by (field; lra).
      assert (K : 0 < IZR sg * IZR ul * IZR rl) by (rewrite <- !mult_IZR; apply (IZR_lt 0); lia).
      assert (K2 : 0 < IZR rl * IZR rl) by (apply Rsqr_pos_lt; auto).
      apply Rmult_le_pos; [|lra]. unfold Rdiv. repeat (apply Rmult_le_pos; [|apply Rlt_le, Rinv_0_lt_compat; auto]). apply Rmult_le_pos; lra. }
    assert (Q : (IZR sg * L) * (IZR sg * L) = N).
    { replace (IZR sg * L * (IZR sg * L)) with ((IZR sg * IZR sg) * (L * L)) by ring. rewrite Hsg, Rmult_1_l. unfold L.
      transitivity ((sq a (IZR c) * sq a (IZR c)) * (IZR ul * IZR e * (IZR ul * IZR e)) / (IZR rl * IZR rl) / (IZR (Zpos d) * IZR (Zpos d))); [field; lra|].
      rewrite Hq2. unfold N.
      apply (f_equal IZR) in D. rewrite !mult_IZR in D.
      apply (Rmult_eq_reg_r (IZR f2 * (IZR (Zpos d) * IZR rl * (IZR (Zpos d) * IZR rl)))).
      2: { apply Rmult_integral_contrapositive. split; [lra|]. apply Rmult_integral_contrapositive; split; apply Rmult_integral_contrapositive; split; auto; lra. }
      transitivity (IZR f1 * (IZR (Zpos d) * IZR rl * (IZR (Zpos d) * IZR rl))); [rewrite <- D|]; field; repeat split; lra. }
    assert (R1 : IZR sg * L = sqrt N). { rewrite <- Q. symmetry. apply sqrt_square. exact P. }
    rewrite <- R1. rewrite <- Rmult_assoc, Hsg. ring. }
  rewrite <- S. field. repeat split; auto; lra.
Qed.

(** the constant under the first square root *)
Fixpoint constc (l : list (positive * ex)) : Z :=
  match l with (_, Sqrt (Num z)) :: _ => z | _ :: r => constc r | [] => 1%Z end.
Definition sgn (m : nat) : Z := if Nat.even m then 1%Z else (-1)%Z.
Lemma sgn_pow m : IZR (sgn m) = (-1) ^ m.
Proof.
  unfold sgn. destruct (Nat.even m) eqn:E.
  - apply Nat.even_spec in E as [k ->]. rewrite pow_1_even. reflexivity.
  - assert (O : Nat.odd m = true) by (unfold Nat.odd; rewrite E; reflexivity). apply Nat.odd_spec in O as [k ->].
    replace (2 * k + 1)%nat with (S (2 * k)) by lia. rewrite pow_1_odd. reflexivity.
Qed.
Lemma sgn_sq m : (sgn m * sgn m = 1)%Z.
Proof. unfold sgn. destruct (Nat.even m); reflexivity. Qed.
(** (1-x^2)^(m/2) times the derivative, without the odd factor sqrt(1-x^2) *)
Definition gpoly (n m : nat) : poly := pmul (ppow pw (Nat.div2 m)) (rod n m).
Definition e_of (n : nat) : Z := (2 ^ Z.of_nat n * zfact n)%Z.
Lemma zfact_pos n : (0 < zfact n)%Z.
Proof. induction n as [|n IH]; [reflexivity|]. cbn [zfact]. nia. Qed.
Lemma e_pos n : (0 < e_of n)%Z.
Proof. unfold e_of. assert (A := zfact_pos n). assert (0 < 2 ^ Z.of_nat n)%Z by (apply Z.pow_pos_nonneg; lia). nia. Qed.
Lemma e_ok n : IZR (e_of n) = 2 ^ n * INR (fact n).
Proof. unfold e_of. rewrite mult_IZR, zfact_ok, <- pow_IZR. reflexivity. Qed.

Lemma pow_split m s w : s * s = w -> s ^ m = (if Nat.odd m then s else 1) * w ^ Nat.div2 m.
Proof.
  intros H. rewrite (Nat.div2_odd m) at 1. rewrite pow_add, pow_mult. replace (s ^ 2) with w by (rewrite <- H; ring).
  rewrite Rmult_comm. destruct (Nat.odd m); simpl; ring.
Qed.
Lemma Plm_alt n m x : -1 <= x <= 1 ->
  Plm n m x = IZR (sgn m) * sqrt (IZR (zfact (n - m)) / IZR (zfact (n + m))) * (sq (Nat.odd m) (1 - x * x) * (peval (gpoly n m) x / IZR (e_of n))).
Proof.
  intros H. unfold Plm. rewrite rod_ok, !zfact_ok, e_ok, sgn_pow. unfold gpoly. rewrite peval_mul, peval_pow, peval_w.
  replace (1 - x ^ 2) with (1 - x * x) by ring.
  rewrite (pow_split m (sqrt (1 - x * x)) (1 - x * x)) by (apply sqrt_sqrt, w_nonneg; auto).
  unfold sq, Rdiv. destruct (Nat.odd m); ring.
Qed.

Definition check_val (n m : nat) (p : prog) : bool :=
  let c := constc (fst p) in
  match nrun false c p with
  | Some v => (Z.leb 0 c && eqb (nb v) (Nat.odd m) && cmp c (na v) (np v) (nd v) (sgn m) (gpoly n m) (e_of n) (zfact (n - m)) (zfact (n + m)))%bool
  | None => false
  end.
Lemma check_val_ok n m p x : check_val n m p = true -> -1 <= x <= 1 -> run p x = Some (Plm n m x).
Proof.
  intros H Hx. unfold check_val in H. cbv zeta in H. destruct (nrun false (constc (fst p)) p) as [v|] eqn:E; [|discriminate].
  apply andb_prop in H as [H C]. apply andb_prop in H as [A B]. apply Z.leb_le in A. apply eqb_prop in B.
  destruct (nrun_ok false _ x Hx A p v E) as [K R]. rewrite R. f_equal. rewrite Plm_alt by auto.
  assert (Q := cmp_ok _ _ _ _ _ _ _ _ _ x A (e_pos n) (zfact_pos _) (zfact_pos _) (sgn_sq m) C).
  unfold den. rewrite K by auto. rewrite B. cbn [pow].
  transitivity (sq (Nat.odd m) (1 - x * x) * (sq (na v) (IZR (constc (fst p))) * peval (np v) x / IZR (Z.pos (nd v)))); [field; apply posR|].
  rewrite Q. ring.
Qed.

(** derivative of sqrt(1-x^2)^b g: numerator over (1-x^2)^b *)
Definition dpoly (n m : nat) : poly :=
  let g := gpoly n m in
  if Nat.odd m then padd (pmul pw (pder g)) (pmul [0%Z; (-1)%Z] g) else pder g.
Definition bnat (b : bool) : nat := if b then 1%nat else 0%nat.
Lemma dpoly_ok n m x : -1 < x < 1 ->
  is_derive (fun t => sq (Nat.odd m) (1 - t * t) * peval (gpoly n m) t) x
            (sq (Nat.odd m) (1 - x * x) * peval (dpoly n m) x / (1 - x * x) ^ bnat (Nat.odd m)).
Proof.
  intros H. assert (P := w_pos x H). assert (G := pder_ok (gpoly n m) x). unfold dpoly. cbv zeta.
  assert (S0 := sqrt_lt_R0 _ P). assert (SS : sqrt (1 - x * x) * sqrt (1 - x * x) = 1 - x * x) by (apply sqrt_sqrt; lra).
  destruct (Nat.odd m); cbn [sq bnat pow].
  - auto_derive; [repeat split; [lra|exists (peval (pder (gpoly n m)) x); exact G]|].
    replace (Derive (fun y : R => peval (gpoly n m) y) x) with (peval (pder (gpoly n m)) x) by (symmetry; apply is_derive_unique; exact G).
    rewrite peval_add, !peval_mul, peval_w. cbn [peval].
    replace (1 + - (x * x)) with (1 - x * x) by ring. 
    set (s := sqrt (1 - x * x)) in *. rewrite <- SS. field. lra.
  - apply (is_derive_ext (peval (gpoly n m))); [intros; simpl; ring|]. replace (1 * _ / 1) with (peval (pder (gpoly n m)) x) by field. exact G.
Qed.
Definition check_der (allow : bool) (n m : nat) (p : prog) : bool :=
  let c := constc (fst p) in
  match nrun allow c p with
  | Some v => (Z.leb 0 c && ((pzero (np v) && pzero (dpoly n m)) || (eqb (nb v) (Nat.odd m) &&
      cmp c (na v) (pmul (ppow pw (bnat (Nat.odd m))) (np v)) (nd v) (sgn m) (pmul (ppow pw (ni v)) (dpoly n m)) (e_of n) (zfact (n - m)) (zfact (n + m)))))%bool
  | None => false
  end.
Lemma check_der_ok allow n m p x : check_der allow n m p = true -> -1 < x < 1 ->
  exists d, run p x = Some d /\ is_derive (Plm n m) x d.
Proof.
  intros H Hx. unfold check_der in H. cbv zeta in H. destruct (nrun allow (constc (fst p)) p) as [v|] eqn:E; [|discriminate].
  apply andb_prop in H as [A H]. apply Z.leb_le in A.
  assert (Hd : dom allow x) by (destruct allow; simpl; lra).
  destruct (nrun_ok allow _ x Hd A p v E) as [K R]. rewrite R. eexists. split; [reflexivity|].
  assert (W := w_pos x Hx). assert (W1 : (1 - x * x) ^ ni v <> 0) by (apply pow_nonzero; lra). assert (W2 : (1 - x * x) ^ bnat (Nat.odd m) <> 0) by (apply pow_nonzero; lra).
  set (k := IZR (sgn m) * sqrt (IZR (zfact (n - m)) / IZR (zfact (n + m))) / IZR (e_of n)).
  assert (V : den (constc (fst p)) x v = k * (sq (Nat.odd m) (1 - x * x) * peval (dpoly n m) x / (1 - x * x) ^ bnat (Nat.odd m))).
  { apply orb_prop in H as [H|H].
    - apply andb_prop in H as [Z1 Z2]. unfold den. rewrite (pzero_ok _ x Z1), (pzero_ok _ x Z2). unfold Rdiv. ring.
    - apply andb_prop in H as [B C]. apply eqb_prop in B.
      assert (Q := cmp_ok _ _ _ _ _ _ _ _ _ x A (e_pos n) (zfact_pos _) (zfact_pos _) (sgn_sq m) C).
      rewrite !peval_mul, !peval_pow, !peval_w in Q. unfold den. rewrite B.
      transitivity (sq (Nat.odd m) (1 - x * x) / (1 - x * x) ^ bnat (Nat.odd m) / (1 - x * x) ^ ni v * (sq (na v) (IZR (constc (fst p))) * ((1 - x * x) ^ bnat (Nat.odd m) * peval (np v) x) / IZR (Z.pos (nd v)))).
      { field. repeat split; auto. }
      rewrite Q. unfold k. field. repeat split; auto. apply IZR_neq. assert (Ep := e_pos n). lia. }
  rewrite V. apply (is_derive_ext_loc (fun t => k * (sq (Nat.odd m) (1 - t * t) * peval (gpoly n m) t))).
  - assert (L1 : locally x (fun t => -1 < t < 1)).
    { assert (O : open (fun t => -1 < t < 1)) by (apply open_and; [apply open_gt|apply open_lt]). apply O. exact Hx. }
    eapply filter_imp; [|exact L1]. intros t Ht.
    assert (Y : k * (sq (Nat.odd m) (1 - t * t) * peval (gpoly n m) t) = Plm n m t); [|exact Y]. rewrite Plm_alt by lra. unfold k, Rdiv. ring.
  - apply is_derive_scal. apply dpoly_ok; auto.
Qed.
Lemma den_continuous c v x : ni v = O -> continuous (fun t => den c t v) x.
Proof.
  intros H. unfold den. rewrite H. apply continuous_ext with (fun t => sq (na v) (IZR c) / IZR (Zpos (nd v)) * (sq (nb v) (1 - t * t) * peval (np v) t)).
  { intros t. simpl. field. apply posR. }
  apply (continuous_scal_r (K:=R_AbsRing) (V:=R_NormedModule)). apply (continuous_mult (K:=R_AbsRing)).
  - destruct (nb v); cbn [sq]; [|apply continuous_const].
    apply continuous_comp; [|apply continuous_sqrt]. apply (ex_derive_continuous (fun t => 1 - t * t)). auto_derive. auto.
  - apply (ex_derive_continuous (peval (np v))). eexists. apply pder_ok.
Qed.
Lemma check_der_cont n m p : check_der false n m p = true ->
  exists F, (forall x, -1 <= x <= 1 -> run p x = Some (F x)) /\ (forall x, continuous F x).
Proof.
  intros H. unfold check_der in H. cbv zeta in H. destruct (nrun false (constc (fst p)) p) as [v|] eqn:E; [|discriminate].
  apply andb_prop in H as [A H]. apply Z.leb_le in A. exists (fun x => den (constc (fst p)) x v). split.
  - intros x Hx. apply (nrun_ok false _ x Hx A p v E).
  - intros x. apply den_continuous. apply (nrun_ok false (constc (fst p)) 0 ltac:(simpl; lra) A p v E). reflexivity.
Qed.

(** ** Certain division by zero at a rational argument: a partial evaluator, unknown values are None *)
Inductive av := AErr | AQ (q : Z) | AU.
Fixpoint aeval (x : Z) (e : list (positive * av)) (a : ex) : av :=
  match a with
  | Num z => AQ z
  | X => AQ x
  | Var k => match get k e with Some v => v | None => AErr end
  | Neg a => match aeval x e a with AErr => AErr | AQ u => AQ (- u) | AU => AU end
  | Add a b => match aeval x e a, aeval x e b with AErr, _ => AErr | _, AErr => AErr | AQ u, AQ v => AQ (u + v) | _, _ => AU end
  | Sub a b => match aeval x e a, aeval x e b with AErr, _ => AErr | _, AErr => AErr | AQ u, AQ v => AQ (u - v) | _, _ => AU end
  | Mul a b => match aeval x e a, aeval x e b with AErr, _ => AErr | _, AErr => AErr | AQ u, AQ v => AQ (u * v) | _, _ => AU end
  | Div a b => match aeval x e a, aeval x e b with AErr, _ => AErr | _, AErr => AErr | _, AQ Z0 => AErr | _, _ => AU end
  | Sqrt a => match aeval x e a with AErr => AErr | AQ Z0 => AQ 0 | AQ (Zneg _) => AErr | _ => AU end
  | Pow2 a => match aeval x e a with AErr => AErr | AQ u => AQ (u * u) | AU => AU end
  end.
Fixpoint aexec (x : Z) (e : list (positive * av)) (l : list (positive * ex)) : option (list (positive * av)) :=
  match l with [] => Some e | (k, a) :: r => match aeval x e a with AErr => None | v => aexec x ((k, v) :: e) r end end.
Definition afails (p : prog) (x : Z) : bool :=
  match aexec x [] (fst p) with None => true | Some e => match aeval x e (snd p) with AErr => true | _ => false end end.
Definition gam (v : av) (o : option R) : Prop := match v with AErr => o = None | AQ q => o = None \/ o = Some (IZR q) | AU => True end.
Definition arel (e : env) (f : list (positive * av)) : Prop :=
  Forall2 (fun a b => fst a = fst b /\ gam (snd b) (Some (snd a))) e f.
Lemma arel_get e f k : arel e f -> match get k f with Some v => gam v (get k e) | None => get k e = None end.
Proof.
  intros H. induction H as [|[i a] [j b] e f (A & B) H IH]; [reflexivity|]. cbn [get fst snd] in *. subst j. destruct (Pos.eqb i k); auto.
Qed.
Lemma aeval_ok x e f a : arel e f -> gam (aeval x f a) (eval (IZR x) e a).
Proof.
  intros Hr.
  assert (Bin : forall (op : R -> R -> R) (zop : Z -> Z -> Z) u v o p, (forall a b, IZR (zop a b) = op (IZR a) (IZR b)) -> gam u o -> gam v p ->
    gam (match u, v with AErr, _ => AErr | _, AErr => AErr | AQ u, AQ v => AQ (zop u v) | _, _ => AU end) (bind o (fun a => bind p (fun b => Some (op a b))))).
  { intros op zop u v o p Hop Hu Hv. destruct u, v; cbn [gam] in *; subst; auto; try (destruct o; reflexivity).
    destruct Hu as [->| ->]; [left; reflexivity|]. destruct Hv as [->| ->]; [left; reflexivity|]. right. cbn [bind]. rewrite Hop. reflexivity. }
  induction a; cbn [aeval eval].
  - right. reflexivity.
  - right. reflexivity.
  - assert (G := arel_get e f k Hr). destruct (get k f); auto.
  - destruct (aeval x f a); cbn [gam] in *; auto; [rewrite IHa; reflexivity|]. destruct IHa as [->| ->]; [left; reflexivity|right]. cbn [bind]. rewrite opp_IZR. reflexivity.
  - apply (Bin Rplus Z.add); auto. intros; apply plus_IZR.
  - apply (Bin Rminus Z.sub); auto. intros; apply minus_IZR.
  - apply (Bin Rmult Z.mul); auto. intros; apply mult_IZR.
  - destruct (aeval x f a1) eqn:E1.
    + cbn [gam] in *. rewrite IHa1. reflexivity.
    + destruct (aeval x f a2) as [|[| |]|] eqn:E2; cbn [gam] in *; auto.
      * rewrite IHa2. destruct (eval (IZR x) e a1); reflexivity.
      * destruct (eval (IZR x) e a1); [|reflexivity]. destruct IHa2 as [->| ->]; [reflexivity|]. cbn [bind]. destruct (Req_EM_T 0 0); [reflexivity|congruence].
    + destruct (aeval x f a2) as [|[| |]|] eqn:E2; cbn [gam] in *; auto.
      * rewrite IHa2. destruct (eval (IZR x) e a1); reflexivity.
      * destruct (eval (IZR x) e a1); [|reflexivity]. destruct IHa2 as [->| ->]; [reflexivity|]. cbn [bind]. destruct (Req_EM_T 0 0); [reflexivity|congruence].
  - destruct (aeval x f a) as [|[|z|z]|] eqn:E; cbn [gam] in *; auto.
    + rewrite IHa. reflexivity.
    + destruct IHa as [->| ->]; [left; reflexivity|right]. cbn [bind]. destruct (Rlt_dec 0 0); [lra|]. rewrite sqrt_0. reflexivity.
    + destruct IHa as [->| ->]; [reflexivity|]. cbn [bind]. destruct (Rlt_dec (IZR (Z.neg z)) 0) as [|N]; [reflexivity|]. exfalso. apply N. apply (IZR_lt _ 0). lia.
  - destruct (aeval x f a) as [|z|] eqn:E; cbn [gam] in *; auto; [rewrite IHa; reflexivity|].
    destruct IHa as [->| ->]; [left; reflexivity|right]. cbn [bind]. rewrite mult_IZR. f_equal. ring.
Qed.
Lemma afails_ok p x : afails p x = true -> run p (IZR x) = None.
Proof.
  destruct p as [l a]. unfold afails, run. cbn [fst snd].
  assert (K : forall l e f, arel e f -> match aexec x f l with None => exec (IZR x) e l = None
    | Some f' => exec (IZR x) e l = None \/ exists e', exec (IZR x) e l = Some e' /\ arel e' f' end).
  { clear l. induction l as [|[k b] l IH]; intros e f Hr; cbn [aexec exec]; [right; eauto|].
    assert (G := aeval_ok x e f b Hr). destruct (aeval x f b) eqn:E.
    - cbn [gam] in G. rewrite G. reflexivity.
    - destruct (eval (IZR x) e b) as [r|].
      + cbn [bind]. apply IH. constructor; auto.
      + cbn [bind]. destruct (aexec x ((k, AQ q) :: f) l); auto.
    - destruct (eval (IZR x) e b) as [r|].
      + cbn [bind]. apply IH. constructor; auto; split; simpl; auto.
      + cbn [bind]. destruct (aexec x ((k, AU) :: f) l); auto. }
  specialize (K l [] [] (Forall2_nil _)). destruct (aexec x [] l) as [f'|].
  - destruct K as [->|(e' & -> & Hr)]; [reflexivity|]. intros H. cbn [bind]. assert (G := aeval_ok x e' f' a Hr).
    destruct (aeval x f' a); try discriminate. exact G.
  - rewrite K. reflexivity.
Qed.
