(** * C91: without rounding the operations are those of the exact model *)
From Coq Require Import ZArith Reals List Lia Lra Bool.
From Flocq Require Import Core.
From Coquelicot Require Import Complex.
From Verif Require Import ModelLegendre ModelLegTable ModelLegApi ModelExp SpecExp SpecLegendre ProofsHarm2 ProofsHarm3 ProofsExp ProofsExp3 PropLegendre.
From Verif Require Import ModelFmm ModelFloat SpecFloat ModelFloatExp SpecFloatExp.
Import ListNotations.
Local Open Scope R_scope.

(** exact operations and functions *)
Definition exact_math : fmath := {| fm_ops := exact_flops; fnum := IZR; fcos := cos; fsin := sin; fatan2 := atan2; fpow := powerRZ |}.
Notation lbind := ModelLegendre.bind.

Lemma feval_exact x e a : feval exact_math x e a = eval x e a.
Proof.
  induction a; cbn [feval eval]; try rewrite IHa; try rewrite IHa1; try rewrite IHa2; try reflexivity.
  destruct (eval x e a); cbn; [|reflexivity]. f_equal. cbn. ring.
Qed.
Lemma fexec_exact x l : forall e, fexec exact_math x e l = ModelLegendre.exec x e l.
Proof. induction l as [|[k a] l IH]; intros e; cbn [fexec ModelLegendre.exec]; [reflexivity|]. rewrite feval_exact. destruct (eval x e a); cbn; auto. Qed.
Lemma frun_exact p x : frun exact_math p x = ModelLegendre.run p x.
Proof. unfold frun, ModelLegendre.run. rewrite fexec_exact. destruct (ModelLegendre.exec x [] (fst p)); cbn; [apply feval_exact|reflexivity]. Qed.
Lemma leg_exact n m x : fGetAssLegFunSph exact_math n m x = GetAssLegFunSph n m x.
Proof. unfold fGetAssLegFunSph, GetAssLegFunSph. destruct (table leg_pointers_assignments n m); cbn; [apply frun_exact|reflexivity]. Qed.
Lemma leg_der_exact n m x : fGetAssLegFunSphDeriv exact_math n m x = GetAssLegFunSphDeriv n m x.
Proof. unfold fGetAssLegFunSphDeriv, GetAssLegFunSphDeriv. destruct (table leg_der_pointers_assignments n m); cbn; [apply frun_exact|reflexivity]. Qed.
Lemma rel_exact a c : frelative exact_math a c = psub a c.
Proof. unfold frelative, psub. cbn. f_equal; ring. Qed.
Lemma froot_exact a : 0 <= a -> froot exact_math a = Some (sqrt a).
Proof. intros A. unfold froot. destruct (Rlt_dec a 0); [lra|]. reflexivity. Qed.
Lemma fdiv_exact a b : fdiv exact_math a b = rdiv a b. Proof. reflexivity. Qed.
Lemma rho_exact d : frho exact_math d = Some (sqrt (square d)).
Proof. unfold frho. rewrite froot_exact; [reflexivity|]. apply square_nonneg. Qed.
Lemma spher_exact d : fspher exact_math d = spher d.
Proof. unfold fspher, spher. rewrite rho_exact. reflexivity. Qed.
Lemma fscale_exact a r : fscale exact_math a r = pdivs a r.
Proof. unfold fscale, pdivs, fdiv. destruct (Req_EM_T r 0); reflexivity. Qed.
(** two ways of writing coefficients agree *)
Definition agree (o : option (nat -> R * R)) (o' : option (nat -> C)) : Prop :=
  match o, o' with Some a, Some b => forall i, a i = b i | None, None => True | _, _ => False end.
Lemma loop_exact p f f' : forall l C C', (forall n m, In (n, m) l -> (m <= n <= p)%nat /\ f n m = f' n m) -> agree C C' ->
  agree (fold_left (fun o nm => lbind o (fun C => lbind (f (fst nm) (snd nm)) (fun a => 
      Some (fun i => if Nat.eqb i (tri (fst nm) (snd nm)) then fcadd exact_math (C i) a else C i)))) l C)
    (fold_left (fun o nm => lbind o (fun M => lbind (f' (fst nm) (snd nm)) (fun a => add_to p M (fst nm) (snd nm) a))) l C').
Proof.
  induction l as [|[n m] l IH]; intros C C' F A; [exact A|]. cbn [fold_left]. apply IH; [intros; apply F; right; auto|].
  cbn [fst snd]. destruct (F n m (or_introl eq_refl)) as [L E]. rewrite E. destruct C as [C|], C' as [C'|]; cbn [agree] in A; try contradiction; [|exact I].
  cbn [lbind]. destruct (f' n m) as [a|]; cbn [lbind]; [|exact I]. unfold add_to. destruct (Nat.ltb_spec (tri n m) (size p)) as [_|B]; [|assert (Q := tri_size n m p L); lia].
  cbn [agree]. intros i. destruct (Nat.eqb i (tri n m)); [|apply A]. rewrite A. reflexivity.
Qed.
Lemma pairs_in p n m : In (n, m) (nm_pairs p) -> (m <= n <= p)%nat.
Proof. intros I. apply nm_in in I. exact I. Qed.
Lemma add_exact p f f' C C' : (forall n m, (m <= n <= p)%nat -> f n m = f' n m) -> (forall i, C i = C' i) -> agree (fadd_loop exact_math p f C) (add_loop p f' C').
Proof. intros F A. apply (loop_exact p f f' (nm_pairs p) (Some C) (Some C')); [|exact A]. intros n m I. apply pairs_in in I. auto. Qed.
Lemma pow_int r n : powerRZ r (Z.of_nat n) = r ^ n. Proof. symmetry. apply pow_powerRZ. Qed.
(** the operations in rounded arithmetic, with the rounding taken away, are Add(strength, point), AddNormDer and Evaluate of the exact
    model (C05-C09): same coefficients, same cases without a value *)
Definition same_coefficients (o : option (nat -> R * R)) (o' : option expansion) : Prop :=
  match o, o' with Some a, Some e => forall i, a i = e_coeffs e i | None, None => True | _, _ => False end.
Lemma agree_same p c C o o' : agree o o' -> same_coefficients o (lbind o' (fun M => Some (Exp p c C M))).
Proof. destruct o, o'; cbn; auto. Qed.
Theorem C91_charge_without_rounding : forall e strength point,
  same_coefficients (fadd_charge exact_math (e_p e) (e_center e) (e_coeffs e) strength point) (m_add_charge e strength point).
Proof.
  intros e q y. unfold fadd_charge, m_add_charge. destruct (Req_EM_T q 0) as [Q|Q]; [intros i; reflexivity|]. rewrite rel_exact, spher_exact.
  destruct (spher (psub y (e_center e))) as [[[rho c] beta]|]; cbn [lbind]; [|exact I].
  apply agree_same, add_exact; [|reflexivity]. intros n m _. unfold fcharge_term, charge_term. rewrite leg_exact.
  destruct (GetAssLegFunSph n m c) as [P|]; cbn [lbind]; [|reflexivity]. f_equal. unfold fcmulr, fcis, cis, Cmult, RtoC. cbn -[powerRZ]. rewrite pow_int. f_equal; ring.
Qed.
Theorem C91_dipole_without_rounding : forall e strength point normal,
  same_coefficients (fadd_normder exact_math (e_p e) (e_center e) (e_coeffs e) strength point normal) (m_add_normder e strength point normal).
Proof.
  intros e q y nv. unfold fadd_normder, m_add_normder. destruct (Req_EM_T q 0) as [Q|Q]; [intros i; reflexivity|]. rewrite rel_exact. set (d := psub y (e_center e)).
  rewrite froot_exact by (change (0 <= square nv); apply square_nonneg). cbn [lbind]. rewrite fscale_exact. change (fdot3 exact_math nv nv) with (square nv).
  fold (square nv). destruct (pdivs nv (sqrt (square nv))) as [nu|]; cbn [lbind]; [|exact I].
  rewrite rho_exact. cbn [lbind]. cbv zeta. rewrite fscale_exact. destruct (pdivs d (sqrt (square d))) as [dr|] eqn:Edr; cbn [lbind]; [|exact I].
  assert (Rn : sqrt (square d) <> 0) by (unfold pdivs in Edr; destruct (Req_EM_T (sqrt (square d)) 0); [discriminate|assumption]).
  rewrite fscale_exact. replace (@aadd (@f_arith (fm_ops exact_math)) (@amul (@f_arith (fm_ops exact_math)) (cx d) (cx d)) (@amul (@f_arith (fm_ops exact_math)) (cy d) (cy d))) with (cx d ^ 2 + cy d ^ 2) by (cbn; ring).
  destruct (pdivs (Pt (- cy d) (cx d) 0) (cx d ^ 2 + cy d ^ 2)) as [db|]; cbn [lbind]; [|exact I].
  rewrite fdiv_exact. unfold rdiv. destruct (Req_EM_T (sqrt (square d)) 0) as [Z|_]; [contradiction|]. cbn [lbind].
  assert (Hc := ProofsHarm3.cos_range d Rn). unfold cos_, rho_ in Hc. set (c := cz d / sqrt (square d)) in *.
  assert (S0 : froot exact_math (@fsub (fm_ops exact_math) 1 (@amul (@f_arith (fm_ops exact_math)) c c)) = Some (sqrt (1 - c ^ 2))).
  { change (froot exact_math (1 - c * c) = Some (sqrt (1 - c ^ 2))). replace (c ^ 2) with (c * c) by ring. apply froot_exact. nra. }
  rewrite S0. cbn [lbind]. rewrite fscale_exact.
  match goal with |- same_coefficients (lbind ?a _) (lbind ?b _) => change b with a; destruct a as [da|]; cbn [lbind]; [|exact I] end.
  apply agree_same, add_exact; [|reflexivity]. intros n m L. unfold fdipole_term, dipole_term. rewrite leg_exact, leg_der_exact.
  destruct (GetAssLegFunSph n m c) as [P|]; cbn [lbind]; [|reflexivity]. destruct (GetAssLegFunSphDeriv n m c) as [dP|]; cbn [lbind]; [|reflexivity].
  rewrite S0. cbn [lbind]. f_equal.
  replace (match n with O => 0 * / sqrt (square d) | S k => INR n * sqrt (square d) ^ k end) with (INR n * powerRZ (sqrt (square d)) (Z.of_nat n - 1)).
  2:{ destruct n as [|k]; [cbn [INR]; ring|]. replace (Z.of_nat (S k) - 1)%Z with (Z.of_nat k) by lia. rewrite pow_int. reflexivity. }
  unfold fcmulr, fcmul, fcis, cis, Cmult, RtoC, fdot3, dot. cbn -[powerRZ INR]. rewrite pow_int. f_equal; ring.
Qed.
Theorem C91_evaluation_without_rounding : forall e x, e_zero e = false ->
  fevaluate exact_math (e_p e) (e_center e) (e_coeffs e) x = m_evaluate e x.
Proof.
  intros e x Z. unfold fevaluate, m_evaluate. rewrite Z, rel_exact, spher_exact. destruct (spher (psub x (e_center e))) as [[[rho c] beta]|] eqn:Es; cbn [lbind]; [|reflexivity].
  assert (G : forall l z z', (forall n m, In (n, m) l -> (m <= n <= e_p e)%nat) -> z = z' ->
    fold_left (fun o nm => lbind o (fun z => feval_term exact_math (e_coeffs e) rho c beta z nm)) l z = osum l (m_eval_term e rho c beta) z').
  { induction l as [|[n m] l IH]; intros z z' F E; [exact E|]. cbn [fold_left]. unfold osum. cbn [fold_left]. fold (osum l (m_eval_term e rho c beta)). apply IH; [intros; apply F; right; auto|].
    subst z'. destruct z as [z|]; cbn [lbind]; [|reflexivity]. unfold feval_term, m_eval_term. rewrite leg_exact, get_some by (apply F; left; auto).
    destruct (GetAssLegFunSph n m c) as [P|]; cbn [lbind]; [|reflexivity]. f_equal.
    replace (fpow exact_math rho (- Z.of_nat n - 1)) with (/ rho ^ (n + 1)).
    2:{ cbn [fpow exact_math]. replace (- Z.of_nat n - 1)%Z with (- Z.of_nat (n + 1))%Z by lia. rewrite powerRZ_neg', pow_int. reflexivity. }
    destruct m; unfold fcadd, fcmulr, fcmul, fcis, cis, Cmult, Cplus, RtoC; cbn -[powerRZ INR pow]; f_equal; ring. }
  rewrite (G _ _ (Some (RtoC 0))); [reflexivity| |reflexivity]. intros n m I. apply pairs_in in I. exact I.
Qed.
(** the two models meet on a case with a value *)
Example C91_without_rounding_met : exists C e, fadd_normder exact_math 3 (Pt 0 0 0) (fun _ => (0, 0)) 2 (Pt 1 0 1) (Pt 1 2 0) = Some C /\
  m_add_normder (fresh 3 (Pt 0 0 0)) 2 (Pt 1 0 1) (Pt 1 2 0) = Some e /\ forall i, C i = e_coeffs e i.
Proof.
  destruct (normder_ok (fresh 3 (Pt 0 0 0)) 2 (Pt 1 0 1) (Pt 1 2 0) ltac:(lra)) as (e & E & _).
  - unfold square. cbn. lra.
  - unfold ProofsExp2.r2. cbn. lra.
  - cbn. lia.
  - assert (A := C91_dipole_without_rounding (fresh 3 (Pt 0 0 0)) 2 (Pt 1 0 1) (Pt 1 2 0)). rewrite E in A. unfold same_coefficients in A.
    change (fadd_normder exact_math (e_p (fresh 3 (Pt 0 0 0))) (e_center (fresh 3 (Pt 0 0 0))) (e_coeffs (fresh 3 (Pt 0 0 0))))
      with (fadd_normder exact_math 3 (Pt 0 0 0) (fun _ : nat => (0, 0))) in A.
    destruct (fadd_normder exact_math 3 (Pt 0 0 0) (fun _ : nat => (0, 0)) 2 (Pt 1 0 1) (Pt 1 2 0)) as [C|]; [|destruct A].
    exists C, e. auto.
Qed.
