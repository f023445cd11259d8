(** * Translations, conversion and evaluation of expansions in rounded arithmetic

    source/multipole_expansion.cc 75-92 and 188-266, source/local_expansion.cc 111-293, and the tables of
    include/multipole_expansion.h 123-148 and include/local_expansion.h 118-214, operation by operation as in ModelFloatExp
    (where None is explained).  Coefficients are pairs (real part, imaginary part).
    Simplifications: the literal 1e-7 is the quotient 1 / 10000000, which rounds to the same double; a sign of an integer or an
    integer multiplied with a double is the product of the two; the real part of pow(i, k) is a function of k of the C library. *)
From Coq Require Import ZArith List Reals Bool.
From Verif Require Import ModelLegendre ModelLegTable ModelLegApi ModelExp ModelFmm ModelFloat ModelFloatExp.
Import ListNotations.
Local Open Scope R_scope.

Section FloatExp2.
  Variable M : fmath.
  (** pow(imUnit, double(k)).real() *)
  Variable pow_i : Z -> R.
  Notation "x [+] y" := (@aadd (@f_arith (fm_ops M)) x y) (at level 50, left associativity).
  Notation "x [*] y" := (@amul (@f_arith (fm_ops M)) x y) (at level 40, left associativity).
  Notation "x [/] y" := (@adiv (@f_arith (fm_ops M)) x y) (at level 40, left associativity).
  Notation bind := ModelLegendre.bind.
  (** ** A_n_m_Matrix(20) *)
  Fixpoint fdown (f : R) (k : nat) : R := match k with O => f | S j => fdown (f [*] INR k) j end.
  Definition fA_n_m (n m : nat) : option R :=
    if (Nat.ltb n 21 && Nat.ltb m 21)%bool then
      if Nat.leb m n then bind (froot M (fdown 1 (n - m) [*] fdown 1 (n + m))) (fun r => fdiv M (fpow M (-1) (Z.of_nat n)) r) else Some 0
    else None.
  (** coefficients: GetCoeff, AddToCoeff *)
  Definition fget (e : expansion) (n m : nat) : option (R * R) := if Nat.ltb (tri n m) (size (e_p e)) then Some (e_coeffs e (tri n m)) else None.
  Definition fnonzero (e : expansion) (o : option (nat -> R * R)) : option expansion := bind o (fun C => Some (Exp (e_p e) (e_center e) false C)).
  (** a sum accumulated in z over one loop *)
  Definition fsum {A : Type} (l : list A) (g : A -> option (option (R * R))) (z : option (R * R)) : option (R * R) :=
    fold_left (fun o a => bind o (fun z => bind (g a) (fun t => Some (match t with Some t => fcadd M z t | None => z end)))) l z.
  (** ... and over two nested loops *)
  Definition fsum2 (l : list nat) (inner : nat -> list Z) (g : nat -> Z -> option (option (R * R))) : option (R * R) :=
    fold_left (fun o nn => fsum (inner nn) (g nn) o) l (Some (0, 0)).
  (** Point::distance *)
  Definition fdistance (a b : pt) : option R := froot M (fsquare3 M (frelative M a b)).
  Definition ffar (a b : pt) : option bool := bind (fdistance a b) (fun d => Some (if Rlt_dec (1 [/] 10000000) d then true else false)).

  (** ** MultipoleExpansion *)
  (** Add(multipole, sol), lines 75-92 *)
  Definition fm_add_scaled (e other : expansion) (sol : R) : option expansion :=
    if (e_zero other || (if Req_EM_T sol 0 then true else false))%bool then Some e
    else fnonzero e (fadd_loop M (e_p e) (fun n m => bind (fget other n m) (fun a => Some (fcmulr M a sol))) (e_coeffs e)).
  (** Add(other), lines 188-266 *)
  Definition fm2m_term (other : expansion) (rho c beta : R) (n m nn : nat) (mm : Z) : option (option (R * R)) :=
    let mz := Z.of_nat m in
    if Nat.ltb (n - nn) (absn (mz - mm)) then Some None
    else
      bind (fget other (n - nn) (absn (mz - mm))) (fun g =>
      let a := (fst g, IZR (GSL_SIGN (mz - mm)) [*] snd g) in
      bind (fGetAssLegFunSph M nn (absn mm) c) (fun P =>
      bind (fA_n_m nn (absn mm)) (fun A1 => bind (fA_n_m (n - nn) (absn (mz - mm))) (fun A2 => bind (fA_n_m n m) (fun A3 =>
      bind (fdiv M (P [*] fpow M rho (Z.of_nat nn) [*] A1 [*] A2) A3) (fun r =>
      let realFact := r [*] pow_i (Z.abs mz - Z.abs mm - Z.abs (mz - mm)) in
      let w := fcmul M a (fcis M (- IZR mm [*] beta)) in
      Some (Some (realFact [*] fst w, realFact [*] snd w)))))))).
  Definition fm2m_coeff (other : expansion) (rho c beta : R) (n m : nat) : option (R * R) :=
    fsum2 (seq 0 (n + 1)) sym_range (fm2m_term other rho c beta n m).
  Definition fm_translate (e other : expansion) : option expansion :=
    if e_zero other then Some (Exp (e_p e) (e_center e) (e_zero e && e_zero other) (e_coeffs e))
    else fnonzero e (bind (ffar (e_center other) (e_center e)) (fun far =>
      if far then bind (fspher M (frelative M (e_center other) (e_center e))) (fun s => let '(rho, c, beta) := s in
        fadd_loop M (e_p e) (fm2m_coeff other rho c beta) (e_coeffs e))
      else fadd_loop M (e_p e) (fget other) (e_coeffs e))).

  (** ** LocalExpansion *)
  (** lExp_to_lExp_Coeff_Build with p = 10, lines 182-214 *)
  Definition fl2l_table (n m nn : nat) (mm : Z) : option R :=
    if (Nat.ltb n 11 && Nat.ltb m (n + 1))%bool then
      if (Nat.leb n nn && Nat.ltb nn 11 && Nat.leb (absn mm) nn)%bool then
        bind (fA_n_m (nn - n) (absn (mm - Z.of_nat m))) (fun A1 => bind (fA_n_m nn (absn mm)) (fun A2 => bind (fA_n_m n m) (fun A3 =>
        bind (fdiv M A1 A2) (fun q =>
        Some (q [*] A3 [*] (pow_i (Z.abs mm - Z.abs (mm - Z.of_nat m) - Z.of_nat m) [*] fpow M (-1) (Z.of_nat (nn + n))))))))
      else Some 0
    else None.
  (** mExp_to_lExp_Coeff_Build with p = 10, lines 145-180 *)
  Definition fm2l_table (n m nn : nat) (mm : Z) : option R :=
    if (Nat.ltb n 11 && Nat.ltb m (n + 1) && Nat.ltb nn 11 && Nat.leb (absn mm) nn)%bool then
      bind (fA_n_m nn (absn mm)) (fun A1 => bind (fA_n_m (n + nn) (absn (Z.of_nat m - mm))) (fun A2 => bind (fA_n_m n m) (fun A3 =>
      bind (fdiv M A1 A2) (fun q =>
      bind (fdiv M (pow_i (Z.abs (Z.of_nat m - mm) - Z.of_nat m - Z.abs mm)) (fpow M (-1) (Z.of_nat nn))) (fun r => Some (q [*] A3 [*] r))))))
    else None.
  (** Add(other), local_expansion.cc 111-182 *)
  Definition fl2l_term (other : expansion) (rho c beta : R) (n m nn : nat) (mm : Z) : option (option (R * R)) :=
    let mz := Z.of_nat m in
    if Nat.ltb (nn - n) (absn (mm - mz)) then Some None
    else
      bind (fget other nn (absn mm)) (fun g =>
      let a := (fst g, IZR (GSL_SIGN mm) [*] snd g) in
      bind (fGetAssLegFunSph M (nn - n) (absn (mm - mz)) c) (fun P =>
      bind (fl2l_table n m nn mm) (fun t =>
      let realFact := P [*] fpow M rho (Z.of_nat (nn - n)) [*] t in
      Some (Some (fcmulr M (fcmul M a (fcis M (IZR (mm - mz) [*] beta))) realFact))))).
  Definition fl2l_coeff (other : expansion) (rho c beta : R) (p n m : nat) : option (R * R) :=
    fsum2 (seq n (p + 1 - n)) sym_range (fl2l_term other rho c beta n m).
  Definition fl_translate (e other : expansion) : option expansion :=
    if e_zero other then Some e
    else fnonzero e (bind (ffar (e_center other) (e_center e)) (fun far =>
      if far then bind (fspher M (frelative M (e_center other) (e_center e))) (fun s => let '(rho, c, beta) := s in
        fadd_loop M (e_p e) (fl2l_coeff other rho c beta (e_p e)) (e_coeffs e))
      else fadd_loop M (e_p e) (fget other) (e_coeffs e))).
  (** Add(multipole), local_expansion.cc 185-254 *)
  Definition fm2l_term (other : expansion) (rho c beta : R) (n m nn : nat) (mm : Z) : option (option (R * R)) :=
    let mz := Z.of_nat m in
    bind (fget other nn (absn mm)) (fun g =>
    let a := if Z.ltb mm 0 then (fst g, - snd g) else g in
    bind (fGetAssLegFunSph M (nn + n) (absn (mm - mz)) c) (fun P =>
    bind (fm2l_table n m nn mm) (fun t =>
    let realFact := P [*] fpow M rho (- Z.of_nat n - Z.of_nat nn - 1) [*] t in
    Some (Some (fcmulr M (fcmul M a (fcis M (IZR (mm - mz) [*] beta))) realFact))))).
  Definition fm2l_coeff (other : expansion) (rho c beta : R) (p n m : nat) : option (R * R) :=
    fsum2 (seq 0 (p + 1)) sym_range (fm2l_term other rho c beta n m).
  Definition fl_convert (e other : expansion) : option expansion :=
    if e_zero other then Some e
    else fnonzero e (bind (fspher M (frelative M (e_center other) (e_center e))) (fun s => let '(rho, c, beta) := s in
      fadd_loop M (e_p e) (fm2l_coeff other rho c beta (e_p e)) (e_coeffs e))).
  (** Evaluate, local_expansion.cc 257-293 *)
  Definition fl_eval_term (e : expansion) (rho c beta : R) (nm : nat * nat) : option (option (R * R)) :=
    let '(n, m) := nm in
    bind (fGetAssLegFunSph M n m c) (fun P =>
    let realFact := P [*] fpow M rho (Z.of_nat n) in
    bind (fget e n m) (fun a =>
    Some (Some (match m with O => fcmulr M a realFact | _ => fcmul M a (fcmulr M (fcmulr M (fcis M (INR m [*] beta)) 2) realFact) end)))).
  Definition fl_evaluate (e : expansion) (x : pt) : option R :=
    if e_zero e then Some 0
    else bind (fspher M (frelative M x (e_center e))) (fun s => let '(rho, c, beta) := s in
      bind (fsum (nm_pairs (e_p e)) (fl_eval_term e rho c beta) (Some (0, 0))) (fun z => Some (fst z))).

  (** ** The other calls on a multipole expansion as an object (ModelFloatExp computes the coefficients) *)
  Definition fm_charge (e : expansion) (q : R) (x : pt) : option expansion :=
    if Req_EM_T q 0 then Some e else fnonzero e (fadd_charge M (e_p e) (e_center e) (e_coeffs e) q x).
  Definition fm_dipole (e : expansion) (q : R) (x v : pt) : option expansion :=
    if Req_EM_T q 0 then Some e else fnonzero e (fadd_normder M (e_p e) (e_center e) (e_coeffs e) q x v).
  Definition fm_evaluate (e : expansion) (x : pt) : option R :=
    if e_zero e then Some 0 else fevaluate M (e_p e) (e_center e) (e_coeffs e) x.
End FloatExp2.
