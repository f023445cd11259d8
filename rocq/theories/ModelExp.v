(** * Multipole and local expansions: accumulation, translation, evaluation.

    Models source/multipole_expansion.cc 75-298, source/local_expansion.cc 82-287 and the coefficient
    tables of include/multipole_expansion.h 123-148 and include/local_expansion.h 118-214.

    Doubles are real numbers and std::complex<double> is C = R * R.  None is undefined behaviour or a
    NaN: division by zero (a point at the expansion center), an access outside a table or a buffer.
    The coefficient buffer is a function from flat indices with the allocated size checked on access; the
    32-bit index arithmetic is that of C01, without wrap-around for the orders allowed here.  Loop
    iterations skipped by a guard add 0.  Exponentials exp(i t) are (cos t, sin t); pow(i, k).real() with a
    double exponent is cos(k pi/2). *)
From Coq Require Import ZArith List Reals Lia Lra Bool.
From Coquelicot Require Import Complex.
From Verif Require Import ModelLegendre ModelLegApi.
Import ListNotations.
Local Open Scope R_scope.

(** dealii::Point<3> and Tensor<1,3> *)
Record pt := Pt { cx : R; cy : R; cz : R }.
Definition psub (a b : pt) : pt := Pt (cx a - cx b) (cy a - cy b) (cz a - cz b).   (* a + (-1.0 * b) *)
Definition square (a : pt) : R := cx a * cx a + cy a * cy a + cz a * cz a.
Definition dot (a b : pt) : R := cx a * cx b + cy a * cy b + cz a * cz b.
Definition distance (a b : pt) : R := sqrt (square (psub a b)).

(** C atan2 (no signed zeros) *)
Definition atan2 (y x : R) : R :=
  if Rlt_dec 0 x then atan (y / x)
  else if Rlt_dec x 0 then (if Rle_dec 0 y then atan (y / x) + PI else atan (y / x) - PI)
  else if Rlt_dec 0 y then PI / 2 else if Rlt_dec y 0 then - (PI / 2) else 0.
Definition cis (t : R) : C := (cos t, sin t).
(** pow(imUnit, double(k)).real() *)
Definition re_pow_i (k : Z) : R := cos (IZR k * (PI / 2)).
Definition GSL_SIGN (x : Z) : Z := if Z.ltb x 0 then (-1)%Z else if Z.ltb 0 x then 1%Z else 0%Z.
(** division that reports a zero divisor *)
Definition rdiv (a b : R) : option R := if Req_EM_T b 0 then None else Some (a / b).
(** rho, cos_alpha_, beta as computed at the head of every routine *)
Definition spher (d : pt) : option (R * R * R) :=
  let rho := sqrt (square d) in
  bind (rdiv (cz d) rho) (fun c => Some (rho, c, atan2 (cy d) (cx d))).

(** ** The table A_n_m, include/multipole_expansion.h 123-148 and include/local_expansion.h 118-142, built
    with dimension 20: a 21 x 21 matrix, zero above the diagonal *)
Fixpoint down_product (f : R) (k : nat) : R := match k with O => f | S j => down_product (f * INR k) j end.
Definition A_n_m (n m : nat) : option R :=
  if (Nat.ltb n 21 && Nat.ltb m 21)%bool then
    Some (if Nat.leb m n then (-1) ^ n / sqrt (down_product 1 (n - m) * down_product 1 (n + m)) else 0)
  else None.

(** ** Objects *)
Record expansion := Exp { e_p : nat; e_center : pt; e_zero : bool; e_coeffs : nat -> C }.
Definition tri (n m : nat) : nat := (n * (n + 1) / 2 + m)%nat.
Definition size (p : nat) : nat := ((p + 1) * (p + 2) / 2)%nat.
(** the sized constructors, multipole_expansion.cc 24-35, local_expansion.cc 29-43 *)
Definition fresh (p : nat) (c : pt) : expansion := Exp p c true (fun _ => RtoC 0).
(** GetCoeff *)
Definition get_coeff (e : expansion) (n m : nat) : option C := if Nat.ltb (tri n m) (size (e_p e)) then Some (e_coeffs e (tri n m)) else None.
(** AddToCoeff on a buffer of order p *)
Definition add_to (p : nat) (M : nat -> C) (n m : nat) (a : C) : option (nat -> C) :=
  if Nat.ltb (tri n m) (size p) then Some (fun i => if Nat.eqb i (tri n m) then Cplus (M i) a else M i) else None.
(** the double loop n = 0..p, m = 0..n *)
Definition nm_pairs (p : nat) : list (nat * nat) := flat_map (fun n => map (fun m => (n, m)) (seq 0 (n + 1))) (seq 0 (p + 1)).
Definition add_loop (p : nat) (f : nat -> nat -> option C) (M : nat -> C) : option (nat -> C) :=
  fold_left (fun o nm => bind o (fun M => bind (f (fst nm) (snd nm)) (fun a => add_to p M (fst nm) (snd nm) a))) (nm_pairs p) (Some M).
(** sums accumulated in z *)
Definition osum {A : Type} (l : list A) (f : A -> option C) (z : option C) : option C :=
  fold_left (fun o a => bind o (fun z => bind (f a) (fun b => Some (Cplus z b)))) l z.
(** the integers from -k to k, and from a to b-1 *)
Definition zrange (a : Z) (len : nat) : list Z := map (fun i => (a + Z.of_nat i)%Z) (seq 0 len).
Definition sym_range (k : nat) : list Z := zrange (- Z.of_nat k) (2 * k + 1).
Definition absn (z : Z) : nat := Z.abs_nat z.

(** ** MultipoleExpansion *)
(** Add(multipole, sol), lines 75-92 *)
Definition m_add_scaled (e other : expansion) (sol : R) : option expansion :=
  if (e_zero other || (if Req_EM_T sol 0 then true else false))%bool then Some e
  else bind (add_loop (e_p e) (fun n m => bind (get_coeff other n m) (fun a => Some (Cmult a (RtoC sol)))) (e_coeffs e))
    (fun M => Some (Exp (e_p e) (e_center e) false M)).
(** Add(strength, point), lines 94-125 *)
Definition charge_term (strength rho c beta : R) (n m : nat) : option C :=
  bind (GetAssLegFunSph n m c) (fun P => Some (Cmult (cis (- INR m * beta)) (RtoC (P * rho ^ n * strength)))).
Definition m_add_charge (e : expansion) (strength : R) (point : pt) : option expansion :=
  if Req_EM_T strength 0 then Some e
  else bind (spher (psub point (e_center e))) (fun s => let '(rho, c, beta) := s in
    bind (add_loop (e_p e) (charge_term strength rho c beta) (e_coeffs e)) (fun M => Some (Exp (e_p e) (e_center e) false M))).
(** AddNormDer(strength, point, normal), lines 127-187 *)
Definition dipole_term (strength rho c beta dRho dAlpha dBeta : R) (n m : nat) : option C :=
  bind (GetAssLegFunSph n m c) (fun P =>
  bind (GetAssLegFunSphDeriv n m c) (fun dP =>
  let dP_sin := dP * sqrt (1 - c ^ 2) in
  (* double(n) * pow(rho, double(n) - 1.) *)
  let nrho := match n with O => 0 * / rho | S k => INR n * rho ^ k end in
  Some (Cmult (Cmult (cis (- INR m * beta)) (nrho * P * dRho - rho ^ n * dP_sin * dAlpha, - INR m * rho ^ n * P * dBeta)) (RtoC strength)))).
Definition pdivs (a : pt) (r : R) : option pt := if Req_EM_T r 0 then None else Some (Pt (cx a / r) (cy a / r) (cz a / r)).
Definition m_add_normder (e : expansion) (strength : R) (point normal : pt) : option expansion :=
  if Req_EM_T strength 0 then Some e
  else
    let d := psub point (e_center e) in
    bind (pdivs normal (sqrt (cx normal * cx normal + cy normal * cy normal + cz normal * cz normal))) (fun nv =>
    let rho := sqrt (square d) in
    bind (pdivs d rho) (fun dr =>
    let dRho := dot dr nv in
    let beta := atan2 (cy d) (cx d) in
    bind (pdivs (Pt (- cy d) (cx d) 0) (cx d ^ 2 + cy d ^ 2)) (fun db =>
    let dBeta := dot db nv in
    bind (rdiv (cz d) rho) (fun c =>
    bind (pdivs (Pt (c * cos beta) (c * sin beta) (- sqrt (1 - c ^ 2))) rho) (fun da =>
    let dAlpha := dot da nv in
    bind (add_loop (e_p e) (dipole_term strength rho c beta dRho dAlpha dBeta) (e_coeffs e)) (fun M => Some (Exp (e_p e) (e_center e) false M))))))).
(** one term of the translation of Add(other), lines 217-247 *)
Definition m2m_term (other : expansion) (rho c beta : R) (n m nn : nat) (mm : Z) : option C :=
  let mz := Z.of_nat m in
  if Nat.ltb (n - nn) (absn (mz - mm)) then Some (RtoC 0)
  else
    bind (get_coeff other (n - nn) (absn (mz - mm))) (fun g =>
    let a : C := (fst g, IZR (GSL_SIGN (mz - mm)) * snd g) in
    bind (GetAssLegFunSph nn (absn mm) c) (fun P =>
    bind (A_n_m nn (absn mm)) (fun A1 => bind (A_n_m (n - nn) (absn (mz - mm))) (fun A2 => bind (A_n_m n m) (fun A3 =>
    bind (rdiv (P * rho ^ nn * A1 * A2) A3) (fun r =>
    let realFact := r * re_pow_i (Z.abs mz - Z.abs mm - Z.abs (mz - mm)) in
    Some (Cmult (RtoC realFact) (Cmult a (cis (- IZR mm * beta)))))))))).
Definition m2m_coeff (other : expansion) (rho c beta : R) (n m : nat) : option C :=
  osum (seq 0 (n + 1)) (fun nn => osum (sym_range nn) (m2m_term other rho c beta n m nn) (Some (RtoC 0))) (Some (RtoC 0)).
(** Add(other), lines 190-266.  The code accumulates in one variable z over both loops; here the inner sums
    are added one by one, which is the same in exact arithmetic. *)
Definition m_translate (e other : expansion) : option expansion :=
  if e_zero other then Some (Exp (e_p e) (e_center e) (e_zero e && e_zero other) (e_coeffs e))
  else
    bind (if Rlt_dec (1 / 10000000) (distance (e_center other) (e_center e)) then
            bind (spher (psub (e_center other) (e_center e))) (fun s => let '(rho, c, beta) := s in
              add_loop (e_p e) (m2m_coeff other rho c beta) (e_coeffs e))
          else add_loop (e_p e) (fun n m => get_coeff other n m) (e_coeffs e))
    (fun M => Some (Exp (e_p e) (e_center e) false M)).
(** Evaluate, lines 269-298 *)
Definition m_eval_term (e : expansion) (rho c beta : R) (nm : nat * nat) : option C :=
  let '(n, m) := nm in
  bind (GetAssLegFunSph n m c) (fun P =>
  let realFact := P * / rho ^ (n + 1) in
  bind (get_coeff e n m) (fun a =>
  Some (match m with
        | O => Cmult a (RtoC realFact)
        | _ => Cmult (Cmult (Cmult a (cis (INR m * beta))) (RtoC 2)) (RtoC realFact)
        end))).
Definition m_evaluate (e : expansion) (x : pt) : option R :=
  if e_zero e then Some 0
  else bind (spher (psub x (e_center e))) (fun s => let '(rho, c, beta) := s in
    bind (osum (nm_pairs (e_p e)) (m_eval_term e rho c beta) (Some (RtoC 0))) (fun z => Some (fst z))).

(** ** LocalExpansion *)
(** lExp_to_lExp_Coeff_Build with p = 10, include/local_expansion.h 182-214, read through
    operator[] of std::vector (bounds) and std::map (0 for a missing key) *)
Definition l2l_table (n m nn : nat) (mm : Z) : option R :=
  if (Nat.ltb n 11 && Nat.ltb m (n + 1))%bool then
    if (Nat.leb n nn && Nat.ltb nn 11 && Nat.leb (absn mm) nn)%bool then
      bind (A_n_m (nn - n) (absn (mm - Z.of_nat m))) (fun A1 => bind (A_n_m nn (absn mm)) (fun A2 => bind (A_n_m n m) (fun A3 =>
      bind (rdiv A1 A2) (fun q =>
      Some (q * A3 * (re_pow_i (Z.abs mm - Z.abs (mm - Z.of_nat m) - Z.of_nat m) * (-1) ^ (nn + n)))))))
    else Some 0
  else None.
(** mExp_to_lExp_Coeff_Build with p = 10, lines 145-180, and LocalExpansionCoeff::get (C02) *)
Definition m2l_table (n m nn : nat) (mm : Z) : option R :=
  if (Nat.ltb n 11 && Nat.ltb m (n + 1) && Nat.ltb nn 11 && Nat.leb (absn mm) nn)%bool then
    bind (A_n_m nn (absn mm)) (fun A1 => bind (A_n_m (n + nn) (absn (Z.of_nat m - mm))) (fun A2 => bind (A_n_m n m) (fun A3 =>
    bind (rdiv A1 A2) (fun q =>
    Some (q * A3 * (re_pow_i (Z.abs (Z.of_nat m - mm) - Z.of_nat m - Z.abs mm) / (-1) ^ nn))))))
  else None.
(** Add(other), lines 111-182 *)
Definition l2l_term (other : expansion) (rho c beta : R) (n m nn : nat) (mm : Z) : option C :=
  let mz := Z.of_nat m in
  if Nat.ltb (nn - n) (absn (mm - mz)) then Some (RtoC 0)
  else
    bind (get_coeff other nn (absn mm)) (fun g =>
    let a : C := (fst g, IZR (GSL_SIGN mm) * snd g) in
    bind (GetAssLegFunSph (nn - n) (absn (mm - mz)) c) (fun P =>
    bind (l2l_table n m nn mm) (fun t =>
    let realFact := P * rho ^ (nn - n) * t in
    Some (Cmult (Cmult a (cis (IZR (mm - mz) * beta))) (RtoC realFact))))).
Definition l2l_coeff (other : expansion) (rho c beta : R) (p n m : nat) : option C :=
  osum (seq n (p + 1 - n)) (fun nn => osum (sym_range nn) (l2l_term other rho c beta n m nn) (Some (RtoC 0))) (Some (RtoC 0)).
Definition l_translate (e other : expansion) : option expansion :=
  if e_zero other then Some e
  else
    bind (if Rlt_dec (1 / 10000000) (distance (e_center other) (e_center e)) then
            bind (spher (psub (e_center other) (e_center e))) (fun s => let '(rho, c, beta) := s in
              add_loop (e_p e) (l2l_coeff other rho c beta (e_p e)) (e_coeffs e))
          else add_loop (e_p e) (fun n m => get_coeff other n m) (e_coeffs e))
    (fun M => Some (Exp (e_p e) (e_center e) false M)).
(** Add(multipole), lines 185-254: negative mm use the conjugate coefficient *)
Definition m2l_term (other : expansion) (rho c beta : R) (n m nn : nat) (mm : Z) : option C :=
  let mz := Z.of_nat m in
  bind (get_coeff other nn (absn mm)) (fun g =>
  let a : C := if Z.ltb mm 0 then (fst g, - snd g) else g in
  bind (GetAssLegFunSph (nn + n) (absn (mm - mz)) c) (fun P =>
  bind (m2l_table n m nn mm) (fun t =>
  let realFact := P * / rho ^ (n + nn + 1) * t in
  Some (Cmult (Cmult a (cis (IZR (mm - mz) * beta))) (RtoC realFact))))).
Definition m2l_coeff (other : expansion) (rho c beta : R) (p n m : nat) : option C :=
  osum (seq 0 (p + 1)) (fun nn => osum (sym_range nn) (m2l_term other rho c beta n m nn) (Some (RtoC 0))) (Some (RtoC 0)).
Definition l_convert (e other : expansion) : option expansion :=
  if e_zero other then Some e
  else
    bind (spher (psub (e_center other) (e_center e))) (fun s => let '(rho, c, beta) := s in
    bind (add_loop (e_p e) (m2l_coeff other rho c beta (e_p e)) (e_coeffs e)) (fun M => Some (Exp (e_p e) (e_center e) false M))).
(** Evaluate, lines 257-293 *)
Definition l_eval_term (e : expansion) (rho c beta : R) (nm : nat * nat) : option C :=
  let '(n, m) := nm in
  bind (GetAssLegFunSph n m c) (fun P =>
  let realFact := P * rho ^ n in
  bind (get_coeff e n m) (fun a =>
  Some (match m with
        | O => Cmult a (RtoC realFact)
        | _ => Cmult a (Cmult (Cmult (cis (INR m * beta)) (RtoC 2)) (RtoC realFact))
        end))).
Definition l_evaluate (e : expansion) (x : pt) : option R :=
  if e_zero e then Some 0
  else bind (spher (psub x (e_center e))) (fun s => let '(rho, c, beta) := s in
    bind (osum (nm_pairs (e_p e)) (l_eval_term e rho c beta) (Some (RtoC 0))) (fun z => Some (fst z))).
(** Add(real, imag), lines 84-107: loops m = 0..p, n = m..p, adds a at (n, n+m) and conj a at (n, n-m);
    sum is the sum of the |a|^2 and the flag is cleared only above 1e-20.  None also stands for the
    std::out_of_range of vector::at on vectors that are too short. *)
Definition mn_pairs (p : nat) : list (nat * nat) := flat_map (fun m => map (fun n => (m, n)) (seq m (p + 1 - m))) (seq 0 (p + 1)).
Definition l_add_vectors_step (p : nat) (re im : list R) (st : option (nat * R * (nat -> C))) (mn : nat * nat) : option (nat * R * (nat -> C)) :=
  bind st (fun s => let '(count, sum, M) := s in let '(m, n) := mn in
  bind (nth_error re count) (fun x => bind (nth_error im count) (fun y =>
  bind (add_to p M n (n + m) (x, y)) (fun M1 =>
  bind (add_to p M1 n (n - m) (x, - y)) (fun M2 => Some (S count, sum + (x * x + y * y), M2)))))).
Definition l_add_vectors (e : expansion) (re im : list R) : option expansion :=
  bind (fold_left (l_add_vectors_step (e_p e) re im) (mn_pairs (e_p e)) (Some (0%nat, 0, e_coeffs e)))
    (fun s => let '(_, sum, M) := s in
     Some (Exp (e_p e) (e_center e) (if Rlt_dec (1 / 10 ^ 20) sum then false else e_zero e) M)).
