(** * Vocabulary of the accuracy of translations and evaluations of expansions (C94). *)
From Coq Require Import ZArith Reals List Arith.
From Verif Require Import ModelLegendre ModelLegTable ModelLegApi ModelExp SpecExp LibSum ModelFmm ModelFloat SpecFloat ModelFloatExp ModelFloatExp2.
Import ListNotations.
Local Open Scope R_scope.

(** every rounded operation has relative error at most u; powers of -1 are exact, and so are the (even) powers of i up to u *)
Definition relative_math (u : R) (M : fmath) (pow_i : Z -> R) : Prop :=
  relative u (fm_ops M) /\ (forall n, fpow M (-1) (Z.of_nat n) = (-1) ^ n) /\
  (forall k, Z.even k = true -> Rabs (pow_i k - re_pow_i k) <= u * Rabs (re_pow_i k)).

(** ** Sums of complex numbers: value and size (the sum of the sizes of the real products, without regard to sign) *)
(** the product of two complex numbers, times a real number *)
Definition cterm (a w : R * R) (r : R) : R * R := ((fst a * fst w - snd a * snd w) * r, (fst a * snd w + snd a * fst w) * r).
Definition csize (a w : R * R) (r : R) : R * R := ((Rabs (fst a * fst w) + Rabs (snd a * snd w)) * Rabs r, (Rabs (fst a * snd w) + Rabs (snd a * fst w)) * Rabs r).
Definition rplus2 (a b : R * R) : R * R := (fst a + fst b, snd a + snd b).
Definition abs2 (a : R * R) : R * R := (Rabs (fst a), Rabs (snd a)).
Definition csum {A : Type} (l : list A) (f : A -> R * R) : R * R := (suml l (fun a => fst (f a)), suml l (fun a => snd (f a))).
(** both parts are right up to n roundings of the size *)
Definition within (u : R) (n : nat) (exact size computed : R * R) : Prop :=
  Rabs (fst computed - fst exact) <= gam u n * fst size /\ Rabs (snd computed - snd exact) <= gam u n * snd size.

(** ** The factors *)
(** all (n', m') with |m'| <= n' <= p *)
Definition indices (p : nat) : list (nat * Z) := flat_map (fun n => map (pair n) (sym_range n)) (seq 0 (p + 1)).
(** the coefficient of degree n and any order between -n and n: the conjugate for negative orders *)
Definition source (e : expansion) (n : nat) (m : Z) : R * R := let g := e_coeffs e (tri n (absn m)) in (fst g, if Z.ltb m 0 then - snd g else snd g).
(** ... as the translations read it: the imaginary part for order 0 is not used *)
Definition real_source (e : expansion) (n : nat) (m : Z) : R * R := (fst (source e n m), if Z.eqb m 0 then 0 else snd (source e n m)).
(** the number in a table; the Legendre value and the exponential as the program computes them *)
Definition entry_of (o : option R) : R := match o with Some t => t | None => 0 end.
Definition legendre (M : fmath) (n m : nat) (c : R) : R := entry_of (fGetAssLegFunSph M n m c).
Definition wave (M : fmath) (k : Z) (beta : R) : R * R := fcis M (@amul (@f_arith (fm_ops M)) (IZR k) beta).
Definition indices_from (n p : nat) : list (nat * Z) := flat_map (fun k => map (pair k) (sym_range k)) (seq n (p + 1 - n)).

(** ** The terms of the formulas: source coefficient, exponential, real factor *)
(** conversion of a multipole into a local expansion: coefficient (n, m) from the source coefficient (n', m') *)
Definition conversion_terms (op : R * R -> R * R -> R -> R * R) (M : fmath) (other : expansion) (rho c beta : R) (n m : nat) : R * R :=
  csum (indices (e_p other)) (fun nm => let n' := fst nm in let m' := snd nm in
    op (source other n' m') (wave M (m' - Z.of_nat m) beta)
       (legendre M (n' + n) (absn (m' - Z.of_nat m)) c * fpow M rho (- Z.of_nat n - Z.of_nat n' - 1) * entry_of (m2l_table n m n' m'))).
(** translation of a local expansion: from the coefficients of degree n' >= n with |m' - m| <= n' - n *)
Definition local_terms (op : R * R -> R * R -> R -> R * R) (M : fmath) (other : expansion) (rho c beta : R) (n m : nat) : R * R :=
  csum (filter (fun nm => Nat.leb (absn (snd nm - Z.of_nat m)) (fst nm - n)) (indices_from n (e_p other))) (fun nm => let n' := fst nm in let m' := snd nm in
    op (real_source other n' m') (wave M (m' - Z.of_nat m) beta)
       (legendre M (n' - n) (absn (m' - Z.of_nat m)) c * fpow M rho (Z.of_nat (n' - n)) * entry_of (l2l_table n m n' m'))).
(** translation of a multipole expansion: from the coefficients (n - n', m - m') with |m - m'| <= n - n' *)
Definition multipole_terms (op : R * R -> R * R -> R -> R * R) (M : fmath) (other : expansion) (rho c beta : R) (n m : nat) : R * R :=
  csum (filter (fun nm => Nat.leb (absn (Z.of_nat m - snd nm)) (n - fst nm)) (indices n)) (fun nm => let n' := fst nm in let m' := snd nm in
    op (real_source other (n - n') (Z.of_nat m - m')) (wave M (- m') beta)
       (legendre M n' (absn m') c * fpow M rho (Z.of_nat n') * entry_of (A_n_m n' (absn m')) * entry_of (A_n_m (n - n') (absn (Z.of_nat m - m'))) / entry_of (A_n_m n m)
        * re_pow_i (Z.abs (Z.of_nat m) - Z.abs m' - Z.abs (Z.of_nat m - m')))).
(** the value of an expansion: a sum over 0 <= m <= n <= p of real parts, twice for m > 0; [r] is the power of the radius *)
Definition value_terms (op : R * R -> R * R -> R -> R * R) (M : fmath) (e : expansion) (r : nat -> R) (c beta : R) : R :=
  fst (csum (nm_pairs (e_p e)) (fun nm => let n := fst nm in let m := snd nm in
    op (e_coeffs e (tri n m)) (match m with O => (1, 0) | _ => wave M (Z.of_nat m) beta end) ((match m with O => 1 | _ => 2 end) * (legendre M n m c * r n)))).
