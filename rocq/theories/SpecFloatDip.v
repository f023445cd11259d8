(** * Vocabulary of the accuracy of dipoles (C94). *)
From Coq Require Import ZArith Reals.
From Verif Require Import ModelLegApi ModelExp ModelFmm ModelFloat SpecFloat ModelFloatExp SpecFloatTrans.
Local Open Scope R_scope.

(** the tabulated derivative, as the program computes it *)
Definition legendre_slope (M : fmath) (n m : nat) (c : R) : R := entry_of (fGetAssLegFunSphDeriv M n m c).
(** the spherical coordinates of d (rho, the cosine c, its sine s, beta) and their derivatives along the unit vector of [normal], as the program computes them *)
Definition slopes (M : fmath) (d normal : pt) (rho c s beta dRho dAlpha dBeta : R) : Prop :=
  let A := @f_arith (fm_ops M) in
  exists l nv dr db da,
    froot M (fdot3 M normal normal) = Some l /\ fscale M normal l = Some nv /\
    frho M d = Some rho /\ fscale M d rho = Some dr /\ dRho = fdot3 M dr nv /\
    beta = fatan2 M (cy d) (cx d) /\ fscale M (Pt (- cy d) (cx d) 0) (@aadd A (@amul A (cx d) (cx d)) (@amul A (cy d) (cy d))) = Some db /\ dBeta = fdot3 M db nv /\
    fdiv M (cz d) rho = Some c /\ froot M (@fsub (fm_ops M) 1 (@amul A c c)) = Some s /\
    fscale M (Pt (@amul A c (fcos M beta)) (@amul A c (fsin M beta)) (- s)) rho = Some da /\ dAlpha = fdot3 M da nv.
(** the derivative of P_n^m(c) rho^n exp(-i m beta) along the normal, times the strength, and the size of its terms *)
Definition dipole_value (M : fmath) (n m : nat) (rho c s beta dRho dAlpha dBeta q : R) : R * R :=
  let w := wave M (- Z.of_nat m) beta in
  let radial := INR n * fpow M rho (Z.of_nat n - 1) * legendre M n m c * dRho in
  let polar := fpow M rho (Z.of_nat n) * (legendre_slope M n m c * s) * dAlpha in
  let around := - INR m * fpow M rho (Z.of_nat n) * legendre M n m c * dBeta in
  cterm w (radial - polar, around) q.
Definition dipole_size (M : fmath) (n m : nat) (rho c s beta dRho dAlpha dBeta q : R) : R * R :=
  let w := wave M (- Z.of_nat m) beta in
  let radial := INR n * fpow M rho (Z.of_nat n - 1) * legendre M n m c * dRho in
  let polar := fpow M rho (Z.of_nat n) * (legendre_slope M n m c * s) * dAlpha in
  let around := - INR m * fpow M rho (Z.of_nat n) * legendre M n m c * dBeta in
  csize w (Rabs radial + Rabs polar, around) q.
(** ** Exact counterparts, for the computed difference vector d and the given normal *)
Definition length3 (a : pt) : R := sqrt (cx a * cx a + cy a * cy a + cz a * cz a).
(** a scalar product and the size of its terms *)
Definition dot (a b : pt) : R := cx a * cx b + cy a * cy b + cz a * cz b.
Definition dot_size (a b : pt) : R := Rabs (cx a * cx b) + Rabs (cy a * cy b) + Rabs (cz a * cz b).
(** right up to n roundings of the size *)
Definition close (u : R) (n : nat) (exact size computed : R) : Prop := Rabs (computed - exact) <= gam u n * size.
