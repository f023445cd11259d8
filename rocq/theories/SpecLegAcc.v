(** * Vocabulary of the accuracy of the Legendre tables (C95). *)
From Coq Require Import ZArith Reals List Arith.
From Verif Require Import ModelFloatExp SpecFloat SpecFloatTrans.
Import ListNotations.
Local Open Scope R_scope.

(** numerical constants of the program text are rounded too *)
Definition constants_within (u : R) (M : fmath) : Prop := forall z, Rabs (fnum M z - IZR z) <= u * Rabs (IZR z).

(** for each degree 0 to 20: roundings and size of the terms of a Legendre function, and how much the error of the square root sqrt(1 - x^2) is magnified *)
Definition value_bounds : list (nat * Z * Z) :=
  [(1%nat, 1, 0); (6%nat, 1, 1); (9%nat, 2, 2); (11%nat, 4, 3); (15%nat, 9, 6); (19%nat, 19, 8); (22%nat, 41, 15); (24%nat, 92, 27); (27%nat, 209, 68); (29%nat, 476, 114); (32%nat, 1091, 181);
   (34%nat, 2515, 345); (37%nat, 5820, 711); (39%nat, 13513, 1270); (42%nat, 31463, 2449); (44%nat, 73439, 4734); (47%nat, 171785, 10791); (49%nat, 402583, 17805); (52%nat, 945041, 38263);
   (54%nat, 2221736, 67416); (57%nat, 5230173, 137721)]%Z.
(** the same for the derivatives of the functions of order m other than 1 *)
Definition derivative_bounds : list (nat * Z * Z) :=
  [(1%nat, 0, 0); (1%nat, 1, 0); (5%nat, 3, 0); (10%nat, 9, 3); (13%nat, 25, 6); (17%nat, 68, 18); (19%nat, 179, 48); (21%nat, 466, 110); (25%nat, 1202, 239); (28%nat, 3077, 529); (30%nat, 7831, 1187);
   (33%nat, 19829, 2561); (35%nat, 50003, 5572); (38%nat, 125654, 11908); (40%nat, 314823, 25206); (43%nat, 786763, 53256); (45%nat, 1961787, 112068); (48%nat, 4882119, 238949); (50%nat, 12128607, 489142);
   (53%nat, 30084373, 1016402); (55%nat, 74519087, 2111091)]%Z.
Definition bound_of (l : list (nat * Z * Z)) (n : nat) : nat * Z * Z := nth n l (0%nat, 0, 0)%Z.
(** the error: roundings times the size, and for odd orders the error [eta] of the square root times the sensitivity *)
Definition legendre_error (u eta : R) (l : list (nat * Z * Z)) (n m : nat) : R :=
  let '(k, size, sensitivity) := bound_of l n in
  gam u k * IZR size + (if Nat.even m then 0 else (1 + gam u k) * IZR sensitivity * eta).
(** a bound of the error of sqrt(1 - x^2) when 1 - x^2 is computed with an absolute error of four roundings: at any x, and better away from the poles *)
Definition root_error_bound (u eta x : R) : Prop := 0 <= eta <= 1 /\ (gam u 4 <= eta ^ 2 \/ gam u 4 <= eta * sqrt (1 - x ^ 2)).
