(** * What the Legendre table should contain (independent of the code). *)
From Coq Require Import Reals.
From Coquelicot Require Import Coquelicot.
Local Open Scope R_scope.

(** The associated Legendre function of degree n and order m with the Condon-Shortley phase and the
    normalisation used for spherical harmonics in the fast multipole method, by Rodrigues' formula:
    (-1)^m sqrt((n-m)!/(n+m)!) (1-x^2)^(m/2) / (2^n n!) d^(n+m)/dx^(n+m) (x^2-1)^n. *)
Definition Plm (n m : nat) (x : R) : R :=
  (-1) ^ m * sqrt (INR (fact (n - m)) / INR (fact (n + m))) * sqrt (1 - x ^ 2) ^ m *
  (Derive_n (fun t => (t ^ 2 - 1) ^ n) (n + m) x / (2 ^ n * INR (fact n))).
