(** * The accessors of AssLegFunction, source/ass_leg_function.cc 489-537. *)
From Coq Require Import ZArith List Reals.
From Verif Require Import ModelLegendre ModelLegTable.
Import ListNotations.

(** GetAssLegFunSph, lines 521-527 *)
Definition GetAssLegFunSph (n m : nat) (x : R) : option R := bind (table leg_pointers_assignments n m) (fun p => run p x).
(** GetAssLegFunSphDeriv, lines 530-536 *)
Definition GetAssLegFunSphDeriv (n m : nat) (x : R) : option R := bind (table leg_der_pointers_assignments n m) (fun p => run p x).
(** the loop "for (n = m; n < p + 1; n++)" of lines 495-498: the values written to y[0], y[1], ... *)
Fixpoint mapM {A B : Type} (f : A -> option B) (l : list A) : option (list B) :=
  match l with [] => Some [] | a :: r => bind (f a) (fun b => bind (mapM f r) (fun q => Some (b :: q))) end.
(** AssLegFunSph, lines 489-500 *)
Definition AssLegFunSph (p m : nat) (x : R) : option (list R) := mapM (fun n => GetAssLegFunSph n m x) (seq m (p + 1 - m)).
(** AssLegFunSphDeriv, lines 503-518 *)
Definition AssLegFunSphDeriv (p m : nat) (x : R) : option (list (R * R)) :=
  mapM (fun n => bind (GetAssLegFunSph n m x) (fun y => bind (GetAssLegFunSphDeriv n m x) (fun d => Some (y, d)))) (seq m (p + 1 - m)).
