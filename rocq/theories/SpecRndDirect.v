(** * Vocabulary of the rounding bounds of the Direct method. *)
From Coq Require Import Reals List Arith.
From Verif Require Import ModelOctree ModelFmm ModelAssemble LibSum.
Import ListNotations.
Local Open Scope nat_scope.

(** the singular rules with all signs dropped *)
Definition abs_rule (S : singular_rule) : singular_rule :=
  {| sr_n := sr_n S; sr_kernel := fun i c idx q => Rabs (sr_kernel S i c idx q); sr_shape := fun idx q j => Rabs (sr_shape S idx q j); sr_jxw := fun c idx q => Rabs (sr_jxw S c idx q) |}.
(** [N] bounds the numbers of points of the rules, [J] the JxW values *)
Definition rules_within (I : oin) (K : kern) (S : singular_rule) (N : nat) (J : R) : Prop :=
  o_nqc I <= N /\ (forall idx, sr_n S idx <= N) /\ (forall q, (Rabs (jxw K q) <= J)%R) /\ (forall c idx q, (Rabs (sr_jxw S c idx q) <= J)%R).
