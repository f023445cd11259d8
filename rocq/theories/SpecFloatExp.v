(** * Vocabulary of the expansions in double precision. *)
From Coq Require Import ZArith Reals List.
From Flocq Require Import Core.
From Verif Require Import ModelLegendre ModelFmm ModelFloat SpecFloat ModelFloatExp.
From Verif Require ModelExp.
Import ListNotations.
Local Open Scope R_scope.

(** a number of 53 binary digits (no limit on the exponent) *)
Definition is_double (x : R) : Prop := generic_format radix2 (FLX_exp 53) x.
(** binary64 without limits on the exponent, with any cosine, sine, arc tangent and power of the C library *)
Definition double_math (M : fmath) : Prop := fm_ops M = unlimited_double /\ forall z, fnum M z = flx (IZR z).
(** the cosine of the polar angle of a difference vector, as the routines compute it *)
Definition computed_cosine (M : fmath) (d : ModelExp.pt) (c : R) : Prop :=
  exists rho, frho M d = Some rho /\ fdiv M (ModelExp.cz d) rho = Some c.
Definition double_point (d : ModelExp.pt) : Prop := is_double (ModelExp.cx d) /\ is_double (ModelExp.cy d) /\ is_double (ModelExp.cz d).
Definition nonzero (d : ModelExp.pt) : Prop := d <> ModelExp.Pt 0 0 0.
(** squared distance from the vertical axis, and squared height *)
Definition axis2 (d : ModelExp.pt) : R := ModelExp.cx d ^ 2 + ModelExp.cy d ^ 2.
Definition height2 (d : ModelExp.pt) : R := ModelExp.cz d ^ 2.
