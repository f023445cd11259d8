(** * The element integrals of the collocation method (C60). *)
From Coq Require Import QArith Qreals Reals List Arith.
From Verif Require Import ModelOctree ModelFmm LibSum ModelFmmExp ModelAssemble.
From Verif Require ModelExp.
Import ListNotations.
Local Open Scope R_scope.

Definition distance (I : oin) (i q : nat) : R :=
  sqrt ((Q2R (px (o_qpos I q)) - Q2R (px (o_pos I i))) ^ 2 + (Q2R (py (o_qpos I q)) - Q2R (py (o_pos I i))) ^ 2 + (Q2R (pz (o_qpos I q)) - Q2R (pz (o_pos I i))) ^ 2).
(** the fundamental solution of the Laplacian between node i and quadrature point q; its normal derivative at q *)
Definition green (I : oin) (ly : layer) (i q : nat) : R :=
  match ly with
  | Single => 1 / (4 * PI * distance I i q)
  | Double n => - ((Q2R (px (o_qpos I q)) - Q2R (px (o_pos I i))) * ModelExp.cx (n q) + (Q2R (py (o_qpos I q)) - Q2R (py (o_pos I i))) * ModelExp.cy (n q)
                   + (Q2R (pz (o_qpos I q)) - Q2R (pz (o_pos I i))) * ModelExp.cz (n q)) / (4 * PI * distance I i q ^ 3)
  end.
(** idx is the first local function of cell c whose node is at the place of node i *)
Definition singular_at (I : oin) (i c idx : nat) : Prop :=
  (idx < length (o_cdofs I c))%nat /\ In (nth idx (o_cdofs I c) 0%nat) (o_dbl I i) /\ forall k, (k < idx)%nat -> ~ In (nth k (o_cdofs I c) 0%nat) (o_dbl I i).
Definition regular_at (I : oin) (i c : nat) : Prop := forall k, (k < length (o_cdofs I c))%nat -> ~ In (nth k (o_cdofs I c) 0%nat) (o_dbl I i).
(** t is the integral over cell c of the kernel of node i times local function j: the singular rule belonging to
    the position of the node in the cell, or the regular rule *)
Definition element_integral (I : oin) (ly : layer) (shape : nat -> nat -> R) (JxW : nat -> R) (S : singular_rule) (i c j : nat) (t : R) : Prop :=
  (forall idx, singular_at I i c idx -> t = suml (seq 0 (sr_n S idx)) (fun q => sr_kernel S i c idx q * sr_shape S idx q j * sr_jxw S c idx q)) /\
  (regular_at I i c -> t = suml (seq 0 (o_nqc I)) (fun k => green I ly i (c * o_nqc I + k)%nat * shape (c * o_nqc I + k)%nat j * JxW (c * o_nqc I + k)%nat)).
