(** * Which expansions a row of the fast product is computed from (C93). *)
From Coq Require Import Reals List Arith Bool.
From Verif Require Import ModelOctree ModelFmm.
Import ListNotations.
Local Open Scope nat_scope.

(** the multipole and the local expansions of the blocks at the end of the product *)
Definition final_multipoles {AR : arith} (E : eops) (I : oin) (st : ost) (K : kern) (phi : nat -> R) (s : sched) : nat -> ME E :=
  ascend E I st (s_up s) (leaves E I st K phi (s_leaves s)).
Definition final_locals {AR : arith} (E : eops) (I : oin) (st : ost) (K : kern) (phi : nat -> R) (owned : nat -> bool) (s : sched) : nat -> LE E :=
  fst (descend E I st owned (final_multipoles E I st K phi s) (s_down s) (fun _ => 0%R)).
(** row i adds the value of the local expansion of the childless block with node i, and of the multipole expansions of smaller blocks in the far
    lists of the blocks with node i *)
Definition local_of (st : ost) (i b : nat) : Prop := In b (st_childless st) /\ In i (b_nodes (getb (st_blocks st) b)).
Definition multipole_of (I : oin) (st : ost) (i c : nat) : Prop :=
  exists level b s, 1 <= level <= o_N I /\ In b (nth level (st_dfill st) []) /\ In i (b_nodes (getb (st_blocks st) b)) /\
    s < near_levels I st b /\ In c (smaller I st (level_of_id I st b) b s).
(** multipole expansions converted into the local expansion of b *)
Definition converted (I : oin) (st : ost) (b c : nat) : Prop :=
  exists level s, 1 <= level <= o_N I /\ In b (nth level (st_dfill st) []) /\ s < near_levels I st b /\ In c (same_size I st (level_of_id I st b) b s).
