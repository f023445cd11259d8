(** * The same mesh with the unknowns numbered differently, as the fast multipole part sees it (C85). *)
From Coq Require Import QArith Reals List Arith Permutation.
From Verif Require Import ModelOctree SpecRenumber.
Import ListNotations.
Local Open Scope nat_scope.

(** Node [i] of [I'] is node [pi i] of [I]: same point, same coincident nodes; the cells list the same nodes in the
    same order and have the same quadrature points; the parameters and the arithmetic are the same.  [o_old] is what
    earlier calls left behind (nothing, on a first call). *)
Record same_mesh (pi rho : nat -> nat) (I I' : oin) : Prop := {
  sm_N : o_N I' = o_N I; sm_max : o_max I' = o_max I; sm_nd : o_nd I' = o_nd I; sm_nc : o_nc I' = o_nc I; sm_nqc : o_nqc I' = o_nqc I;
  sm_bij : bijection (o_nd I) pi rho;
  sm_pos : forall i, i < o_nd I -> o_pos I' i = o_pos I (pi i);
  sm_qpos : forall q, q < o_nq I -> o_qpos I' q = o_qpos I q;
  sm_dbl : forall i, i < o_nd I -> Permutation (map pi (o_dbl I' i)) (o_dbl I (pi i));
  sm_cdofs : forall c, c < o_nc I -> map pi (o_cdofs I' c) = o_cdofs I c;
  sm_old : forall i c, i < o_nd I -> c < o_nc I -> (In c (o_old I' i) <-> In c (o_old I (pi i)));
  sm_rnd : forall x, o_rnd I' x = o_rnd I x }.
(** rounding depends on the number, not on how the fraction is written *)
Definition rounds_numbers (I : oin) : Prop := forall x y, (x == y)%Q -> (o_rnd I x == o_rnd I y)%Q.

(** The same box: place, size, level, parent, children and quadrature points; the same nodes under their other numbers. *)
Definition same_box (pi : nat -> nat) (b b' : block) : Prop :=
  b_level b' = b_level b /\ b_parent b' = b_parent b /\ b_kids b' = b_kids b /\ b_quads b' = b_quads b /\
  (px (b_min b') == px (b_min b) /\ py (b_min b') == py (b_min b) /\ pz (b_min b') == pz (b_min b) /\ b_delta b' == b_delta b)%Q /\
  Permutation (map pi (b_nodes b')) (b_nodes b).

(** the same point, however its coordinates are written as fractions *)
Definition same_point (p p' : pt) : Prop := (px p' == px p /\ py p' == py p /\ pz p' == pz p)%Q.
