(** * What is asked of the octree (specification, independent of how it is built). *)
From Coq Require Import QArith Qabs ZArith List Arith Bool.
From Verif Require Import ModelOctree.
Import ListNotations.
Local Open Scope nat_scope.

(** Inputs the program can produce: at least one level, at least one dof, every double-nodes set
    contains its own node and only existing nodes, cells refer to existing dofs. *)
Definition wf_in (I : oin) : Prop :=
  0 < o_N I /\ 0 < o_nd I /\
  (forall d, d < o_nd I -> In d (o_dbl I d) /\ forall e, In e (o_dbl I d) -> e < o_nd I) /\
  (forall c, c < o_nc I -> forall d, In d (o_cdofs I c) -> d < o_nd I).

(** Sums and products of coordinates are exact.  Theorems without this hypothesis hold whatever the
    rounding. *)
Definition exact_arithmetic (I : oin) : Prop := forall x : Q, (o_rnd I x == x)%Q.
(** Rounding errors of at most e on numbers of the size of the coordinates (m: largest coordinate of
    a node), e being small against the code's absolute tolerance 1/1000 and against m.  For IEEE
    doubles e = 2^-53 (3 m + 3) will do, i.e. all m between 10^-13 and 10^9, say, for 20 levels. *)
Definition rounding_within (I : oin) (e : Q) : Prop :=
  (0 <= e /\ (2 * inject_Z (Z.of_nat (o_N I)) + 4) * e <= 1 # 1000 /\
   20 * (e * (max_coord I + 1)) <= max_coord I /\
   forall x, Qabs x <= 3 * max_coord I + 3 -> Qabs (o_rnd I x - x) <= e)%Q.

(** k-th block of the tree *)
Definition blk (st : ost) (k : nat) : block := getb (st_blocks st) k.

(** A block of the cut of the tree at level l: on level l, or childless above it. *)
Definition on_cut (st : ost) (l b : nat) : bool :=
  Nat.eqb (b_level (blk st b)) l ||
  (Nat.ltb (b_level (blk st b)) l && match b_kids (blk st b) with [] => true | _ => false end).
Definition cut (st : ost) (l : nat) : list nat := filter (on_cut st l) (seq 0 (num_blocks st)).

(** number of nodes of a block, a node that has k coincident copies (itself included) counting 1/k *)
Fixpoint weight (I : oin) (l : list nat) : Q :=
  match l with [] => 0%Q | n :: r => (1 / inject_Z (Z.of_nat (length (o_dbl I n))) + weight I r)%Q end.

(** closed cubes *)
Definition axis (a : nat) (p : pt) : Q := match a with 0 => px p | 1 => py p | _ => pz p end.
Definition inside (p : pt) (b : block) : Prop :=
  forall a, a < 3 -> (axis a (b_min b) <= axis a p /\ axis a p <= axis a (b_min b) + b_delta b)%Q.
(** the same with an allowance on the upper sides *)
Definition inside_within (s : Q) (p : pt) (b : block) : Prop :=
  forall a, a < 3 -> (axis a (b_min b) <= axis a p /\ axis a p <= axis a (b_min b) + b_delta b + s)%Q.
(** no common interior point: separated by a plane of one axis *)
Definition interiors_disjoint (b c : block) : Prop :=
  exists a, a < 3 /\ ((axis a (b_min b) + b_delta b <= axis a (b_min c))%Q \/ (axis a (b_min c) + b_delta c <= axis a (b_min b))%Q).
(** separated along some axis by at least g *)
Definition gap (g : Q) (b c : block) : Prop :=
  exists a, a < 3 /\ ((axis a (b_min b) + b_delta b + g <= axis a (b_min c))%Q \/ (axis a (b_min c) + b_delta c + g <= axis a (b_min b))%Q).
Definition centre (b : block) : pt :=
  mkpt (px (b_min b) + b_delta b / 2)%Q (py (b_min b) + b_delta b / 2)%Q (pz (b_min b) + b_delta b / 2)%Q.
Definition dist2 (p q : pt) : Q :=
  ((px p - px q) * (px p - px q) + (py p - py q) * (py p - py q) + (pz p - pz q) * (pz p - pz q))%Q.
