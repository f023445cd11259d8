(** * What is asked of the work of a fast product (C77). *)
From Coq Require Import QArith Qabs ZArith List Arith Bool.
From Verif Require Import ModelOctree SpecOctree ModelFmm.
Import ListNotations.
Local Open Scope nat_scope.

(** side of the boxes of the last level *)
Definition finest_side (I : oin) : Q := (b_delta (blk (octree I) 0) / inject_Z (2 ^ Z.of_nat (o_N I)))%Q.
(** it exceeds the absolute tolerance of the neighbour tests (rounding errors up to e) *)
Definition finer_than_tolerance (I : oin) (e : Q) : Prop :=
  ((1 # 1000) + (2 * inject_Z (Z.of_nat (o_N I)) + 5) * e < finest_side I)%Q.
(** a cell has the node n, or one of its copies, among its dofs (or had it when the map of an earlier call was filled) *)
Definition cell_at_node (I : oin) (c n : nat) : Prop := exists d, In d (o_dbl I n) /\ (In c (o_old I d) \/ In d (o_cdofs I c)).
(** along every axis the quadrature points of a cell are nearer than g to the nodes of the cell *)
Definition cells_shorter_than (I : oin) (g : Q) : Prop :=
  forall n c q a, n < o_nd I -> c < o_nc I -> cell_at_node I c n -> q < o_nq I -> cell_of I q = c -> a < 3 ->
  (Qabs (axis a (o_pos I n) - axis a (o_qpos I q)) < g)%Q.
(** the root box, built from the nodes alone, holds the quadrature points *)
Definition quads_in_root (I : oin) : Prop := forall q, q < o_nq I -> inside (o_qpos I q) (blk (octree I) 0).
(** closed boxes that have a point in common *)
Definition boxes_touch (b c : block) : Prop :=
  forall a, a < 3 -> (axis a (b_min b) <= axis a (b_min c) + b_delta c /\ axis a (b_min c) <= axis a (b_min b) + b_delta b)%Q.

(** The pairs of blocks (target, source) the loops of one product go through. *)
Section Work.
  Variable I : oin.
  Notation st := (octree I).
  Definition over_levels (f : nat -> nat -> nat -> list nat) : list (nat * nat) :=
    flat_map (fun level => flat_map (fun b => flat_map (fun s => map (pair b) (f level b s)) (seq 0 (near_levels I st b)))
                                    (nth level (st_dfill st) [])) (seq 1 (o_N I)).
  (** multipole to local conversions *)
  Definition m2l_pairs : list (nat * nat) := over_levels (same_size I st).
  (** multipole expansions evaluated at the nodes of a block *)
  Definition evaluation_pairs : list (nat * nat) := over_levels (smaller I st).
  (** larger blocks integrated directly *)
  Definition bigger_pairs : list (nat * nat) := over_levels (bigger I st).
  (** near field *)
  Definition near_pairs : list (nat * nat) := flat_map (fun b => map (pair b) (last_int I st b)) (st_childless st).
  Definition block_pairs : nat := length m2l_pairs + length evaluation_pairs + length bigger_pairs + length near_pairs.
End Work.
