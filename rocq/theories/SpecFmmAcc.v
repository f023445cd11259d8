(** * Vocabulary for the accuracy of the whole product (C59). *)
From Coq Require Import QArith Qreals Reals List Arith.
From Verif Require Import ModelOctree SpecOctree ModelFmm ModelFmmExp.
From Verif Require ModelExp.
Import ListNotations.

(** side of the smallest box the octree may contain *)
Definition smallest_side (I : oin) : R := (Q2R (b_delta (blk (octree I) 0)) / 2 ^ o_N I)%R.

(** exact arithmetic, and positions at which the formulas of the classes do not divide by zero: quadrature points inside
    the root box, off the centre of their leaf (off its vertical axis when normals are used), normals of
    length one, nodes off the centre of their leaf, boxes larger than the tolerance of the translations *)
Definition general_position (I : oin) (ly : layer) : Prop :=
  (forall q, (q < o_nq I)%nat -> inside (o_qpos I q) (blk (octree I) 0)) /\
  (forall b q, In b (st_childless (octree I)) -> In q (b_quads (blk (octree I) b)) ->
     let y := rpt (o_qpos I q) in let c := rpt (centre (blk (octree I) b)) in
     match ly with Single => y <> c | Double _ => ModelExp.cx y <> ModelExp.cx c \/ ModelExp.cy y <> ModelExp.cy c end) /\
  (forall b i, In b (st_childless (octree I)) -> In i (b_nodes (blk (octree I) b)) -> rpt (o_pos I i) <> rpt (centre (blk (octree I) b))) /\
  match ly with Single => True
  | Double n => forall q, (q < o_nq I)%nat -> (ModelExp.cx (n q) ^ 2 + ModelExp.cy (n q) ^ 2 + ModelExp.cz (n q) ^ 2 = 1)%R end /\
  (2 / 10000000 < smallest_side I)%R /\
  exact_arithmetic I.

(** error per unit of density for boxes of side at least d *)
Definition far_error (ly : layer) (p : nat) (d : R) : R :=
  match ly with
  | Single => (INR (p + 1) / (4 * PI) * ((sqrt 3 / 2) ^ (p + 1) / ((2 - sqrt 3) * d)))%R
  | Double _ => (INR (p + 1) / (4 * PI) * (sqrt 2 * (sqrt 3 / 2) ^ p * (INR p + 1 - INR p * (sqrt 3 / 2)) / ((2 - sqrt 3) * d) ^ 2))%R
  end.
