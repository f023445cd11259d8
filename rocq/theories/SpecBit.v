(** * Rounded arithmetic: vocabulary of the statements about bit-for-bit results and rounding errors. *)
From Coq Require Import ZArith Reals List Arith Bool.
From Flocq Require Import Core.
From Verif Require Import ModelOctree ModelFmm LibSum.
Import ListNotations.
Local Open Scope nat_scope.

(** the order in which the children of block [p] occur in a list of work items *)
Definition children_order (I : oin) (p : nat) (l : list nat) : list nat :=
  filter (fun k => Nat.eqb (b_parent (getb (st_blocks (octree I)) k)) p) l.

(** the standard model of rounded arithmetic: relative error [u], absolute error [e] (underflow) *)
Definition rounds_within (u e : R) (A : arith) : Prop :=
  (0 <= u)%R /\ (0 <= e)%R /\
  (forall x y, Rabs (@aadd A x y - (x + y)) <= u * Rabs (x + y) + e)%R /\
  (forall x y, Rabs (@amul A x y - x * y) <= u * Rabs (x * y) + e)%R.

(** IEEE-754 binary64, round to nearest even, without overflow *)
Definition dbl (x : R) : R := round radix2 (FLT_exp (-1074) 53) ZnearestE x.
Definition double_arith : arith :=
  {| aadd := fun x y => dbl (x + y); amul := fun x y => dbl (x * y); adiv := fun x y => dbl (x / y); api := dbl PI |}.

(** the product row of the near-field matrix with a vector, in the code's order *)
Definition near_product {A : arith} (adds : list (nat * nat * R)) (n : nat) (phi : nat -> R) (i : nat) : R :=
  fold_left (fun a d => aadd a (amul (entry adds i d) (phi d))) (seq 0 n) 0%R.

(** the same kernel data with all signs dropped *)
Definition abs_kern (K : kern) : kern :=
  {| kd := fun i q => Rabs (kd K i q); shp := fun q j => Rabs (shp K q j); jxw := fun q => Rabs (jxw K q); sing := fun i c j => Rabs (sing K i c j) |}.
(** number of values added into entry (i,d) *)
Definition adds_at (adds : list (nat * nat * R)) (i d : nat) : nat :=
  length (filter (fun x => Nat.eqb (fst (fst x)) i && Nat.eqb (snd (fst x)) d) adds).
(** how often the cells list the degree of freedom [d] *)
Definition occurrences (I : oin) (d : nat) : nat := list_sum (map (fun c => count_occ Nat.eq_dec (o_cdofs I c) d) (seq 0 (o_nc I))).
