(** * Vocabulary of the accuracy of the kernels. *)
From Coq Require Import ZArith Reals List Arith.
From Flocq Require Import Core.
From Verif Require Import ModelOctree ModelFmm ModelAssemble ModelRules ModelFloat LibSum.
From Verif Require ModelKernel.
Import ListNotations.
Local Open Scope R_scope.

(** every operation has relative error at most [u] (no overflow and no underflow) *)
Definition relative (u : R) (F : flops) : Prop :=
  0 <= u < 1 /\
  (forall x y, Rabs (@aadd f_arith x y - (x + y)) <= u * Rabs (x + y)) /\ (forall x y, Rabs (fsub x y - (x - y)) <= u * Rabs (x - y)) /\
  (forall x y, Rabs (@amul f_arith x y - x * y) <= u * Rabs (x * y)) /\ (forall x y, y <> 0 -> Rabs (@adiv f_arith x y - x / y) <= u * Rabs (x / y)) /\
  (forall x, 0 <= x -> Rabs (fsqrt x - sqrt x) <= u * sqrt x) /\ (forall x, 0 < x -> Rabs (flog x - ln x) <= u * Rabs (ln x)) /\ Rabs (@api f_arith - PI) <= u * PI.
(** binary64 without limits on the exponent: round to nearest even with 53 digits (the logarithm of a C library need not be correctly
    rounded: [u] is then the larger error of the logarithm) *)
Definition flx (x : R) : R := round radix2 (FLX_exp 53) ZnearestE x.
Definition unlimited_double : flops :=
  {| f_arith := {| aadd := fun x y => flx (x + y); amul := fun x y => flx (x * y); adiv := fun x y => flx (x / y); api := flx PI |};
     fsub := fun x y => flx (x - y); fsqrt := fun x => flx (sqrt x); flog := fun x => flx (ln x) |}.
(** [n] roundings: the relative error (1/(1-u))^n - 1, about n u *)
Definition gam (u : R) (n : nat) : R := (/ (1 - u)) ^ n - 1.

(** the largest kernel value at these points, without regard to sign: 1/(4 pi r), or the sum of |R_k n_k| over 4 pi r^3;
    in 2D (|ln r| + 1)/(2 pi), a unit larger than the kernel because a relative error of r is an absolute error of ln r, or
    the sum of |R_k n_k| over 2 pi r^2 *)
Definition size_kernel (dim : nat) (m : matrix) (x n y : ModelKernel.vec) : R :=
  let sq := fun k : nat => (x k - y k) ^ 2 in let term := fun k : nat => Rabs (x k - y k) * Rabs (n k) in
  if Nat.eqb dim 3 then
    let r := sqrt (sq 0%nat + sq 1%nat + sq 2%nat) in
    match m with
    | dirichlet_matrix => / (4 * PI * r)
    | neumann_matrix => (term 0%nat + term 1%nat + term 2%nat) / (4 * PI * r ^ 3)
    end
  else
    let r := sqrt (sq 0%nat + sq 1%nat) in
    match m with
    | dirichlet_matrix => (Rabs (ln r) + 1) / (2 * PI)
    | neumann_matrix => (term 0%nat + term 1%nat) / (2 * PI * r ^ 2)
    end.
(** the quadrature sums of the sizes: the same rules applied to them *)
Definition size_kern (dim : nat) (m : matrix) (node : nat -> ModelKernel.vec) (P : regular_points) : kern := {|
  kd := fun i q => size_kernel dim m (rp_at P q) (rp_normal P q) (node i);
  shp := fun q j => Rabs (rp_shape P q j); jxw := fun q => Rabs (rp_jxw P q); sing := fun _ _ _ => 0 |}.
Definition size_rule (dim : nat) (m : matrix) (node : nat -> ModelKernel.vec) (P : singular_points) : singular_rule := {|
  sr_n := sp_n P; sr_kernel := fun i c idx q => size_kernel dim m (sp_at P c idx q) (sp_normal P c idx q) (node i);
  sr_shape := fun idx q j => Rabs (sp_shape P idx q j); sr_jxw := fun c idx q => Rabs (sp_jxw P c idx q) |}.
Definition size_entry (dim : nat) (m : matrix) (I : oin) node P S (owned : nat -> bool) (i d : nat) : R :=
  @entry exact_arith (@assemble_adds exact_arith I (size_kern dim m node P) (size_rule dim m node S) owned) i d.
(** no node is a point of a rule that is used for it *)
Definition apart (dim : nat) (x y : ModelKernel.vec) : Prop := x 0%nat <> y 0%nat \/ x 1%nat <> y 1%nat \/ (dim = 3%nat /\ x 2%nat <> y 2%nat).
Definition points_apart (dim : nat) (I : oin) node P S : Prop :=
  (forall i c q, (i < o_nd I)%nat -> (c < o_nc I)%nat -> singular_index I i c = None -> In q (quads_of_cell I c) -> apart dim (rp_at P q) (node i)) /\
  (forall i c idx q, (i < o_nd I)%nat -> (c < o_nc I)%nat -> singular_index I i c = Some idx -> (q < sp_n S idx)%nat -> apart dim (sp_at S c idx q) (node i)).
