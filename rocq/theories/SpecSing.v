(** * Specification of the singular integrals, independent of the code's formulas. *)
From Coq Require Import Reals Lra.
From Coquelicot Require Import Coquelicot.
Local Open Scope R_scope.

(** ** The reference square and its four edges (deal.II numbering: x=0, x=1, y=0, y=1) *)
Definition in_square (x y : R) : Prop := 0 <= x <= 1 /\ 0 <= y <= 1.
Definition on_edge (f : nat) (x y : R) : Prop :=
  match f with
  | 0%nat => x = 0 /\ 0 <= y <= 1
  | 1%nat => x = 1 /\ 0 <= y <= 1
  | 2%nat => y = 0 /\ 0 <= x <= 1
  | 3%nat => y = 1 /\ 0 <= x <= 1
  | _ => False
  end.

(** ** Vectors of R^3, indexed by 0, 1, 2 *)
Definition dot3 (a b : nat -> R) : R := a 0%nat * b 0%nat + a 1%nat * b 1%nat + a 2%nat * b 2%nat.
Definition norm3 (a : nat -> R) : R := sqrt (dot3 a a).
Definition cross3 (a b : nat -> R) : nat -> R := fun i =>
  match i with
  | 0%nat => a 1%nat * b 2%nat - a 2%nat * b 1%nat
  | 1%nat => a 2%nat * b 0%nat - a 0%nat * b 2%nat
  | _ => a 0%nat * b 1%nat - a 1%nat * b 0%nat
  end.

(** ** Partial derivatives of functions of the reference coordinates *)
Definition du (f : R -> R -> R) : R -> R -> R := fun u v => Derive (fun z => f z v) u.
Definition dv (f : R -> R -> R) : R -> R -> R := fun u v => Derive (fun z => f u z) v.
(** f has continuous partial derivatives up to order k around (u, v) *)
Fixpoint class_C (k : nat) (f : R -> R -> R) (u v : R) : Prop :=
  match k with
  | O => locally_2d (fun x y => continuity_2d_pt f x y) u v
  | S k' => locally_2d (fun x y => ex_derive (fun z => f z y) x /\ ex_derive (fun z => f x z) y) u v
            /\ class_C k' (du f) u v /\ class_C k' (dv f) u v
  end.

(** ** What the mapping X of a cell provides: positions X i u v (i = 0, 1, 2) *)
Definition tangent_u (X : nat -> R -> R -> R) (u v : R) : nat -> R := fun i => du (X i) u v.
Definition tangent_v (X : nat -> R -> R -> R) (u v : R) : nat -> R := fun i => dv (X i) u v.
(** the surface element vector; FEValues::JxW with unit weight is its length, and
    FEValues::normal_vector the unit vector along it *)
Definition surf (X : nat -> R -> R -> R) (u v : R) : nat -> R := cross3 (tangent_u X u v) (tangent_v X u v).
Definition surf_JxW (X : nat -> R -> R -> R) (u v : R) : R := norm3 (surf X u v).
Definition surf_normal (X : nat -> R -> R -> R) (u v : R) : nat -> R := fun i => surf X u v i / norm3 (surf X u v).
(** FEValues::jacobian[i][j] = d x_i / d xi_j and jacobian_grad[i][j][k] = d jacobian[i][j] / d xi_k *)
Definition map_jac (X : nat -> R -> R -> R) (u v : R) (i j : nat) : R :=
  match j with 0%nat => du (X i) u v | _ => dv (X i) u v end.
Definition map_grad (X : nat -> R -> R -> R) (u v : R) (i j k : nat) : R :=
  let f := match j with 0%nat => du (X i) | _ => dv (X i) end in
  match k with 0%nat => du f u v | _ => dv f u v end.

(** ** The kernels, with R the vector from the singular point to the integration point *)
(** gradient of 1/|R| with respect to the singular point: R / |R|^3 *)
Definition grad_G (R_ : nat -> R) (i : nat) : R := R_ i / norm3 R_ ^ 3.
(** derivative of that field in the direction -n of the singular point's motion, i.e. the hypersingular
    kernel n/|R|^3 - 3 R (R.n) / |R|^5 *)
Definition grad_dG (R_ n : nat -> R) (i : nat) : R := n i / norm3 R_ ^ 3 - 3 * R_ i * dot3 R_ n / norm3 R_ ^ 5.

(** bounded near zero, on the right *)
Definition bounded_at_0 (f : R -> R) : Prop := exists delta M, 0 < delta /\ forall rho, 0 < rho < delta -> Rabs (f rho) <= M.
(** f(r) tends to l as r tends to zero from the right *)
Definition lim0 (f : R -> R) (l : R) : Prop := forall eps, 0 < eps -> exists delta, 0 < delta /\ forall r, 0 < r < delta -> Rabs (f r - l) < eps.
