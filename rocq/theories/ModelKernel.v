(** * Laplace kernels.

    Models include/laplace_kernel.h 15-162, one definition per function and dimension.  Doubles are
    real numbers; a Point or Tensor<1,dim> is a function from component numbers; division by zero is
    not represented, so the statements assume R <> 0.  The default branches of the switches (never
    instantiated) are left out. *)
From Coq Require Import Reals List.
Import ListNotations.
Local Open Scope R_scope.

Definition vec := nat -> R.
Definition mat := nat -> nat -> R.

(** Tensor<1,dim>::norm_square / Point::square, and norm *)
Definition square (dim : nat) (v : vec) : R := fold_left (fun s k => s + v k * v k) (seq 0 dim) 0.
Definition norm (dim : nat) (v : vec) : R := sqrt (square dim v).

(** single_layer, lines 17-33 *)
Definition single_layer2 (v : vec) : R := - ln (norm 2 v) / (2 * PI).
Definition single_layer3 (v : vec) : R := 1 / (norm 3 v * 4 * PI).

(** double_layer, lines 37-52 *)
Definition double_layer2 (v : vec) : vec := fun i => v i / (- 2 * PI * square 2 v).
Definition double_layer3 (v : vec) : vec := fun i => v i / (- 4 * PI * square 3 v * norm 3 v).

(** hypersingular, lines 54-89.  [before_break i] are the k visited by
    "for (k = 0; k < dim && k != i; ++k)": the loop ends at the first k that equals i. *)
Fixpoint before_break (i : nat) (l : list nat) : list nat :=
  match l with [] => [] | k :: r => if Nat.eqb k i then [] else k :: before_break i r end.
Definition hypersingular2 (v : vec) : mat := fun i j =>
  (match i, j with
   | 0%nat, 0%nat => - v 0%nat * v 0%nat + v 1%nat * v 1%nat
   | 1%nat, 1%nat => v 0%nat * v 0%nat - v 1%nat * v 1%nat
   | _, _ => - 2 * v 0%nat * v 1%nat
   end) / (- 2 * PI * square 2 v * square 2 v).
Definition hypersingular3 (v : vec) : mat := fun i j =>
  (if Nat.eqb i j
   then fold_left (fun h k => h - v k * v k) (before_break i (seq 0 3)) (2 * (v j * v j))
   else 3 * v i * v j) / (- 4 * PI * square 3 v * square 3 v * norm 3 v).

(** kernels(R, D, d), lines 91-110: the values written to D and d *)
Definition kernels2_d (v : vec) : R := let r := norm 2 v in - ln r / (2 * PI).
Definition kernels2_D (v : vec) : vec := let r := norm 2 v in let r2 := r * r in fun i => v i / (- 2 * PI * r2).
Definition kernels3_d (v : vec) : R := let r := norm 3 v in 1 / (r * 4 * PI).
Definition kernels3_D (v : vec) : vec := let r := norm 3 v in let r2 := r * r in fun i => v i / (- 4 * PI * r2 * r).

(** kernels(R, H, D, d), lines 112-160 *)
Definition kernelsH2_d (v : vec) : R := let r := norm 2 v in - ln r / (2 * PI).
Definition kernelsH2_D (v : vec) : vec := let r := norm 2 v in let r2 := r * r in fun i => v i / (- 2 * PI * r2).
Definition kernelsH2_H (v : vec) : mat := let r := norm 2 v in let r2 := r * r in fun i j =>
  (match i, j with
   | 0%nat, 0%nat => - v 0%nat * v 0%nat + v 1%nat * v 1%nat
   | 1%nat, 1%nat => v 0%nat * v 0%nat - v 1%nat * v 1%nat
   | _, _ => - 2 * v 0%nat * v 1%nat
   end) / (- 2 * PI * r2 * r2).
Definition kernelsH3_d (v : vec) : R := let r := norm 3 v in 1 / (r * 4 * PI).
Definition kernelsH3_D (v : vec) : vec := let r := norm 3 v in let r2 := r * r in fun i => v i / (4 * PI * r2 * r).
Definition kernelsH3_H (v : vec) : mat := let r := norm 3 v in let r2 := r * r in fun i j =>
  ((- 3 * v i * v j / r2 / r2 / r) + (if Nat.eqb i j then 1 / r2 / r else 0)) / (4 * PI).
