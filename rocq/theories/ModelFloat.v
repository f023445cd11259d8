(** * The kernels and the assembled matrices in rounded arithmetic

    include/laplace_kernel.h 91-110 and bem_problem.cc 888-910, 1138-1151 with every operation rounded: the same
    expressions as in ModelKernel and ModelRules, operation by operation in the order of the C++ text.  The operations
    are those of [arith] and a rounded subtraction, square root and logarithm.  Simplifications: Tensor / double divides every
    component (deal.II may multiply by the rounded reciprocal instead: [adiv] then stands for both operations); Tensor::norm and
    Tensor * Tensor sum from component 0 on; -4 * numbers::PI is the product of the numbers -4 and numbers::PI. *)
From Coq Require Import Reals List Arith Bool.
From Verif Require Import ModelOctree ModelFmm ModelAssemble ModelRules.
From Verif Require ModelKernel.
Import ListNotations.
Local Open Scope nat_scope.

Class flops := { f_arith : arith; fsub : R -> R -> R; fsqrt : R -> R; flog : R -> R }.
#[global] Existing Instance f_arith | 100.
Definition exact_flops : flops := {| f_arith := exact_arith; fsub := Rminus; fsqrt := sqrt; flog := ln |}.

Section Float.
  Context {F : flops}.
  Notation "x [+] y" := (@aadd f_arith x y) (at level 50, left associativity).
  Notation "x [*] y" := (@amul f_arith x y) (at level 40, left associativity).
  Notation "x [/] y" := (@adiv f_arith x y) (at level 40, left associativity).
  Notation pi := (@api f_arith).
  Variable dim : nat.                     (* 2 or 3 *)
  (** Tensor<1,dim>::norm_square and norm *)
  Definition fsquare (v : ModelKernel.vec) : R := let s := (v 0 [*] v 0) [+] (v 1 [*] v 1) in if Nat.eqb dim 3 then s [+] (v 2 [*] v 2) else s.
  Definition fnorm (v : ModelKernel.vec) : R := fsqrt (fsquare v).
  (** kernels(R, D, d), case 3: d = (1. / (r * 4 * numbers::PI)) (104); case 2: d = -std::log(r) / (2 * numbers::PI) (100) *)
  Definition fkernel_d (v : ModelKernel.vec) : R := let r := fnorm v in
    if Nat.eqb dim 3 then 1%R [/] ((r [*] 4%R) [*] pi) else (- flog r)%R [/] (2%R [*] pi).
  (** D = R / (-4 * numbers::PI * r2 * r) with r2 = r * r (96, 105); D = R / (-2 * numbers::PI * r2) (101) *)
  Definition fkernel_D (v : ModelKernel.vec) : ModelKernel.vec := let r := fnorm v in let r2 := r [*] r in
    fun i => v i [/] (if Nat.eqb dim 3 then (((-4)%R [*] pi) [*] r2) [*] r else ((-2)%R [*] pi) [*] r2).
  (** R = q_points[q] - support_points[i] (bem_problem.cc 890, 1140) *)
  Definition fdifference (x y : ModelKernel.vec) : ModelKernel.vec := fun k => fsub (x k) (y k).
  (** D * normals[q] *)
  Definition fdot (a b : ModelKernel.vec) : R := let s := (a 0 [*] b 0) [+] (a 1 [*] b 1) in if Nat.eqb dim 3 then s [+] (a 2 [*] b 2) else s.
  Definition fpoint_kernel (m : matrix) (x n y : ModelKernel.vec) : R :=
    match m with
    | dirichlet_matrix => fkernel_d (fdifference x y)
    | neumann_matrix => fdot (fkernel_D (fdifference x y)) n
    end.
  Definition fregular_kern (m : matrix) (node : nat -> ModelKernel.vec) (P : regular_points) : kern := {|
    kd := fun i q => fpoint_kernel m (rp_at P q) (rp_normal P q) (node i);
    shp := rp_shape P; jxw := rp_jxw P; sing := fun _ _ _ => 0%R |}.
  Definition frule_at (m : matrix) (node : nat -> ModelKernel.vec) (P : singular_points) : singular_rule := {|
    sr_n := sp_n P;
    sr_kernel := fun i c idx q => fpoint_kernel m (sp_at P c idx q) (sp_normal P c idx q) (node i);
    sr_shape := sp_shape P; sr_jxw := sp_jxw P |}.
  (** the matrix as stored, and its product in the column order of the process *)
  Definition fstored (m : matrix) (I : oin) (node : nat -> ModelKernel.vec) (P : regular_points) (S : singular_points) (owned : nat -> bool) (i d : nat) : R :=
    @entry f_arith (@assemble_adds f_arith I (fregular_kern m node P) (frule_at m node S) owned) i d.
  Definition fstored_vmult (m : matrix) (I : oin) (node : nat -> ModelKernel.vec) (P : regular_points) (S : singular_points) (owned : nat -> bool) (cols : list nat) (v : nat -> R) (i : nat) : R :=
    @row_product f_arith I (fregular_kern m node P) (frule_at m node S) owned cols v i.
End Float.
