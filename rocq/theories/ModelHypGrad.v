(** * Gradients from the hypersingular equation: compute_gradients_hypersingular (bem_problem.cc 2571-2912), dim = 3.

    Mapping and shape data, support points, double-node sets and the singular integrals are parameters; V and W are
    what SingularKernelIntegral::evaluate_VkNj_integrals / evaluate_WkNj_integrals return for a cell and the local
    index of the singular node.  Doubles are exact reals. *)
From Coq Require Import Reals List Arith Bool.
From Verif Require Import LibSum ModelKernel.
Import ListNotations.
Local Open Scope R_scope.

Record hgrad := {
  g_nodes : nat; g_cells : nat; g_points : nat;
  g_dofs : nat -> list nat;                 (* local_dof_indices *)
  g_x : nat -> vec;                         (* support_points *)
  g_double : nat -> list nat;               (* double_nodes_set *)
  g_q : nat -> nat -> vec;                  (* quadrature points of a cell *)
  g_n : nat -> nat -> vec;                  (* normals *)
  g_jxw : nat -> nat -> R;
  g_shape : nat -> nat -> nat -> R;         (* cell, j, q *)
  g_V : nat -> nat -> nat -> vec;           (* cell, singular index, j *)
  g_W : nat -> nat -> nat -> vec }.

Definition dof (G : hgrad) (c j : nat) : nat := nth j (g_dofs G c) 0%nat.
(** 2683-2692 *)
Definition sing (G : hgrad) (i c : nat) : option nat :=
  find (fun j => existsb (Nat.eqb (dof G c j)) (g_double G i)) (seq 0 (length (g_dofs G c))).
(** 2708-2721, component d of "integral" for a regular cell; H * normals[q] is the matrix-vector product *)
Definition Hn (r n : vec) (d : nat) : R := fold_left (fun a k => a + kernelsH3_H r d k * n k) (seq 0 3) 0.
Definition regular_part (G : hgrad) (phi dphi : nat -> R) (i c d : nat) : R :=
  fold_left (fun a q => let r : vec := fun k => g_q G c q k - g_x G i k in
    fold_left (fun a j => a + (- phi (dof G c j) * Hn r (g_n G c q) d * g_shape G c j q * g_jxw G c q
                               + dphi (dof G c j) * kernelsH3_D r d * g_shape G c j q * g_jxw G c q))
              (seq 0 (length (g_dofs G c))) a) (seq 0 (g_points G)) 0.
(** 2756-2789 *)
Definition singular_part (G : hgrad) (phi dphi : nat -> R) (c s d : nat) : R :=
  let js := seq 0 (length (g_dofs G c)) in
  let hyp := fold_left (fun a j => a + - phi (dof G c j) * g_V G c s j d) js 0 in
  let str := fold_left (fun a j => a + dphi (dof G c j) * g_W G c s j d) js 0 in
  str + hyp.
(** vector_hyp_gradients_solution after the cell loop, 2651-2806, at the dof of component d of node i; owner of i only *)
Definition integral (G : hgrad) (phi dphi : nat -> R) (i d : nat) : R :=
  fold_left (fun a c => a + match sing G i c with Some s => singular_part G phi dphi c s d | None => regular_part G phi dphi i c d end)
            (seq 0 (g_cells G)) 0.
(** FullMatrix::invert; None: singular matrix, the LAPACK / Gauss-Jordan failure.  Cofactor formula *)
Definition m3 := nat -> nat -> R.
Definition det (C : m3) : R :=
  C 0%nat 0%nat * (C 1%nat 1%nat * C 2%nat 2%nat - C 1%nat 2%nat * C 2%nat 1%nat)
  - C 0%nat 1%nat * (C 1%nat 0%nat * C 2%nat 2%nat - C 1%nat 2%nat * C 2%nat 0%nat)
  + C 0%nat 2%nat * (C 1%nat 0%nat * C 2%nat 1%nat - C 1%nat 1%nat * C 2%nat 0%nat).
Definition nx (i : nat) : nat := match i with 0 => 1 | 1 => 2 | _ => 0 end%nat.
Definition inv3 (C : m3) : option m3 :=
  if Req_EM_T (det C) 0 then None
  else Some (fun i j => (C (nx j) (nx i) * C (nx (nx j)) (nx (nx i)) - C (nx j) (nx (nx i)) * C (nx (nx j)) (nx i)) / det C).
(** 2861-2903: reassemble b and C, invert, multiply *)
Definition hyp_gradient (G : hgrad) (C : nat -> m3) (b : nat -> vec) (phi dphi : nat -> R) (i : nat) : option vec :=
  match inv3 (C i) with
  | None => None
  | Some Ci => Some (fun d => fold_left (fun a k => a + Ci d k * (integral G phi dphi i k + - b i k * phi i)) (seq 0 3) 0)
  end.
