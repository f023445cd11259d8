(** * Vocabulary of the accuracy of the system (C89). *)
From Coq Require Import Reals List Arith Bool Permutation.
From Verif Require Import LibSum ModelOctree ModelFmm ModelAssemble ModelRules ModelFloat SpecBit SpecFloat.
From Verif Require ModelKernel.
From Verif Require Import ModelBem ModelBc ModelOwn ModelSolve ModelRun ModelFloatSolve.
Import ListNotations.
Local Open Scope R_scope.

(** a run with at most [N] points per rule and at most [M] cells at a node, no node being a point of a rule used for
    it, and columns in any order *)
Definition float_run (p : problem) (sub : nat -> nat) (np : nat) (cols : nat -> list nat) (N M : nat) : Prop :=
  (p_dim p = 2%nat \/ p_dim p = 3%nat) /\ (p_nq p <= N)%nat /\ (forall idx, (sp_n (p_singular p) idx <= N)%nat) /\
  points_apart (p_dim p) (run_mesh p sub np) (run_node p sub np) (p_regular p) (p_singular p) /\
  (forall d, (d < p_n p)%nat -> (occurrences (run_mesh p sub np) d <= M)%nat) /\
  (forall i, (i < p_n p)%nat -> Permutation (cols i) (seq 0 (p_n p))).
(** the entries of a vector at the Dirichlet nodes ([b] true), or at the others; 0 elsewhere *)
Definition masked (p : problem) (sub : nat -> nat) (np : nat) (b : bool) (v : vec) : vec := fun i => if Bool.eqb (s_dir (run_system p sub np) i) b then v i else 0.
(** the sum over row i of matrix m of the sizes of the entries times |v| *)
Definition row_sizes (p : problem) (sub : nat -> nat) (np : nat) (m : matrix) (v : vec) (i : nat) : R :=
  suml (seq 0 (p_n p)) (fun d => size_entry (p_dim p) m (run_mesh p sub np) (run_node p sub np) (p_regular p) (p_singular p) (cpu_set (numbers p sub np) (owner_of p sub np i)) i d * Rabs (v d)).
(** the sizes of the terms of the integral equation at node i *)
Definition equation_sizes (p : problem) (sub : nat -> nat) (np : nat) (phi dphi : vec) (i : nat) : R :=
  row_sizes p sub np dirichlet_matrix dphi i + row_sizes p sub np neumann_matrix phi i + Rabs (phi i) * row_sizes p sub np neumann_matrix (fun _ => 1) i.
(** the rounding errors of row i of the system: those of the integral equation, or those of a constraint, where the
    row of the matrix is added and subtracted *)
Definition row_rounding {F : flops} (u : R) (p : problem) (sub : nat -> nat) (np : nat) (cols : nat -> list nat) (N M : nat) (c : constraints) (sol : vec) (i : nat) : R :=
  match c i with
  | None => gam u (37 + N + M + p_n p) * equation_sizes p sub np (run_phi p sub np sol) (run_dphi p sub np sol) i
  | Some l => gam u (3 + length (l_entries l)) * (2 * Rabs (fvmult p sub np cols sol i) + Rabs (sol i) + suml (l_entries l) (fun e => Rabs (snd e * sol (fst e))))
  end.
