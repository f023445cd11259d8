(** * The system handed to the linear solver in rounded arithmetic (Direct mode, some node Dirichlet)

    compute_alpha (bem_problem.cc 1556-1583), vmult (1585-1640), compute_rhs (1643-1690) and ConstrainedOperator
    (constrained_matrix.h 93-146), for the rows of a run (ModelRun), with every operation rounded in the order of
    the C++ text.  Matrices as in ModelFloat.  Simplifications: the 0. added to the entries that are not constrained
    or belong to other processes (constrained_matrix.h 117) is left out; the inhomogeneities of the constraints and the imposed data
    are taken as they are; a vector's scale by a vector and by a number, += and vmult_add are one operation per entry (vmult_add adds the
    product, summed on its own, to the entry). *)
From Coq Require Import Reals List Arith Bool.
From Verif Require Import LibSum ModelOctree ModelFmm ModelAssemble ModelRules ModelFloat.
From Verif Require ModelKernel.
From Verif Require Import ModelBem ModelBc ModelOwn ModelSolve ModelRun.
Import ListNotations.
Local Open Scope R_scope.

Section FloatSolve.
  Context {F : flops}.
  Notation "x [+] y" := (@aadd f_arith x y) (at level 50, left associativity).
  Notation "x [*] y" := (@amul f_arith x y) (at level 40, left associativity).
  Variables (p : problem) (sub : nat -> nat) (np : nat).
  Variable cols : nat -> list nat.        (* order of the columns on the process that owns the row *)
  (** neumann_matrix.vmult, dirichlet_matrix.vmult at row i on its owner *)
  Definition fproduct (m : matrix) (v : vec) (i : nat) : R :=
    fstored_vmult (p_dim p) m (run_mesh p sub np) (run_node p sub np) (p_regular p) (p_singular p) (cpu_set (numbers p sub np) (owner_of p sub np i)) (cols i) v i.
  (** alpha (1559-1573): the product with a zero vector shifted by -1 *)
  Definition falpha (i : nat) : R := fproduct neumann_matrix (fun _ => 0 [+] -1) i.
  (** dirichlet_nodes and neumann_nodes *)
  Definition fdir (i : nat) : R := if s_dir (run_system p sub np) i then 1 else 0.
  Definition fneu (i : nat) : R := if s_dir (run_system p sub np) i then 0 else 1.
  Definition fscale (a b : vec) : vec := fun i => a i [*] b i.
  (** vmult (1589-1619) *)
  Definition fvmult (src : vec) (i : nat) : R :=
    let serv_phi := fscale src fneu in let serv_dphi := fscale src fdir in
    let dst := fproduct dirichlet_matrix serv_dphi i in
    let dst := dst [*] -1 in
    let dst := dst [+] fproduct neumann_matrix serv_phi i in
    dst [+] (serv_phi i [*] falpha i).
  (** compute_rhs (1647-1671) *)
  Definition frhs (src : vec) (i : nat) : R :=
    let serv_phi := fscale src fdir in let serv_dphi := fscale src fneu in
    let dst := fproduct neumann_matrix serv_phi i in
    let dst := dst [+] (serv_phi i [*] falpha i) in
    let dst := dst [*] -1 in
    dst [+] fproduct dirichlet_matrix serv_dphi i.
  (** a constrained row (constrained_matrix.h 110-115): dst(i) += src(i) - dst(i); dst(i) -= second * src(first) *)
  Definition fconstrain (dst : R) (src : vec) (l : line) (i : nat) : R :=
    fold_left (fun d e => fsub d (snd e [*] src (fst e))) (l_entries l) (dst [+] fsub (src i) dst).
  Definition fco_vmult (c : constraints) (src : vec) (i : nat) : R :=
    match c i with Some l => fconstrain (fvmult src i) src l i | None => fvmult src i end.
  (** distribute_rhs (constrained_matrix.h 136-146) *)
  Definition fco_rhs (c : constraints) (rhs : vec) (i : nat) : option R :=
    match c i with Some l => l_inhom l | None => Some (frhs rhs i) end.
End FloatSolve.
