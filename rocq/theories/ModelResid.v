(** * The linear solver's stopping test (bem_problem.cc 1705-1753)

    ModelSolve describes what an exact solution of the system handed to GMRES is.  A real run returns
    a vector for which the solver's test succeeded. *)
From Coq Require Import Reals List Bool Arith.
From Verif Require Import LibSum ModelBem ModelSolve.
Import ListNotations.
Local Open Scope R_scope.

(** the residual, rhs - matrix * x, of the system handed to the solver at bem_problem.cc:1744/1752, with cc.vmult as
    the matrix and the right hand side after distribute_rhs.  [None]: there is no system (compute_constraints throws), or
    the entry is not finite. *)
Definition residual (S : system) (owns : list (nat -> bool)) (rhs sol : vec) (i : nat) : option R :=
  match all_constraints S rhs with
  | None => None
  | Some c =>
      match co_distribute_rhs c owns (compute_rhs (operator S) (fun _ => 0) rhs) i,
            co_vmult (vmult (operator S)) c (map (fun own => (own, constr_cpu_set (s_n S) c own)) owns) sol i with
      | Some b, Some a => Some (b - a)
      | _, _ => None
      end
  end.

(** bem_problem.cc:1705-1708 with 1744 and 1752: SolverGMRES with AdditionalData(100), that is left preconditioning and
    the default residual (library contract): the solver returns normally when the l2 norm of the
    preconditioned residual is at most the tolerance of solver_control (bem_problem.cc:528), and throws otherwise.  [pre] is the
    preconditioner's vmult. *)
Definition solver_accepts (S : system) (owns : list (nat -> bool)) (rhs : vec) (pre : vec -> vec) (tol : R) (sol : vec) : Prop :=
  exists r, (forall i, (i < s_n S)%nat -> residual S owns rhs sol i = Some (r i)) /\ l2_norm (s_n S) (pre r) <= tol.
