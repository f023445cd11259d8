(** * The associated Legendre table class AssLegFunction: programs, their meaning, the accessors.

    Models source/ass_leg_function.cc and include/ass_leg_function.h.  The bodies of the 462 member
    functions are in ModelLegTable.v, generated from the C++ text.  Doubles are real numbers; a
    division by zero, the square root of a negative number, the use of an unset variable and a table
    access out of bounds or through an unset pointer are the distinct outcome None. *)
From Coq Require Import ZArith List Reals.
Import ListNotations.

(** Expressions occurring in the file. Pow2 e is pow(e, 0.2e1). *)
Inductive ex : Set :=
| Num (z : Z) | X | Var (k : positive)
| Neg (a : ex) | Add (a b : ex) | Sub (a b : ex) | Mul (a b : ex) | Div (a b : ex)
| Sqrt (a : ex) | Pow2 (a : ex).
Declare Scope leg_scope.
Delimit Scope leg_scope with leg.
Bind Scope leg_scope with ex.
Notation "# z" := (Num z%Z) (at level 0, z at level 0) : leg_scope.
Notation "$ k" := (Var k%positive) (at level 0, k at level 0) : leg_scope.
Notation "a + b" := (Add a b) : leg_scope.
Notation "a - b" := (Sub a b) : leg_scope.
Notation "a * b" := (Mul a b) : leg_scope.
Notation "a / b" := (Div a b) : leg_scope.

(** A body: the assignments in order and the returned expression. *)
Definition prog : Set := (list (positive * ex) * ex)%type.

Section Eval.
Local Open Scope R_scope.
Definition env := list (positive * R).
(** latest assignment of a local variable *)
Fixpoint get {A : Type} (k : positive) (e : list (positive * A)) : option A :=
  match e with [] => None | (i, v) :: r => if Pos.eqb i k then Some v else get k r end.
Definition bind {A B : Type} (o : option A) (f : A -> option B) : option B :=
  match o with Some a => f a | None => None end.
(** C++ expression evaluation over the reals *)
Fixpoint eval (x : R) (e : env) (a : ex) : option R :=
  match a with
  | Num z => Some (IZR z)
  | X => Some x
  | Var k => get k e
  | Neg a => bind (eval x e a) (fun u => Some (- u))
  | Add a b => bind (eval x e a) (fun u => bind (eval x e b) (fun v => Some (u + v)))
  | Sub a b => bind (eval x e a) (fun u => bind (eval x e b) (fun v => Some (u - v)))
  | Mul a b => bind (eval x e a) (fun u => bind (eval x e b) (fun v => Some (u * v)))
  | Div a b => bind (eval x e a) (fun u => bind (eval x e b) (fun v => if Req_EM_T v 0 then None else Some (u / v)))
  | Sqrt a => bind (eval x e a) (fun u => if Rlt_dec u 0 then None else Some (sqrt u))
  | Pow2 a => bind (eval x e a) (fun u => Some (u ^ 2))
  end.
(** executing the assignments in order *)
Fixpoint exec (x : R) (e : env) (l : list (positive * ex)) : option env :=
  match l with [] => Some e | (k, a) :: r => bind (eval x e a) (fun v => exec x ((k, v) :: e) r) end.
Definition run (p : prog) (x : R) : option R := bind (exec x [] (fst p)) (fun e => eval x e (snd p)).
End Eval.

(** The constructor, lines 6-14 and 246-252: 21 rows, row i with i+1 entries, then the assignments in
    order; the entry (n,m) is the last one assigned to it. *)
Fixpoint entry (l : list ((nat * nat) * prog)) (n m : nat) : option prog :=
  match l with
  | [] => None
  | ((i, j), p) :: r =>
    match entry r n m with Some q => Some q | None => if (Nat.eqb i n && Nat.eqb j m)%bool then Some p else None end
  end.
Definition table (l : list ((nat * nat) * prog)) (n m : nat) : option prog :=
  if (Nat.ltb n 21 && Nat.ltb m (n + 1))%bool then entry l n m else None.
