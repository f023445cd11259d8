(** * The calls of a run in their order, independent of how the program is written (C92). *)
From Coq Require Import ZArith List String.
From Verif Require Import ModelMain.
Import ListNotations.
Local Open Scope Z_scope.

(** n solves with a refinement after all but the last *)
Fixpoint solves (n : nat) : list name :=
  match n with O => [] | S O => [Reinit; Solve] | S m => [Reinit; Solve; Adapt; Update] ++ solves m end.
(** everything the program does with t threads, [level] refinements at the start, c cycles *)
Definition order (t level : Z) (c : nat) : list name :=
  [Start t; Construct; Read; Domain; Refine level; Update] ++ solves (S c) ++ [Errors; Output; Summary].

Section Calls.
  Variable W : Type.
  Variable make : name -> W -> W * option thrown.
  (** the calls of l return one after the other, leading from w to w' *)
  Inductive all_return : W -> list name -> W -> Prop :=
  | none w : all_return w [] w
  | one a w w1 l w' : make a w = (w1, None) -> all_return w1 l w' -> all_return w (a :: l) w'.
  (** the first call of l that does not return throws e and leaves w' *)
  Definition one_throws (w : W) (l : list name) (e : thrown) (w' : W) : Prop :=
    exists before a after w1, l = before ++ a :: after /\ all_return w before w1 /\ make a w1 = (w', Some e).
End Calls.
