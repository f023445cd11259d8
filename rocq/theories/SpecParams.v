(** * What the text of a parameter says, independent of how it is read (C86). *)
From Coq Require Import ZArith List Ascii.
Import ListNotations.
Local Open Scope Z_scope.

(** the white space of the C locale: space, tab, newline, vertical tab, form feed, carriage return *)
Definition white (c : ascii) : Prop := In c [" "; "009"; "010"; "011"; "012"; "013"]%char.
(** the character of a decimal digit, the value of a row of digits (most significant first) *)
Definition digit_char (d : Z) : ascii := nth (Z.to_nat d) ["0"; "1"; "2"; "3"; "4"; "5"; "6"; "7"; "8"; "9"]%char "0"%char.
Fixpoint value (ds : list Z) : Z := match ds with [] => 0 | d :: r => d * 10 ^ Z.of_nat (length r) + value r end.
(** t is a decimal numeral for z: white space, an optional sign, at least one digit, white space *)
Definition numeral (z : Z) (t : list ascii) : Prop :=
  exists w1 sign ds w2, t = w1 ++ sign ++ map digit_char ds ++ w2 /\ Forall white w1 /\ Forall white w2 /\
    ds <> [] /\ Forall (fun d => 0 <= d <= 9) ds /\
    ((sign = [] \/ sign = ["+"%char]) /\ z = value ds \/ sign = ["-"%char] /\ z = - value ds).
(** t is a list of numerals separated by commas; a last comma may be followed by spaces only, and nothing but spaces is the empty list *)
Inductive list_of : list Z -> list ascii -> Prop :=
| nothing b : Forall (fun c => c = " "%char) b -> list_of [] b
| last z t : numeral z t -> list_of [z] t
| more z t l r : numeral z t -> list_of l r -> list_of (z :: l) (t ++ ","%char :: r).
