(** * From the text of the parameter file to the numbers the program uses.

    Models ComputationalDomain::parse_parameters (source/computational_domain.cc 130-180, the lists of boundary ids 154-172), the integer
    entries of BEMFMA::parse_parameters (source/bem_fma.cc 103-126), BEMProblem::parse_parameters (source/bem_problem.cc
    523-573), and the patterns they are declared with (computational_domain.cc 66-128, bem_fma.cc 73-101, bem_problem.cc 458-521).

    Library code modelled after its documentation: Utilities::split_string_list (deal.II), Patterns::Integer::match, Patterns::List::match,
    ParameterHandler::get_integer (deal.II), operator>> of std::istream into int and unsigned int (C++11: no digits or
    out of range set the failbit; into unsigned, no digits give 0, too large a magnitude gives the largest value, a minus sign negates modulo 2^32).

    Simplifications: characters are ASCII, the C locale; the entries are given as text (the reading of the file, its sections and
    comments is the library's). *)
From Coq Require Import ZArith List Arith Bool Ascii.
Import ListNotations.
Local Open Scope Z_scope.

Definition text := list ascii.
Definition code (c : ascii) : Z := Z.of_nat (nat_of_ascii c).
(** isspace in the C locale *)
Definition blank (c : ascii) : bool := Z.eqb (code c) 32 || ((9 <=? code c) && (code c <=? 13)).
Definition space (c : ascii) : bool := Z.eqb (code c) 32.
Definition digit (c : ascii) : option Z := if (48 <=? code c) && (code c <=? 57) then Some (code c - 48) else None.
Definition comma : ascii := ascii_of_nat 44.
Definition plus : ascii := ascii_of_nat 43.
Definition minus : ascii := ascii_of_nat 45.

Fixpoint skip (p : ascii -> bool) (s : text) : text :=
  match s with [] => [] | c :: r => if p c then skip p r else s end.
(** digits from the front: value so far, whether there was one, the rest *)
Fixpoint digits (v : Z) (any : bool) (s : text) : Z * bool * text :=
  match s with
  | [] => (v, any, [])
  | c :: r => match digit c with Some d => digits (10 * v + d) true r | None => (v, any, s) end
  end.
(** sign and magnitude of the number at the front of s, after blanks; None = no digits *)
Definition scan_number (s : text) : option (bool * Z * text) :=
  let s1 := skip blank s in
  let '(neg, s2) := match s1 with
                    | c :: r => if Ascii.eqb c minus then (true, r) else if Ascii.eqb c plus then (false, r) else (false, s1)
                    | [] => (false, s1) end in
  let '(v, any, rest) := digits 0 false s2 in
  if any then Some (neg, v, rest) else None.

(** is >> i for int i; None = the stream fails *)
Definition read_int (s : text) : option (Z * text) :=
  match scan_number s with
  | Some (neg, v, rest) => let z := if neg then - v else v in if (- 2 ^ 31 <=? z) && (z <? 2 ^ 31) then Some (z, rest) else None
  | None => None
  end.
(** reader >> u for unsigned int u: what u holds afterwards *)
Definition read_unsigned (s : text) : Z :=
  match scan_number s with
  | Some (neg, v, _) => if v <? 2 ^ 32 then (if neg then (- v) mod 2 ^ 32 else v) else 2 ^ 32 - 1
  | None => 0
  end.

(** Patterns::Integer(lo, hi)::match *)
Definition integer_ok (lo hi : Z) (s : text) : bool :=
  match read_int s with
  | Some (z, rest) => forallb blank rest && (lo <=? z) && (z <=? hi)
  | None => false
  end.

(** spaces at the end *)
Definition rstrip (s : text) : text := rev (skip space (rev s)).
(** up to the first comma, and after it *)
Fixpoint cut (s : text) : text * option text :=
  match s with
  | [] => ([], None)
  | c :: r => if Ascii.eqb c comma then ([], Some r) else let '(a, b) := cut r in (c :: a, b)
  end.
(** the loop of split_string_list; each round consumes a character *)
Fixpoint split_loop (fuel : nat) (s : text) : list text :=
  match fuel with
  | O => []
  | S n => match s with
           | [] => []
           | _ => let '(name, rest) := cut s in
                  rstrip (skip space name) :: match rest with Some r => split_loop n r | None => [] end
           end
  end.
Definition split_string_list (s : text) : list text := let t := rstrip s in split_loop (length t) t.

(** Patterns::List(Patterns::Integer(0)) with its default bounds on the length (0 to infinity) *)
Definition ids_ok (s : text) : bool := forallb (integer_ok 0 (2 ^ 31 - 1)) (split_string_list s).
(** dirichlet_boundary_ids, neumann_boundary_ids (computational_domain.cc 154-172) *)
Definition boundary_ids (s : text) : list Z := map read_unsigned (split_string_list s).

(** Patterns::Integer() and unsigned = prm.get_integer(...) (computational_domain.cc 138, 145-148; bem_fma.cc 110-125;
    bem_problem.cc 541-562); None = rejected when the file is read *)
Definition unsigned_parameter (s : text) : option Z :=
  if integer_ok (- 2 ^ 31) (2 ^ 31 - 1) s then match read_int s with Some (z, _) => Some (z mod 2 ^ 32) | None => None end else None.
