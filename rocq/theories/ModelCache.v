(** * The CAD projection cache.

    Models CachedNURBSPatchManifold::pull_back, source/cached_nurbs_patch_manifold.cc 134-162, and
    point_to_string, 16-23.

    Simplifications: a coordinate is the exact rational value of the double (negative zero, which
    prints as "-0.000000", and NaN/inf are left out); std::to_string is printf "%f", i.e. the value
    rounded to six decimals, halves to even; std::hash<std::string> is any function; the projection
    itself (OpenCASCADE) is any function of the point. *)
From Coq Require Import QArith Qabs Qround ZArith List Arith Bool.
Import ListNotations.
Local Open Scope Z_scope.

Inductive char := Dig (d : Z) | Dot | Minus.

(** |x| in millionths, rounded to nearest, halves to even *)
Definition micros (x : Q) : Z :=
  let y := (Qabs x * 1000000)%Q in
  let f := Qfloor y in
  let r := (y - inject_Z f)%Q in
  if negb (Qle_bool (1 # 2) r) then f
  else if Qeq_bool r (1 # 2) then (if Z.even f then f else f + 1) else f + 1.

(** decimal digits, most significant first, at least one *)
Fixpoint digits (fuel : nat) (n : Z) : list char :=
  match fuel with
  | O => [Dig n]
  | S f => if n <? 10 then [Dig n] else digits f (n / 10) ++ [Dig (n mod 10)]
  end.
Definition decimal (n : Z) : list char := digits (Z.to_nat (Z.log2 n)) n.
Definition six (n : Z) : list char :=
  [Dig (n / 100000 mod 10); Dig (n / 10000 mod 10); Dig (n / 1000 mod 10);
   Dig (n / 100 mod 10); Dig (n / 10 mod 10); Dig (n mod 10)].

(** std::to_string(double) *)
Definition to_string (x : Q) : list char :=
  (if Qle_bool 0 x then [] else [Minus]) ++ decimal (micros x / 1000000) ++ [Dot] ++ six (micros x mod 1000000).

(** Point<3> *)
Definition point := (Q * Q * Q)%type.
(** point_to_string, lines 16-23 *)
Definition point_to_string (p : point) : list char :=
  let '(x, y, z) := p in to_string x ++ to_string y ++ to_string z.

Section Cache.
  Variable V : Type.                       (* Point<2> *)
  Variable hash : list char -> N.          (* std::hash<std::string> *)
  Variable project : point -> V.           (* ShapeAnalysis_Surface::ValueOfUV *)

  (** projections_cache: unordered_map<size_t, Point<dim>>; find, insert of an absent key *)
  Definition cache := list (N * V).
  Fixpoint find (k : N) (c : cache) : option V :=
    match c with [] => None | (k', v) :: r => if N.eqb k' k then Some v else find k r end.

  Record man := { m_cache : cache; m_new : nat; m_hits : nat }.
  Definition fresh : man := {| m_cache := []; m_new := 0; m_hits := 0 |}.

  (** pull_back, lines 134-162 *)
  Definition pull_back (m : man) (p : point) : man * V :=
    match find (hash (point_to_string p)) (m_cache m) with
    | Some v => ({| m_cache := m_cache m; m_new := m_new m; m_hits := S (m_hits m) |}, v)
    | None => let v := project p in
              ({| m_cache := (hash (point_to_string p), v) :: m_cache m; m_new := S (m_new m); m_hits := m_hits m |}, v)
    end.

  Fixpoint queries (m : man) (l : list point) : man * list V :=
    match l with
    | [] => (m, [])
    | p :: r => let '(m', v) := pull_back m p in let '(m'', vs) := queries m' r in (m'', v :: vs)
    end.
End Cache.
