(** * Vocabulary for the accuracy of the expansions (C57-C59): potentials, error bounds, and which
    sources an expansion stands for. *)
From Coq Require Import List Reals.
From Verif Require Import ModelLegendre ModelExp SpecExp.
Import ListNotations.
Local Open Scope R_scope.

Definition position (s : source) : pt := match s with Charge _ y => y | Dipole _ y _ => y end.
(** the exact potential at x: q/|x-y| for a charge, its derivative along the unit vector of v with
    respect to y, q (x-y).v/(|v||x-y|^3), for a dipole *)
Definition potential (s : source) (x : pt) : R :=
  match s with
  | Charge q y => q / distance x y
  | Dipole q y v => let u := unit_vector v in
      q * ((cx x - cx y) * cx u + (cy x - cy y) * cy u + (cz x - cz y) * cz u) / distance x y ^ 3
  end.
Fixpoint sum_over {A : Type} (l : list A) (f : A -> R) : R := match l with [] => 0 | a :: r => f a + sum_over r f end.
Definition potentials (l : list source) (x : pt) : R := sum_over l (fun s => potential s x).
(** error of the order p expansion of a source of unit strength for a ratio k/r < 1 *)
Definition unit_error (s : source) (p : nat) (k r : R) : R :=
  match s with
  | Charge _ _ => (k / r) ^ (p + 1) / (r - k)
  | Dipole _ _ _ => sqrt 2 * ((k / r) ^ p * (INR p + 1 - INR p * (k / r)) / ((r - k) * (r - k)))
  end.
Definition error (s : source) (p : nat) (k r : R) : R := Rabs (strength s) * unit_error s p k r.
Definition scale (k : R) (s : source) : source := match s with Charge q y => Charge (k * q) y | Dipole q y v => Dipole (k * q) y v end.

(** Centres that Add treats exactly: equal, or further apart than its tolerance. *)
Definition movable (c c' : pt) : Prop := c = c' \/ 1 / 10000000 < distance c c'.

(** e is a multipole expansion of order p about c that was obtained, by any history of the class's
    operations, from the sources l: adding a source, adding a multiple of another expansion with the
    same centre, adding another expansion (translation). *)
Inductive multipole_of (p : nat) : pt -> list source -> expansion -> Prop :=
| mo_new c : multipole_of p c [] (fresh p c)
| mo_source c l e s e' : multipole_of p c l e -> regular c s -> add_source e s = Some e' -> multipole_of p c (l ++ [s]) e'
| mo_scaled c l e l' other k e' : multipole_of p c l e -> multipole_of p c l' other -> m_add_scaled e other k = Some e' -> multipole_of p c (l ++ map (scale k) l') e'
| mo_moved c l e c' l' other e' : multipole_of p c l e -> multipole_of p c' l' other -> movable c' c -> m_translate e other = Some e' -> multipole_of p c (l ++ l') e'.

(** e is a local expansion of order p about c obtained, by any history, from conversions of multipole
    expansions: one triple (centre of the multipole, centre of the local expansion it was added to,
    sources) for each. *)
Inductive local_of (p : nat) : pt -> list (pt * pt * list source) -> expansion -> Prop :=
| lo_new c : local_of p c [] (fresh p c)
| lo_converted c g e c' l m e' : local_of p c g e -> multipole_of p c' l m -> l_convert e m = Some e' -> local_of p c (g ++ [(c', c, l)]) e'
| lo_moved c g e c' g' other e' : local_of p c g e -> local_of p c' g' other -> movable c' c -> l_translate e other = Some e' -> local_of p c (g ++ g') e'.
(** x is seen from the local centre, and every source from the multipole centre, at distances that add
    up to less than the distance of the centres *)
Definition separated (x : pt) (t : pt * pt * list source) : Prop :=
  let '(cm, cl, l) := t in cm <> cl /\ List.Forall (fun s => distance x cl + distance (position s) cm < distance cm cl) l.
Definition all_sources (g : list (pt * pt * list source)) : list source := flat_map (fun t => snd t) g.
(** error bound of a local expansion at x: for every conversion and every source (p+1) times the
    bound of a source at the sum of the two distances *)
Definition group_error (p : nat) (x : pt) (t : pt * pt * list source) : R :=
  let '(cm, cl, l) := t in sum_over l (fun s => INR (p + 1) * error s p (distance x cl + distance (position s) cm) (distance cm cl)).
