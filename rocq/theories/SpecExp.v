(** * Vocabulary for the expansion properties (C05-C09). *)
From Coq Require Import ZArith List Reals.
From Coquelicot Require Import Coquelicot.
From Verif Require Import ModelLegendre ModelExp.
Import ListNotations.
Local Open Scope R_scope.

(** A source: a charge, or a dipole with a direction (not normalised). *)
Inductive source := Charge (q : R) (x : pt) | Dipole (q : R) (x v : pt).
(** adding a source with the code's own operation *)
Definition add_source (e : expansion) (s : source) : option expansion :=
  match s with Charge q x => m_add_charge e q x | Dipole q x v => m_add_normder e q x v end.
(** adding a list of sources, in order *)
Definition add_sources (e : expansion) (l : list source) : option expansion := fold_left (fun o s => bind o (fun e => add_source e s)) l (Some e).
(** where the formulas are defined: a charge not at the center, a dipole off the vertical line through the
    center and with a direction; zero strengths are always harmless *)
Definition regular (c : pt) (s : source) : Prop :=
  match s with
  | Charge q x => q = 0 \/ x <> c
  | Dipole q x v => q = 0 \/ ((cx x <> cx c \/ cy x <> cy c) /\ v <> Pt 0 0 0)
  end.
Definition strength (s : source) : R := match s with Charge q _ => q | Dipole q _ _ => q end.
(** coefficient (n,m) of an expansion *)
Definition coeff (e : expansion) (n m : nat) : C := e_coeffs e (tri n m).
(** an operation succeeded and added exactly a to the coefficients *)
Definition adds (e e' : expansion) (a : nat -> nat -> C) : Prop :=
  e_p e' = e_p e /\ e_center e' = e_center e /\ forall n m, (m <= n <= e_p e)%nat -> coeff e' n m = (coeff e n m + a n m)%C.
(** the point x + t v and the unit vector of v *)
Definition line (x v : pt) (t : R) : pt := Pt (cx x + t * cx v) (cy x + t * cy v) (cz x + t * cz v).
Definition unit_vector (v : pt) : pt := let r := sqrt (cx v ^ 2 + cy v ^ 2 + cz v ^ 2) in Pt (cx v / r) (cy v / r) (cz v / r).
(** coefficient (n,m) that a unit charge at x leaves in an empty expansion of order p about c *)
Definition unit_charge_coeff (p : nat) (c x : pt) (n m : nat) : C :=
  match m_add_charge (fresh p c) 1 x with Some e => coeff e n m | None => RtoC 0 end.

(** ** Histories of calls *)
(** the calls that accumulate into a multipole expansion: Add(strength, point), AddNormDer,
    Add(expansion, solution value), Add(expansion) *)
Inductive m_call := MCharge (q : R) (x : pt) | MDipole (q : R) (x v : pt) | MScaled (other : expansion) (sol : R) | MTranslate (other : expansion).
Definition m_apply (e : expansion) (k : m_call) : option expansion :=
  match k with
  | MCharge q x => m_add_charge e q x
  | MDipole q x v => m_add_normder e q x v
  | MScaled other sol => m_add_scaled e other sol
  | MTranslate other => m_translate e other
  end.
(** the calls that accumulate into a local expansion: Add(local), Add(multipole) *)
Inductive l_call := LTranslate (other : expansion) | LConvert (multipole : expansion).
Definition l_apply (e : expansion) (k : l_call) : option expansion :=
  match k with LTranslate other => l_translate e other | LConvert multipole => l_convert e multipole end.
(** a list of calls, in order *)
Definition run {K : Type} (apply : expansion -> K -> option expansion) (e : expansion) (l : list K) : option expansion :=
  fold_left (fun o k => bind o (fun e => apply e k)) l (Some e).
(** same order, center, flag and coefficients *)
Definition same (e e' : expansion) : Prop :=
  e_p e = e_p e' /\ e_center e = e_center e' /\ e_zero e = e_zero e' /\ forall i, e_coeffs e i = e_coeffs e' i.
Definition same_result (o o' : option expansion) : Prop :=
  match o, o' with None, None => True | Some e, Some e' => same e e' | _, _ => False end.
(** the coefficients one call leaves in an empty expansion *)
Definition alone {K : Type} (apply : expansion -> K -> option expansion) (p : nat) (c : pt) (k : K) (n m : nat) : C :=
  match apply (fresh p c) k with Some e => coeff e n m | None => RtoC 0 end.
Fixpoint total {K : Type} (l : list K) (f : K -> C) : C := match l with [] => RtoC 0 | k :: r => Cplus (f k) (total r f) end.
(** expansions that can be obtained by histories: multipoles from the sized constructor and the calls above,
    where every other expansion is itself obtained that way *)
Inductive m_reachable : expansion -> Prop :=
| m_new p c : m_reachable (fresh p c)
| m_charge e q x e' : m_reachable e -> m_add_charge e q x = Some e' -> m_reachable e'
| m_dipole e q x v e' : m_reachable e -> m_add_normder e q x v = Some e' -> m_reachable e'
| m_scaled e other sol e' : m_reachable e -> m_reachable other -> m_add_scaled e other sol = Some e' -> m_reachable e'
| m_moved e other e' : m_reachable e -> m_reachable other -> m_translate e other = Some e' -> m_reachable e'.
Inductive l_reachable : expansion -> Prop :=
| l_new p c : l_reachable (fresh p c)
| l_moved e other e' : l_reachable e -> l_reachable other -> l_translate e other = Some e' -> l_reachable e'
| l_converted e multipole e' : l_reachable e -> m_reachable multipole -> l_convert e multipole = Some e' -> l_reachable e'.
(** every coefficient of the expansion is zero *)
Definition all_zero (e : expansion) : Prop := forall n m, (m <= n <= e_p e)%nat -> coeff e n m = RtoC 0.
