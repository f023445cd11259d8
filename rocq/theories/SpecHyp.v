(** * Vocabulary for the free coefficients of the hypersingular equation (C62, C63). *)
From Coq Require Import Reals List Arith.
From Verif Require Import LibSum ModelHyp.
Import ListNotations.
Local Open Scope R_scope.

Definition unit_vec (a : v3) : Prop := dot a a = 1.
(** consecutive pairs of a list, and of a closed list *)
Fixpoint pairs (l : list v3) : list (v3 * v3) := match l with a :: ((b :: _) as r) => (a, b) :: pairs r | _ => [] end.
Definition edges (l : list v3) : list (v3 * v3) := match l with [] => [] | a :: r => pairs (a :: r ++ [a]) end.
(** contribution of the edge between two faces with unit normals a, b: angle, and matrix entry *)
Definition edge_angle (e : v3 * v3) : R := acos (dot (fst e) (snd e)).
Definition edge_matrix (i j : nat) (e : v3 * v3) : R :=
  let '(a, b) := e in
  (dot a b * (comp a i * comp a j + comp b i * comp b j) - (comp a i * comp b j + comp b i * comp a j)) / nrm (cross a b).
(** the coefficients of a corner whose faces, in cyclic order, have the normals l *)
Definition corner_alpha (l : list v3) : R := 1 / 2 - suml (edges l) edge_angle / (4 * PI).
Definition corner_C (l : list v3) (i j : nat) : R := (if Nat.eqb i j then corner_alpha l else 0) - suml (edges l) (edge_matrix i j) / (4 * PI).
Definition skew (e : v3 * v3) : Prop := cross (fst e) (snd e) <> V 0 0 0.

(** right-handed orthonormal frame; direction of angle t in the plane of e1, e2 *)
Definition frame (e1 e2 e3 : v3) : Prop := unit_vec e1 /\ unit_vec e2 /\ dot e1 e2 = 0 /\ cross e1 e2 = e3.
Definition dir (e1 e2 : v3) (t : R) : v3 := vadd (smul (cos t) e1) (smul (sin t) e2).
(** angle of the normal u around e3 *)
Definition azimuth (e1 e2 e3 u : v3) (t : R) : Prop := exists r, 0 < r /\ project e3 u = smul r (dir e1 e2 t).
(** angles increase by less than a half turn from one entry to the next, starting from t *)
Fixpoint steps (t : R) (l : list (v3 * R)) : Prop := match l with [] => True | x :: r => 0 < snd x - t < PI /\ steps (snd x) r end.
(** the normals of a corner listed counterclockwise around e3, with their angles *)
Definition counterclockwise (e1 e2 e3 : v3) (L : list (v3 * R)) : Prop :=
  (forall x, In x L -> azimuth e1 e2 e3 (fst x) (snd x)) /\
  match L with [] => False | x :: r => steps (snd x) r /\ 0 < snd x + 2 * PI - snd (last r x) < PI end.
