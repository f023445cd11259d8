(** * Vocabulary of C88: what the cycles of a run should compute. *)
From Coq Require Import Reals ZArith List Bool Arith.
From Verif Require Import LibSum ModelBem ModelBc ModelGeom ModelDriver ModelHistory.
Import ListNotations.
Local Open Scope nat_scope.

(** the parameters without the spheroid *)
Definition plain (g : geo_params) : geo_params :=
  {| gp_fe := gp_fe g; gp_degree := gp_degree g; gp_spheroid := false; gp_spherical := gp_spherical g; gp_x := gp_x g; gp_y := gp_y g; gp_z := gp_z g |}.

(** A log (mesh and answer of each solve) of [S c] solves starting on mesh [start]: the answer of solve [k] is the one
    [expected] of solve [k] on its mesh after the solves before it, and the next mesh is obtained from this one with this answer. *)
Definition good_log {M A : Type} (start : M) (next : M -> A -> M) (expected : nat -> list (M * A) -> M -> option A) (c : nat) (log : list (M * A)) : Prop :=
  length log = S c /\
  (forall m a, nth_error log 0 = Some (m, a) -> m = start) /\
  (forall k m a, nth_error log k = Some (m, a) -> expected k (firstn k log) m = Some a) /\
  (forall k m a m' a', nth_error log k = Some (m, a) -> nth_error log (S k) = Some (m', a') -> m' = next m a).
