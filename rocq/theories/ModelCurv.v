(** * The curvature criterion of refine_and_resize (source/computational_domain.cc 744-853).

    Simplifications: real arithmetic; cell->center() is the mean of the four vertices (deal.II contract for the default
    arguments); the two principal curvatures of the CAD surface at the projected centre are inputs.  A vector divided by a
    norm that is zero is None (NaN in the code); a size that is infinite in IEEE arithmetic (positive number divided by
    zero) is None. *)
From Coq Require Import Reals List Bool.
From Verif Require Import ModelDriver.
Import ListNotations.
Local Open Scope R_scope.

Definition v3 : Type := (R * R * R)%type.
Definition vx (a : v3) : R := fst (fst a).
Definition vy (a : v3) : R := snd (fst a).
Definition vz (a : v3) : R := snd a.
Definition vadd (a b : v3) : v3 := (vx a + vx b, vy a + vy b, vz a + vz b).
Definition vscal (s : R) (a : v3) : v3 := (s * vx a, s * vy a, s * vz a).
Definition vdot (a b : v3) : R := vx a * vx b + vy a * vy b + vz a * vz b.
Definition vnorm (a : v3) : R := sqrt (vdot a a).
(** nn /= nn.norm() *)
Definition normalise (a : v3) : option v3 := if Req_EM_T (vnorm a) 0 then None else Some (vscal (/ vnorm a) a).

Record quad := { q0 : v3; q1 : v3; q2 : v3; q3 : v3 }.              (* cell->vertex(0..3) *)
Definition center (c : quad) : v3 := vscal (/ 4) (vadd (vadd (q0 c) (q1 c)) (vadd (q2 c) (q3 c))).
(** t_k = vertex(k) + (-1.0) * center() (757-760) *)
Definition arm (c : quad) (v : v3) : v3 := vadd v (vscal (-1) (center c)).
(** (a(1) b(2) - a(2) b(1), a(2) b(0) - a(0) b(2), a(0) b(1) - a(1) b(0)) (766-780) *)
Definition cross (a b : v3) : v3 := (vy a * vz b - vz a * vy b, vz a * vx b - vx a * vz b, vx a * vy b - vy a * vx b).
(** the normal n along which the centre is projected (766-783) *)
Definition cell_normal (c : quad) : option v3 :=
  let t0 := arm c (q0 c) in let t1 := arm c (q1 c) in let t2 := arm c (q2 c) in let t3 := arm c (q3 c) in
  match normalise (cross t0 t1), normalise (cross t1 t3), normalise (cross t3 t2), normalise (cross t2 t0) with
  | Some n0, Some n1, Some n2, Some n3 => normalise (vscal (/ 4) (vadd (vadd (vadd n0 n1) n2) n3))
  | _, _, _, _ => None
  end.

(** x / d for x > 0, d >= 0 *)
Definition pdiv (x d : R) : option R := if Req_EM_T d 0 then None else Some (x / d).
(** cell_size (796-837): the shape is that of ModelDriver.choose_shape; k1, k2 the curvatures found on it *)
Definition target_size (has_shape : bool) (k1 k2 tol cpc : R) : option R :=
  if has_shape then
    match pdiv 1 (Rmax (Rmax (Rabs k1) (Rabs k2)) tol), pdiv (2 * PI) cpc with
    | Some radius, Some a => Some (a * radius)
    | _, _ => None
    end
  else match pdiv (2 * PI) cpc with Some a => pdiv a tol | None => None end.
Definition exceeds (d : R) (size : option R) : bool :=
  match size with Some s => if Rlt_dec s d then true else false | None => false end.
Record ccell := { cc_diam : R; cc_shape : bool; cc_k1 : R; cc_k2 : R }.
(** set_refine_flag (849-854) *)
Definition curvature_flag (tol cpc : R) (c : ccell) : option unit :=
  if exceeds (cc_diam c) (target_size (cc_shape c) (cc_k1 c) (cc_k2 c) tol cpc) && (if Rlt_dec (10 * tol) (cc_diam c) then true else false)
  then Some tt else None.
