(** * Model of include/true_constrained_matrix.h (class template ConstrainedOperator, lines 46-206), on one process:
    the owned index set is everything and [constr_cpu_set] too.  The header has the include guard of
    constrained_matrix.h and no file of the repository includes it.

    Not modelled: several processes ([loc_dst] would live on overlapping index sets, and what [dst.add(loc_dst, true)] does
    with entries held by several processes is up to Epetra); the text printed; rounding (exact reals). *)
From Coq Require Import Reals List Lia.
From Verif Require Import LibSum.
Import ListNotations.
Local Open Scope R_scope.

Definition tvec := nat -> R.
(** AffineConstraints: a constrained dof has entries (column, weight) and an inhomogeneity *)
Definition tcons := nat -> option (list (nat * R) * R).
Definition upd (f : tvec) (i : nat) (v : R) : tvec := fun j => if Nat.eqb j i then v else f j.

Section TrueCon.
  Variable n : nat.
  Variable c : tcons.
  Variable M : tvec -> tvec.          (* matrix.vmult(dst, src), which overwrites dst *)

  (** constraint_vmult (113-138): the entries of [dst] for i < dst.size() *)
  Definition constraint_vmult (src : tvec) : tvec := fun i =>
    match c i with
    | Some (es, _) => fold_left (fun d e => d + src (fst e) * snd e) es 0
    | None => src i
    end.
  (** one turn of the loop of constraint_tvmult (146-163) *)
  Definition tv_step (src : tvec) (loc : tvec) (i : nat) : tvec :=
    match c i with
    | Some (es, _) => fold_left (fun l e => upd l (fst e) (l (fst e) + src i * snd e)) es (upd loc i 0)
    | None => upd loc i (src i)
    end.
  (** constraint_tvmult (141-167): [VEC loc_dst(constr_cpu_set)] is zero, [dst.add(loc_dst, true)] *)
  Definition constraint_tvmult (dst src : tvec) : tvec := fun j =>
    dst j + fold_left (tv_step src) (seq 0 n) (fun _ => 0) j.
  (** vmult (189-199) *)
  Definition vmult (dst src : tvec) : tvec := constraint_tvmult dst (M (constraint_vmult src)).
  (** cm.get_inhomogeneity(i) *)
  Definition inhomogeneity (i : nat) : R := match c i with Some (_, g) => g | None => 0 end.
  (** distribute_rhs (171-187) *)
  Definition distribute_rhs (rhs : tvec) : tvec :=
    let rhs_tmp := M (fun i => - inhomogeneity i) in
    constraint_tvmult (fun _ => 0) (fun i => rhs i + rhs_tmp i).
  (** finalise (201-206): AffineConstraints::distribute on a closed constraint set (the entries are unconstrained) *)
  Definition finalise (u : tvec) : tvec := fun i =>
    match c i with
    | Some (es, g) => suml es (fun e => snd e * u (fst e)) + g
    | None => u i
    end.
End TrueCon.
