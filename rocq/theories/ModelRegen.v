(** * Repeated octree generation: what survives from one call to the next.

    generate_octree_blocking (source/bem_fma.cc 3850-5208) deletes the old blocks (3884-3888) and
    clears or overwrites every list it builds (3900-3951) except dof_to_elems, to which it appends
    (3989-3993).  Cells are identified by their number in the mesh of the last call; how cells of
    an earlier mesh are renumbered by refinement is a parameter of the history. *)
From Coq Require Import List Arith.
From Verif Require Import ModelOctree.
Import ListNotations.

Definition with_old (I : oin) (old : nat -> list nat) : oin :=
  {| o_N := o_N I; o_max := o_max I; o_nd := o_nd I; o_pos := o_pos I; o_nc := o_nc I; o_nqc := o_nqc I;
     o_qpos := o_qpos I; o_dbl := o_dbl I; o_cdofs := o_cdofs I; o_rnd := o_rnd I; o_old := old |}.

(** pushes of one call (bem_fma.cc 3989-3993) *)
Definition pushes (I : oin) (d : nat) : list nat :=
  flat_map (fun c => map (fun _ => c) (filter (Nat.eqb d) (o_cdofs I c))) (seq 0 (o_nc I)).

(** dof_to_elems after the calls of a history; each call comes with the map that tells which cell
    of the last mesh (if any) a cell of its own mesh is *)
Fixpoint dof_to_elems (h : list (oin * (nat -> nat))) (d : nat) : list nat :=
  match h with
  | [] => []
  | (J, ren) :: r => map ren (pushes J d) ++ dof_to_elems r d
  end.

(** the call on mesh I after the calls h *)
Definition call_after (h : list (oin * (nat -> nat))) (I : oin) : oin := with_old I (dof_to_elems h).
