(** * The class OctreeBlock as a mutable record.

    Models source/octree_block.cc 1-353 and include/octree_block.h 74-190, one operation per
    public member function.

    Simplifications: level, ids and counts are unbounded naturals; pMin and delta are carried as one
    opaque value (a pair of rationals' points would add nothing: no member computes with them);
    std::set<id> is a strictly increasing list (its iteration order); std::map<cell, vector> is a
    function from cells to optional vectors (its keys are the cells with [Some _]). *)
From Coq Require Import List Arith.
From Verif Require Import ModelOctree.
Import ListNotations.

(** private data, octree_block.h 78-104.  [k_kid i] is childrenId[i]; None = never written. *)
Record blk := mkblk {
  k_level : nat; k_parent : nat; k_num : nat; k_kid : nat -> option nat;
  k_near : list (list nat); k_int : list (list nat); k_non : list (list nat);
  k_pmin : pt; k_delta : QArith_base.Q;
  k_nodes : list nat; k_quads : nat -> option (list nat) }.

(** OctreeBlock(level, parent, pMin, delta), octree_block.cc 19-34 (the default constructor 3-16 is
    the same with zeros) *)
Definition new_block (level parent : nat) (p : pt) (d : QArith_base.Q) : blk :=
  mkblk level parent 0 (fun _ => None) [[]] [[]] [[]] p d [] (fun _ => None).

(** std::set::insert *)
Fixpoint set_insert (x : nat) (l : list nat) : list nat :=
  match l with
  | [] => [x]
  | y :: r => if Nat.ltb x y then x :: l else if Nat.eqb x y then l else y :: set_insert x r
  end.
(** vector::resize: drops the tail or appends empty sets *)
Definition resize (n : nat) (v : list (list nat)) : list (list nat) :=
  firstn n v ++ repeat [] (n - length v).
(** v.at(s).insert(x): throws out_of_range (None) when s >= v.size() *)
Fixpoint at_insert (s x : nat) (v : list (list nat)) : option (list (list nat)) :=
  match v, s with
  | [], _ => None
  | l :: r, 0 => Some (set_insert x l :: r)
  | l :: r, S s' => option_map (cons l) (at_insert s' x r)
  end.

(** the mutating members *)
Inductive op :=
| AddNode (n : nat) | DelNodeList | AddQuadPoint (c q : nat) | DelQuadPointsList
| AddChild (x : nat)
| AddNearNeigh (s x : nat) | AddBlockToIntList (s x : nat) | AddBlockToNonIntList (s x : nat)
| SetNearNeighSize (n : nat) | SetIntListSize (n : nat) | SetNonIntListSize (n : nat)
| CopyContent (other : blk).

(** what a call can do besides returning: throw std::out_of_range, or write outside an array *)
Inductive res := Ok (b : blk) | OutOfRange | Undefined.

Definition set_near b v := mkblk (k_level b) (k_parent b) (k_num b) (k_kid b) v (k_int b) (k_non b) (k_pmin b) (k_delta b) (k_nodes b) (k_quads b).
Definition set_int b v := mkblk (k_level b) (k_parent b) (k_num b) (k_kid b) (k_near b) v (k_non b) (k_pmin b) (k_delta b) (k_nodes b) (k_quads b).
Definition set_non b v := mkblk (k_level b) (k_parent b) (k_num b) (k_kid b) (k_near b) (k_int b) v (k_pmin b) (k_delta b) (k_nodes b) (k_quads b).
Definition set_nodes b v := mkblk (k_level b) (k_parent b) (k_num b) (k_kid b) (k_near b) (k_int b) (k_non b) (k_pmin b) (k_delta b) v (k_quads b).
Definition set_quads b v := mkblk (k_level b) (k_parent b) (k_num b) (k_kid b) (k_near b) (k_int b) (k_non b) (k_pmin b) (k_delta b) (k_nodes b) v.

Definition lift (f : list (list nat) -> blk) (o : option (list (list nat))) : res :=
  match o with Some v => Ok (f v) | None => OutOfRange end.

(** childrenId[i] = other->childrenId[i] for i < n (octree_block.cc 49-50, 80-81) *)
Fixpoint copy_kids (n : nat) (from to : nat -> option nat) : nat -> option nat :=
  match n with 0 => to | S m => fun i => if Nat.eqb i m then from m else copy_kids m from to i end.

(** the copy constructor, octree_block.cc 37-54 *)
Definition copy_block (o : blk) : blk :=
  mkblk (k_level o) (k_parent o) (k_num o) (copy_kids (k_num o) (k_kid o) (fun _ => None))
    (k_near o) (k_int o) (k_non o) (k_pmin o) (k_delta o) ([] ++ k_nodes o) (k_quads o).

Definition step (b : blk) (o : op) : res :=
  match o with
  | AddNode n => Ok (set_nodes b (k_nodes b ++ [n]))                                  (* 87-92 *)
  | DelNodeList => Ok (set_nodes b [])                                                (* 112-117 *)
  | AddQuadPoint c q =>                                                               (* 95-101 *)
      Ok (set_quads b (fun c' => if Nat.eqb c' c
                                 then Some (match k_quads b c with Some l => l | None => [] end ++ [q])
                                 else k_quads b c'))
  | DelQuadPointsList => Ok (set_quads b (fun _ => None))                             (* 129-134 *)
  | AddChild x =>                                                                     (* 161-167 *)
      if Nat.ltb (k_num b) 8 then
        Ok (mkblk (k_level b) (k_parent b) (S (k_num b))
              (fun i => if Nat.eqb i (k_num b) then Some x else k_kid b i)
              (k_near b) (k_int b) (k_non b) (k_pmin b) (k_delta b) (k_nodes b) (k_quads b))
      else Undefined
  | AddNearNeigh s x => lift (set_near b) (at_insert s x (k_near b))                  (* 194-200 *)
  | AddBlockToIntList s x => lift (set_int b) (at_insert s x (k_int b))               (* 227-234 *)
  | AddBlockToNonIntList s x => lift (set_non b) (at_insert s x (k_non b))            (* 269-276 *)
  | SetNearNeighSize n => Ok (set_near b (resize n (k_near b)))                       (* 303-308 *)
  | SetIntListSize n => Ok (set_int b (resize n (k_int b)))                           (* 311-316 *)
  | SetNonIntListSize n => Ok (set_non b (resize n (k_non b)))                        (* 319-324 *)
  | CopyContent o =>                                                                  (* 67-85 *)
      Ok (mkblk (k_level o) (k_parent o) (k_num o) (copy_kids (k_num o) (k_kid o) (k_kid b))
            (k_near o) (k_int o) (k_non o) (k_pmin o) (k_delta o) (k_nodes b ++ k_nodes o) (k_quads o))
  end.

Fixpoint run (b : blk) (h : list op) : res :=
  match h with
  | [] => Ok b
  | o :: r => match step b o with Ok b' => run b' r | e => e end
  end.

(** the const members, octree_block.cc 103-349; None = exception or read outside the array *)
Definition GetBlockNodeList (b : blk) := k_nodes b.
Definition GetBlockNodesNum (b : blk) := length (k_nodes b).
Definition GetBlockQuadPointsList (b : blk) := k_quads b.
Definition GetBlockChildrenNum (b : blk) := k_num b.
Definition GetParentId (b : blk) := k_parent b.
Definition GetChildId (b : blk) (i : nat) := if Nat.ltb i 8 then k_kid b i else None.
Definition GetPMin (b : blk) := k_pmin b.
Definition GetDelta (b : blk) := k_delta b.
Definition GetNearNeighs (b : blk) (s : nat) := nth_error (k_near b) s.
Definition GetIntList (b : blk) (s : nat) := nth_error (k_int b) s.
Definition GetNonIntList (b : blk) (s : nat) := nth_error (k_non b) s.
Definition GetNearNeighSize (b : blk) := length (k_near b).
Definition GetIntListSize (b : blk) := length (k_int b).
Definition GetNonIntListSize (b : blk) := length (k_non b).
Definition NumNearNeigh (b : blk) (s : nat) := option_map (@length nat) (GetNearNeighs b s).
Definition NumIntList (b : blk) (s : nat) := option_map (@length nat) (GetIntList b s).
Definition NumNonIntList (b : blk) (s : nat) := option_map (@length nat) (GetNonIntList b s).
