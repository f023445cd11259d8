(** * The geometry of the calls of BEMProblem::reinit (source/bem_problem.cc 189-222; bem_problem.h 316-317).

    map_vector and mapping are members that survive from one call to the next; the driver calls reinit once per
    refinement cycle (driver.cc 102-115).  MappingFEField keeps a pointer to map_vector, so the mapping always sees
    its current values; MappingQ of a degree reads the triangulation and its manifolds.

    Simplifications: Vector is a size and a function; the position vector of a mesh (VectorTools::get_position_vector)
    and vector_constraints are inputs. *)
From Coq Require Import Reals List Bool Arith.
From Verif Require Import LibSum ModelBem ModelBc.
Import ListNotations.
Local Open Scope R_scope.

(** "Mapping Type", "Mapping Q Degree", "Use a spheroid" and the axes (bem_problem.cc 556-557, computational_domain.cc
    152-155); used_spherical_manifold (computational_domain.cc 266-276) *)
Record geo_params := { gp_fe : bool; gp_degree : nat; gp_spheroid : bool; gp_spherical : bool; gp_x : R; gp_y : R; gp_z : R }.
(** one mesh: gradient_dh.n_dofs() / dim, vec_original_to_sub_wise, the position vector, vector_constraints *)
Record geo_mesh := { gm_m : nat; gm_perm : nat -> nat; gm_pos : vec; gm_con : nat -> list (nat * R) }.
Inductive mapping_kind := MapFEField | MapQ (degree : nat).
Record geo_state := { gs_size : nat; gs_map : vec; gs_mapping : option mapping_kind }.
(** a BEMProblem before the first reinit *)
Definition geo_start : geo_state := {| gs_size := 0; gs_map := fun _ => 0; gs_mapping := None |}.

(** vector_constraints.distribute(map_vector) (196) *)
Definition geo_distribute (con : nat -> list (nat * R)) (v : vec) : vec := fun k => suml (con k) (fun ew => snd ew * v (fst ew)).
(** 190-222; None: map_vector[...] outside the vector (201-215) *)
Definition geo_reinit (dim : nat) (g : geo_params) (m : geo_mesh) (s : geo_state) : option geo_state :=
  let size := if gp_fe g then (dim * gm_m m)%nat else gs_size s in
  let v := if gp_fe g then geo_distribute (gm_con m) (gm_pos m) else gs_map s in
  match gs_mapping s with
  | Some k => Some {| gs_size := size; gs_map := v; gs_mapping := Some k |}
  | None =>
      let kind := if gp_fe g then MapFEField else MapQ (gp_degree g) in
      if gp_spheroid g && gp_spherical g then
        if forallb (fun ii => Nat.ltb (gm_perm m ii) size && Nat.ltb (gm_perm m (ii + gm_m m)%nat) size) (seq 0 (gm_m m))
        then Some {| gs_size := size; gs_map := stretch dim (gm_m m) (gm_perm m) (gp_x g) (gp_y g) (gp_z g) v; gs_mapping := Some kind |}
        else None
      else Some {| gs_size := size; gs_map := v; gs_mapping := Some kind |}
  end.
(** the calls of a run, one per mesh, with the parameters current at each call *)
Fixpoint geo_run (dim : nat) (calls : list (geo_params * geo_mesh)) (s : geo_state) : option geo_state :=
  match calls with
  | [] => Some s
  | (g, m) :: rest => match geo_reinit dim g m s with Some s' => geo_run dim rest s' | None => None end
  end.
