(** * The driver loop with everything that survives from one refinement cycle to the next.

    ModelDriver takes the answer of a cycle to be a function of its mesh.  Here the cycle also sees what earlier cycles
    left behind: map_vector and mapping (ModelGeom, bem_problem.cc 189-222), the static vector of ones of compute_alpha
    (ModelBc, bem_problem.cc 1557-1569), the static singular quadratures (ModelBc, bem_problem.cc 421-456) and the map
    dof_to_elems of BEMFMA, which generate_octree_blocking extends and never clears (ModelRegen, bem_fma.cc 3989-3993).
    All other members are reset or rebuilt by reinit, assemble_system and solve_problem before they are read
    (bem_problem.cc 160-188, 224-393, 578, 759-760, 1710-1712, 1882; boundary_conditions.cc 165-176, 225-226), except the second
    free term b, which only the hypersingular gradients read (C63).

    Simplifications: meshes are an abstract type; [answer] is what a cycle computes from its mesh and from the
    surviving data it reads; the parameters do not change during a run. *)
From Coq Require Import Reals ZArith List Bool Arith.
From Verif Require Import LibSum ModelBem ModelBc ModelGeom ModelDriver.
Import ListNotations.
Local Open Scope nat_scope.

Section History.
  Variables (Layout FE Quad M A : Type).
  Variables (dim : nat) (g : geo_params) (fe : FE) (order : nat).     (* parameters of the run *)
  Variable mk : FE -> nat -> list Quad.                                (* the singular quadratures of an element and an order *)
  Variables (geo : M -> geo_mesh) (ndofs : M -> nat) (layout : M -> Layout).
  Variable fast : bool.                                                (* solution_method = FMA *)
  Variable entries : M -> nat -> list nat.                             (* what one call of generate_octree_blocking appends to dof_to_elems *)
  Variable answer : M -> geo_state -> list Quad -> option (@ones_cache Layout) -> (nat -> list nat) -> A.

  (** the surviving data *)
  Record hstate := { h_geo : geo_state; h_quads : list Quad; h_ones : option (@ones_cache Layout); h_elems : nat -> list nat }.
  (** a new process *)
  Definition h_start : hstate := {| h_geo := geo_start; h_quads := []; h_ones := None; h_elems := fun _ => [] |}.
  (** bem_problem.reinit() and solve_problem() on a mesh (driver.cc 102-107): reinit (bem_problem.cc 153-419); then
      assemble_system, which asks for the quadratures (1121), or generate_octree_blocking (1841-1855; the fast method
      builds its singular quadratures anew, bem_fma.cc 151-155); then compute_alpha (1716).  None: undefined behaviour *)
  Definition h_cycle (m : M) (s : hstate) : option (hstate * A) :=
    match geo_reinit dim g (geo m) (h_geo s) with
    | None => None
    | Some gs =>
        let q := if fast then h_quads s else quad_call mk (h_quads s) (fe, order) in
        let o := ones_call (h_ones s) (ndofs m, layout m) in
        let e := if fast then (fun d => h_elems s d ++ entries m d) else h_elems s in
        Some ({| h_geo := gs; h_quads := q; h_ones := o; h_elems := e |}, answer m gs q o e)
    end.
  (** the same two calls in a process that has done nothing before *)
  Definition h_fresh (m : M) : option A := option_map snd (h_cycle m h_start).

  Variables (read_domain : M) (refine_and_resize : Z -> M -> M) (update_triangulation : M -> M) (adapt : M -> A -> M).
  Record hdst := { hd_mesh : M; hd_state : hstate; hd_log : list (M * A) }.
  Inductive outcome := Running | Undefined | Done (s : hdst).
  (** the loop of driver.cc 101-114 *)
  Fixpoint h_loop (global : bool) (cycles : Z) (fuel : nat) (i : Z) (s : hdst) : outcome :=
    match fuel with
    | O => Running
    | S f =>
        if (i <=? cycles)%Z then
          match h_cycle (hd_mesh s) (hd_state s) with
          | None => Undefined
          | Some (s1, a) =>
              h_loop global cycles f (u32 (i + 1))
                {| hd_mesh := if negb global && (i <? cycles)%Z then update_triangulation (adapt (hd_mesh s) a) else hd_mesh s;
                   hd_state := s1; hd_log := hd_log s ++ [(hd_mesh s, a)] |}
          end
        else Done s
    end.
  (** Driver::run (driver.cc 78-114) *)
  Definition h_run (global : bool) (n_cycles pre : Z) (fuel : nat) : outcome :=
    let m0 := refine_and_resize (if global then u32 n_cycles else u32 pre) read_domain in
    h_loop global (if global then 0%Z else u32 n_cycles) fuel 0%Z {| hd_mesh := update_triangulation m0; hd_state := h_start; hd_log := [] |}.
End History.
