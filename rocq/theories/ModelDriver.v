(** * The driver loop, the mesh regularisation loops and the CAD manifold table.

    Models Driver::run (source/driver.cc 76-127), the parts of
    ComputationalDomain::refine_and_resize (source/computational_domain.cc 555-888) that decide what
    is refined and how often, and the assignment of manifold ids.

    Meshes are an abstract type: deal.II's refinement is any function. *)
From Coq Require Import QArith ZArith List Arith Bool.
Import ListNotations.
Local Open Scope nat_scope.

(** unsigned int *)
Definition u32 (z : Z) : Z := (z mod 2 ^ 32)%Z.

(** ** Driver::run *)
Section Driver.
  Variables M Sol : Type.                     (* meshes, solutions (phi and dphi_dn) *)
  Variable read_domain : M.                   (* computational_domain.cc 241-269 *)
  Variable refine_and_resize : Z -> M -> M.   (* 555-888 *)
  Variable update_triangulation : M -> M.     (* 928-965 *)
  Variable solve : M -> Sol.                    (* solve_problem on the mesh bem_problem was set up for *)
  Variable adapt : M -> Sol -> M.               (* adaptive_refinement(phi), bem_problem.cc 3020-3036 *)

  (** what the calls of run() do to the mesh, to the BEM data structures and to the solution.
      [d_bem] = mesh for which bem_problem.reinit() built its structures. *)
  Record dst := { d_mesh : M; d_bem : option M; d_phi : option Sol; d_log : list (M * option M * option Sol) }.

  (** bem_problem.reinit(), then boundary_conditions.solve_problem() (driver.cc 104-106): logs the
      mesh, the mesh of the structures, and the solution *)
  Definition reinit (s : dst) : dst := {| d_mesh := d_mesh s; d_bem := Some (d_mesh s); d_phi := d_phi s; d_log := d_log s |}.
  Definition solve_problem (s : dst) : dst :=
    let phi := option_map solve (d_bem s) in
    {| d_mesh := d_mesh s; d_bem := d_bem s; d_phi := phi; d_log := d_log s ++ [(d_mesh s, d_bem s, phi)] |}.
  (** adaptive_refinement(get_phi()), update_triangulation() (driver.cc 108-113) *)
  Definition adaptive_refinement (s : dst) : dst :=
    {| d_mesh := match d_phi s with Some phi => adapt (d_mesh s) phi | None => d_mesh s end;
       d_bem := d_bem s; d_phi := d_phi s; d_log := d_log s |}.
  Definition update (s : dst) : dst :=
    {| d_mesh := update_triangulation (d_mesh s); d_bem := d_bem s; d_phi := d_phi s; d_log := d_log s |}.

  (** the loop of driver.cc 101-114 with its 32-bit counter; None = still running after [fuel] passes *)
  Fixpoint loop (global : bool) (cycles : Z) (fuel : nat) (i : Z) (s : dst) : option dst :=
    match fuel with
    | O => None
    | S f =>
        if (i <=? cycles)%Z then
          let s1 := solve_problem (reinit s) in
          let s2 := if negb global && (i <? cycles)%Z then update (adaptive_refinement s1) else s1 in
          loop global cycles f (u32 (i + 1)) s2
        else Some s
    end.

  (** run() up to compute_errors/output_results, which read the final state (driver.cc 78-119).
      [n_cycles] and [pre] are the integers of the parameter file, stored in unsigned ints
      (computational_domain.cc 138, 145; the patterns accept negative integers). *)
  Definition run (global : bool) (n_cycles pre : Z) (fuel : nat) : option dst :=
    let m0 := refine_and_resize (if global then u32 n_cycles else u32 pre) read_domain in
    let s0 := update {| d_mesh := m0; d_bem := None; d_phi := None; d_log := [] |} in
    loop global (if global then 0%Z else u32 n_cycles) fuel 0%Z s0.
End Driver.

(** ** CAD files and manifold ids (computational_domain.cc 561-654) *)

(** the scans "while (go_on)": files are numbered from 1, the scan stops at the first missing one *)
Fixpoint scan (exists_file : nat -> bool) (fuel ii : nat) : nat :=
  match fuel with
  | O => 0
  | S f => if exists_file ii then S (scan exists_file f (S ii)) else 0
  end.

(** what is attached to a manifold id *)
Inductive projector := Surface (i : nat) | Curve (i : nat).
(** tria.set_manifold(id, projector) overwrites *)
Definition set_manifold (id : nat) (p : projector) (t : nat -> option projector) : nat -> option projector :=
  fun j => if Nat.eqb j id then Some p else t j.
(** the two loops 644-653 *)
Definition set_manifolds (ns nc : nat) (t : nat -> option projector) : nat -> option projector :=
  let t1 := fold_left (fun t i => set_manifold (1 + i) (Surface i) t) (seq 0 ns) t in
  fold_left (fun t i => set_manifold (11 + i) (Curve i) t) (seq 0 nc) t1.
(** a second call of refine_and_resize appends all shapes again (cad_surfaces and cad_curves are
    never cleared): after [calls] calls the vectors hold [calls * n] shapes, the projector with
    index i belonging to file i mod n *)
Definition manifolds_after (calls ns nc : nat) : nat -> option projector :=
  fold_left (fun t k => set_manifolds (k * ns) (k * nc) t) (seq 1 calls) (fun _ => None).

(** ** Which shape a cell is measured against in the curvature loop (computational_domain.cc
    795-800): int(material_id) - 1 < (int) cad_surfaces.size(), then cad_surfaces[int(material_id)-1] *)
Inductive shape_choice := Use (i : nat) | NoShape | OutOfBounds.
Definition to_int (u : Z) : Z := if (u <? 2 ^ 31)%Z then u else (u - 2 ^ 32)%Z.
Definition choose_shape (material_id : Z) (n_surfaces : nat) : shape_choice :=
  let i := (to_int material_id - 1)%Z in
  if (i <? Z.of_nat n_surfaces)%Z then
    (if (0 <=? i)%Z then Use (Z.to_nat i) else OutOfBounds)
  else NoShape.

(** ** Which cells the aspect-ratio loop cuts, and how (computational_domain.cc 673-692): extents in
    the two directions of the cell; Some axis = set_refine_flag(cut_axis(axis)) *)
Definition aspect_flag (ratio : Q) (e : Q * Q) : option nat :=
  let '(e0, e1) := e in
  let lt01 := negb (Qle_bool e1 e0) in                 (* extent(0) < extent(1) *)
  let mx := if lt01 then e1 else e0 in
  let mn := if lt01 then e0 else e1 in
  if negb (Qle_bool mx (ratio * mn)) then Some (if lt01 then 1 else 0) else None.

(** ** Refinement loops *)
Section Loops.
  Variable M C F : Type.                            (* meshes, active cells, refinement flags *)
  Variable cells : M -> list C.
  Variable flag : C -> option F.                    (* flag the loop body sets on a cell *)
  Variable execute : M -> list (C * F) -> M.        (* execute_coarsening_and_refinement *)
  Variable conform : M -> M.                        (* make_edges_conformal *)

  Definition flagged (m : M) : list (C * F) :=
    flat_map (fun c => match flag c with Some f => [(c, f)] | None => [] end) (cells m).

  (** while (refinedCellCounter && cycles_counter < bound) { ... } (computational_domain.cc 661-711
      with bound = 10; 733-872 with bound = max_curvature_ref_cycles).  Returns the mesh, the cycle
      counter and the final refinedCellCounter. *)
  Fixpoint ref_loop (left : nat) (refined cyc : nat) (m : M) : M * nat * nat :=
    match left with
    | O => (m, cyc, refined)
    | S l => match refined with
             | O => (m, cyc, refined)
             | _ => let fl := flagged m in
                    ref_loop l (length fl) (S cyc) (conform (execute m fl))
             end
    end.
  Definition refinement_loop (bound : nat) (m : M) : M * nat * nat := ref_loop bound 1 0 m.
End Loops.
