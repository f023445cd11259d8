(** BoundaryConditions: boundary data vectors and the pure-Neumann shift; function-static caches;
    renumbering tables; spheroid stretching. *)
From Coq Require Import Reals List Bool Arith Lia.
From Verif Require Import LibSum ModelBem.
Import ListNotations.
Local Open Scope R_scope.

(** What prepare_bem_vectors reads: potential at support points, wind at support points, nodal
    normals already read through the renumbering tables (see [vec_index] below). *)
Record bdata := {
  d_dirichlet : list nat;            (* dirichlet_boundary_ids *)
  d_neumann : list nat;              (* neumann_boundary_ids *)
  d_pot : nat -> R;                  (* potential.value(support_points[i]) *)
  d_wind : nat -> nat -> R;          (* wind at support_points[i], component d *)
  d_normal : nat -> nat -> R;        (* vector_normals_solution[vec_index(d, i)] *)
  d_dim : nat
}.

Record bvecs := { v_phi : vec; v_dphi : vec; v_rhs : vec }.

(** source/boundary_conditions.cc:293-322: the accumulation of wind . normal. *)
Definition flux (b : bdata) (i : nat) : R :=
  fold_left (fun acc d => acc + d_wind b i d * d_normal b i d) (seq 0 (d_dim b)) 0.

(** source/boundary_conditions.cc:259-334: what one visit of owned dof [i] from cell [c] does. *)
Definition prepare_dof (b : bdata) (c : cell) (v : bvecs) (i : nat) : bvecs :=
  if existsb (fun d => (c_mat c =? d)%nat) (d_dirichlet b) then
    {| v_phi := upd (v_phi v) i (d_pot b i); v_dphi := v_dphi v; v_rhs := upd (v_rhs v) i (d_pot b i) |}
  else if existsb (fun d => (c_mat c =? d)%nat) (d_neumann b) then
    {| v_phi := v_phi v; v_dphi := upd (v_dphi v) i (flux b i); v_rhs := upd (v_rhs v) i (flux b i) |}
  else
    {| v_phi := v_phi v; v_dphi := upd (v_dphi v) i 0; v_rhs := upd (v_rhs v) i 0 |}.

(** source/boundary_conditions.cc:246-258,335-342. [own]: this_cpu_set. *)
Definition prepare_cell (b : bdata) (own : nat -> bool) (v : bvecs) (c : cell) : bvecs :=
  fold_left (fun v i => if own i then prepare_dof b c v i else v) (c_dofs c) v.

(** source/boundary_conditions.cc:217-343; phi and dphi_dn are reinitialised to 0 (:224-225), and
    so is tmp_rhs by the caller (:173). *)
Definition prepare_bem_vectors (b : bdata) (own : nat -> bool) (cells : list cell) : bvecs :=
  fold_left (prepare_cell b own) cells
            {| v_phi := fun _ => 0; v_dphi := fun _ => 0; v_rhs := fun _ => 0 |}.

(** source/boundary_conditions.cc:25-31 and :182-195. [first0] is the first dof owned by process 0;
    the broadcast gives the same shift to every process, and every process shifts its own
    elements ([owns]: one owned set per process). *)
Definition vector_shift (own : nat -> bool) (v : vec) (s : R) : vec :=
  fun i => if own i then v i + s else v i.
Definition neumann_shift (have_dirichlet : bool) (pot : nat -> R) (first0 : nat)
  (owns : list (nat -> bool)) (phi : vec) : vec :=
  if have_dirichlet then phi
  else let s := pot first0 - phi first0 in
       fold_left (fun v own => vector_shift own v s) owns phi.

(** ** Function-static caches *)

(** compute_alpha's static vector [ones] (source/bem_problem.cc:1562-1569): size, MPI layout and
    content. [None]: the default-constructed static (size 0). *)
Section Ones.
  Context {Layout : Type}.
  Record ones_cache := { oc_size : nat; oc_layout : Layout; oc_vec : vec }.
  Definition oc_size_of (s : option ones_cache) : nat :=
    match s with Some c => oc_size c | None => 0%nat end.
  (** one call with the current number of dofs and layout *)
  Definition ones_call (s : option ones_cache) (q : nat * Layout) : option ones_cache :=
    if (oc_size_of s =? fst q)%nat then s
    else Some {| oc_size := fst q; oc_layout := snd q; oc_vec := fresh_ones |}.
  Definition ones_run (qs : list (nat * Layout)) : option ones_cache := fold_left ones_call qs None.
End Ones.

(** get_singular_quadrature's static vector (source/bem_problem.cc:421-456): filled at the first
    call, with the element and order in force then, and never again. [Quad] is the type of the
    quadratures; [mk fe order] what the code would build for an element and an order. *)
Section Quads.
  Context {FE Quad : Type} (mk : FE -> nat -> list Quad).
  Definition quad_call (s : list Quad) (q : FE * nat) : list Quad :=
    match s with [] => mk (fst q) (snd q) | _ => s end.
  Definition quad_run (qs : list (FE * nat)) : list Quad := fold_left quad_call qs [].
End Quads.

(** ** Renumbering tables: source/bem_problem.cc:731-751 *)

(** The loop: for i < m (i < n for the scalar table), table[perm i] = i. [perm] is what
    DoFRenumbering::compute_subdomain_wise returned. *)
Definition inverse_table (m : nat) (perm : nat -> nat) : nat -> nat :=
  fold_left (fun t i => upd t (perm i) i) (seq 0 m) (fun _ => 0%nat).

(** The index of component [d] of scalar dof [i] (source/bem_problem.cc:262-267,
    source/boundary_conditions.cc:298-303): vec_original_to_sub_wise[n_vec/dim*d +
    sub_wise_to_original[i]]. *)
Definition vec_index (nvec dim : nat) (vperm sub_to_orig : nat -> nat) (d i : nat) : nat :=
  vperm (nvec / dim * d + sub_to_orig i)%nat.

(** ** Spheroid stretching: source/bem_problem.cc:193-208. [m = gradient_dh.n_dofs()/dim]. *)
Definition stretch (dim m : nat) (vperm : nat -> nat) (ax ay az : R) (v : vec) : vec :=
  fold_left (fun v ii =>
    let v1 := upd v (vperm ii) (v (vperm ii) * ax) in
    let v2 := upd v1 (vperm (ii + m)%nat) (v1 (vperm (ii + m)%nat) * ay) in
    if (dim =? 3)%nat then upd v2 (vperm (ii + m)%nat) (v2 (vperm (ii + m)%nat) * az) else v2)
    (seq 0 m) v.
