(** * Distributed objects and collective calls of one MPI process

    What each MPI process does to the distributed (Trilinos) vectors and matrices during a run of the
    driver: which entries it writes, and which operations on whole objects it calls, in program
    order.  The values are not modelled here (they are in the other files); what matters is that
    operations on whole objects involve every process of the communicator, whereas writes of single
    entries are local unless the library finds an unfinished write of the other kind. *)
From Coq Require Import List Bool Arith Lia.
From Verif Require Import ModelBem.
Import ListNotations.
Local Open Scope nat_scope.

(** ** Objects *)
Inductive axis := AX | AY | AZ.

(** The distributed objects of include/bem_problem.h, include/bem_fma.h and
    include/boundary_conditions.h, and the local variables holding distributed objects.  [B_i],
    [C_ij] have dim = 3 components. *)
Inductive obj :=
  | System_rhs | Sol | Alpha | Serv_phi | Serv_dphi | Serv_tmp
  | Dirichlet_nodes | Neumann_nodes | Hyp_alpha | C_ij (a b : axis) | B_i (a : axis)
  | Full_pattern | Neumann_matrix | Dirichlet_matrix | Band_pattern | Band_system
  | Helper | Vector_pattern
  | Normals | Normals_matrix | Normals_rhs
  | Surface | Surface_matrix | Surface_rhs
  | Gradients | Gradients_matrix | Gradients_rhs
  | Hyp_gradients | Hyp_b
  | Init_pattern | Prec_neumann | Prec_dirichlet | Init_prec | Final_pattern | Final_prec
  | Phi | Dphi_dn | Tmp_rhs
  | Ones | Zeros | Dummy
  | Vm_N | Vm_D | Rhs_N | Rhs_D | Loc_src | Krylov | Error_vec | Ghost_phi | Ghost_dphi | Ghost_vec.

Definition axis_eqb (a b : axis) : bool :=
  match a, b with AX, AX | AY, AY | AZ, AZ => true | _, _ => false end.

Definition obj_tag (o : obj) : nat :=
  match o with
  | System_rhs => 0 | Sol => 1 | Alpha => 2 | Serv_phi => 3 | Serv_dphi => 4 | Serv_tmp => 5
  | Dirichlet_nodes => 6 | Neumann_nodes => 7 | Hyp_alpha => 8 | C_ij _ _ => 9 | B_i _ => 10
  | Full_pattern => 11 | Neumann_matrix => 12 | Dirichlet_matrix => 13 | Band_pattern => 14
  | Band_system => 15 | Helper => 16 | Vector_pattern => 17 | Normals => 18 | Normals_matrix => 19
  | Normals_rhs => 20 | Surface => 21 | Surface_matrix => 22 | Surface_rhs => 23 | Gradients => 24
  | Gradients_matrix => 25 | Gradients_rhs => 26 | Hyp_gradients => 27 | Hyp_b => 28
  | Init_pattern => 29 | Prec_neumann => 30 | Prec_dirichlet => 31 | Init_prec => 32
  | Final_pattern => 33 | Final_prec => 34 | Phi => 35 | Dphi_dn => 36 | Tmp_rhs => 37 | Ones => 38
  | Zeros => 39 | Dummy => 40 | Vm_N => 41 | Vm_D => 42 | Rhs_N => 43 | Rhs_D => 44 | Loc_src => 45
  | Krylov => 46 | Error_vec => 47 | Ghost_phi => 48 | Ghost_dphi => 49 | Ghost_vec => 50
  end.
Definition obj_eqb (o p : obj) : bool :=
  match o, p with
  | C_ij a b, C_ij a' b' => axis_eqb a a' && axis_eqb b b'
  | B_i a, B_i a' => axis_eqb a a'
  | _, _ => obj_tag o =? obj_tag p
  end.

(** ** Events of one process *)
Inductive mode := Insert | Add.
Definition mode_eqb (m m' : mode) : bool :=
  match m, m' with Insert, Insert | Add, Add => true | _, _ => false end.

(** whether the written value is the literal 0. *)
Inductive wval := Wzero | Wsome.

(** Calls that operate on a whole distributed object.  [Use] stands for everything that reads or
    combines whole objects without touching the record of unfinished writes: matrix products, norms,
    scale, +=, gathering into a local vector, building a preconditioner, SparsityPattern::compress. *)
Inductive call :=
  | Compress (o : obj) (m : mode)
  | MatZero (o : obj)       (* matrix = 0: compress(unknown), then PutScalar(0) *)
  | Reinit (o : obj)        (* construction or reinit from index sets or patterns *)
  | Assign (o : obj)        (* vector = vector of the same layout, vector = 0 *)
  | Import (o : obj)        (* x.reinit(v, false, true) *)
  | Use (o : obj)
  | Barrier | Allreduce | Bcast.

(** [Write o i m v mine]: x(i) = v / x(i) += v (row [i] for a matrix); [mine]: the entry belongs to
    this process.  [First o mine_nonempty]: x(nth_index_in_set(0)) = ...; [Peek]: *set.begin(). *)
Inductive ev :=
  | Write (o : obj) (i : nat) (m : mode) (v : wval) (mine : bool)
  | Call (c : call)
  | First (o : obj) (nonempty : bool)
  | Peek (nonempty : bool).

(** ** The library's bookkeeping

    deal.II TrilinosWrappers::MPI::Vector and SparseMatrix keep [last_action]; Epetra's FE objects
    keep the entries written for other processes until GlobalAssemble.  This is library code, not in
    /repo: its behaviour is an assumption of the model (DESIGN.md). *)
Record pst := { last : obj -> option mode; queue : obj -> list (nat * wval) }.
Definition pst0 : pst := {| last := fun _ => None; queue := fun _ => [] |}.
Definition set_obj {T} (f : obj -> T) (o : obj) (v : T) : obj -> T :=
  fun p => if obj_eqb p o then v else f p.

(** What the other processes can see: calls with the mode of assembly actually used, and assemblies
    triggered by a single-entry write. *)
Inductive wire :=
  | Enter (c : call)
  | Assemble (o : obj) (m : mode)
  | Hidden (o : obj) (m : mode).

Definition write_obj (st : pst) (o : obj) (i : nat) (m : mode) (v : wval) (mine : bool)
  : pst * list wire * list (obj * nat * wval) :=
  let put q := if mine then q else q ++ [(i, v)] in
  match last st o with
  | Some m' =>
      if mode_eqb m m'
      then ({| last := set_obj (last st) o (Some m); queue := set_obj (queue st) o (put (queue st o)) |}, [], [])
      else ({| last := set_obj (last st) o (Some m); queue := set_obj (queue st) o (put []) |},
            [Hidden o m'], map (fun e => (o, fst e, snd e)) (queue st o))
  | None => ({| last := set_obj (last st) o (Some m); queue := set_obj (queue st) o (put (queue st o)) |}, [], [])
  end.

Definition clear_obj (st : pst) (o : obj) (l : option mode) : pst :=
  {| last := set_obj (last st) o l; queue := set_obj (queue st) o [] |}.

(** [None]: the library's assertion on mixed operations fails *)
Definition call_obj (st : pst) (c : call) : option (pst * list wire * list (obj * nat * wval)) :=
  match c with
  | Compress o m =>
      match last st o with
      | Some m' => if mode_eqb m m'
                   then Some (clear_obj st o None, [Assemble o m], map (fun e => (o, fst e, snd e)) (queue st o))
                   else None
      | None => Some (clear_obj st o None, [Assemble o m], map (fun e => (o, fst e, snd e)) (queue st o))
      end
  | MatZero o =>
      Some (clear_obj st o None, [Assemble o (match last st o with Some m => m | None => Add end)], [])
  | Reinit o | Assign o => Some (clear_obj st o None, [Enter c], [])
  | Import o => Some (clear_obj st o (Some Insert), [Enter c], [])
  | Use _ | Barrier | Allreduce | Bcast => Some (st, [Enter c], [])
  end.

Definition ev_step (st : pst) (e : ev) : option (pst * list wire * list (obj * nat * wval)) :=
  match e with
  | Write o i m v mine => Some (write_obj st o i m v mine)
  | Call c => call_obj st c
  | First o ne => if ne then Some (write_obj st o 0 Insert Wsome true) else None
  | Peek ne => if ne then Some (st, [], []) else None
  end.

(** final state, what the other processes see, and the contributions to entries of other processes
    that reach their owners.  [None]: undefined behaviour or a failed library assertion. *)
Fixpoint run_evs (st : pst) (es : list ev) : option (pst * list wire * list (obj * nat * wval)) :=
  match es with
  | [] => Some (st, [], [])
  | e :: es =>
      match ev_step st e with
      | None => None
      | Some (st1, w1, d1) =>
          match run_evs st1 es with
          | None => None
          | Some (st2, w2, d2) => Some (st2, w1 ++ w2, d1 ++ d2)
          end
      end
  end.

(** ** One solve of the driver, seen from process [me]

    The mesh, the numbering, the boundary ids, the constraints and the patterns are the same on all
    processes (every process holds the whole triangulation); [y_own], [y_vown] are the owners of the
    scalar and vector dofs; [y_near], [y_down], [y_leaf] list, per process, the node lists of the
    blocks in the order in which its threads deliver them.  [y_it] counts the steps of the three
    GMRES solves with a mass matrix and of the boundary element solve: it is decided from global
    norms, hence the same on all processes (library assumption). *)
Record cyc := {
  y_direct : bool;
  y_n : nat;
  y_own : nat -> nat;
  y_vown : nat -> nat;
  y_cells : list (cell * list nat);    (* cell, rows of its vector dofs after constraints *)
  y_ids : list nat;                    (* Dirichlet boundary ids *)
  y_doubles : nat -> list nat;
  y_con : nat -> option (list nat);    (* compute_constraints *)
  y_vlines : list nat;                 (* constrained vector dofs *)
  y_vec : axis -> nat -> nat;          (* vector dof of a node *)
  y_isdir : nat -> bool;               (* dirichlet_nodes(i) <> 0 *)
  y_pat : nat -> list nat;             (* row of init_prec_sparsity_pattern *)
  y_near : nat -> list (list nat);
  y_down : nat -> list (list nat);
  y_leaf : nat -> list (list nat);
  y_itn : nat; y_its : nat; y_itg : nat; y_it : nat
}.

Section Process.
  Variable np : nat.
  Variable y : cyc.
  Variable me : nat.

  (** this_cpu_set.is_element, vector_this_cpu_set.is_element (bem_problem.cc:256-268) *)
  Definition own (i : nat) : bool := y_own y i =? me.
  Definition vown (i : nat) : bool := y_vown y i =? me.
  Definition mine : list nat := filter own (seq 0 (y_n y)).
  Definition nonempty : bool := match mine with [] => false | _ => true end.

  Definition w (o : obj) (m : mode) (i : nat) : ev := Write o i m Wsome (own i).
  Definition vw (o : obj) (m : mode) (i : nat) : ev := Write o i m Wsome (vown i).

  (** vector_shift, bem_problem.cc:38-43 and boundary_conditions.cc:26-31 *)
  Definition p_shift (o : obj) : list ev := map (w o Add) mine.

  (** have_dirichlet_bc after the MPI_Allreduce (bem_problem.cc:668-678) *)
  Definition hd : bool := have_dirichlet (y_ids y) (map fst (y_cells y)) np.

  Definition axes := [AX; AY; AZ].
  Definition axes2 := flat_map (fun a => map (fun b => (a, b)) axes) axes.

  (** bem_problem.cc:154-418 reinit, with compute_dirichlet_and_neumann_dofs_vectors (572-680) and
      BEMFMA::init_fma (bem_fma.cc:49-70).  Numbering, patterns' entries and the double node search are
      local computations on replicated data. *)
  Definition p_reinit : list ev :=
    [Call Barrier] ++
    map (fun o => Call (Reinit o)) [System_rhs; Sol; Alpha; Serv_phi; Serv_dphi; Serv_tmp] ++
    (if y_direct y
     then [Call (Reinit Full_pattern); Call (Use Full_pattern);
           Call (Reinit Neumann_matrix); Call (Reinit Dirichlet_matrix)]
     else []) ++
    [Call (Reinit Band_pattern); Call (Reinit Dirichlet_nodes); Call (Reinit Neumann_nodes)] ++
    flat_map (fun i => [w Dirichlet_nodes Insert i; w Neumann_nodes Insert i]) mine ++
    [Call Allreduce; Call (Use Dirichlet_nodes)] ++
    [Call (Reinit Helper); Call (Reinit Vector_pattern); Call (Use Vector_pattern)] ++
    [Call (Reinit Hyp_alpha)] ++
    map (fun p => Call (Reinit (C_ij (fst p) (snd p)))) axes2 ++
    map (fun a => Call (Reinit (B_i a))) axes.

  (** The L2 projections: bem_problem.cc:2912-3020 (normals), 2425-2568 (surface gradients),
      2262-2425 (gradients): only cells of this subdomain contribute, to whatever rows their dofs
      have; then GMRES on the mass matrix and vector_constraints.distribute, which imports and sets
      the owned constrained entries. *)
  Definition p_project (sol mat rhs : obj) (k : nat) : list ev :=
    [Call (Reinit sol); Call (Reinit rhs); Call (Reinit mat)] ++
    flat_map (fun c => if c_sub (fst c) =? me
                       then flat_map (fun i => [vw mat Add i; vw rhs Add i]) (snd c) else []) (y_cells y) ++
    [Call (Compress mat Add); Call (Compress rhs Add); Call (Use mat); Call (Use sol)] ++
    concat (repeat [Call (Use mat); Call (Use rhs); Call Allreduce] k) ++
    [Call (Use sol); Call (Reinit Ghost_vec); Call (Import Ghost_vec)] ++
    map (vw sol Insert) (filter vown (y_vlines y)) ++
    [Call (Compress sol Insert)].

  (** bem_problem.cc:2425-2432: the ghosted copy of the argument *)
  Definition p_surface : list ev :=
    [Call (Reinit Ghost_phi); Call (Import Ghost_phi)] ++
    p_project Surface Surface_matrix Surface_rhs (y_its y).
  Definition p_normals : list ev := p_project Normals Normals_matrix Normals_rhs (y_itn y).
  (** bem_problem.cc:2262-2425 *)
  Definition p_gradients : list ev :=
    [Call (Reinit Ghost_phi); Call (Import Ghost_phi); Call (Reinit Ghost_dphi); Call (Import Ghost_dphi)] ++
    p_project Gradients Gradients_matrix Gradients_rhs (y_itg y).

  (** boundary_conditions.cc:219-343 prepare_bem_vectors: owned dofs of all cells; a node met twice is written
      twice.  The neumann and "other" branches write the same objects. *)
  Definition p_prepare : list ev :=
    [Call (Reinit Phi); Call (Reinit Dphi_dn)] ++
    flat_map (fun c => flat_map (fun i =>
        if own i
        then if is_dirichlet_cell (y_ids y) (fst c)
             then [w Phi Insert i; w Tmp_rhs Insert i]
             else [w Tmp_rhs Insert i; w Dphi_dn Insert i]
        else []) (c_dofs (fst c))) (y_cells y).

  (** bem_problem.cc:753-1245 assemble_system *)
  Definition p_assemble_system : list ev :=
    [Call (MatZero Neumann_matrix); Call (MatZero Dirichlet_matrix)] ++
    flat_map (fun c => flat_map (fun i =>
        if own i
        then flat_map (fun _ => [w Neumann_matrix Add i; w Dirichlet_matrix Add i]) (c_dofs (fst c))
        else []) (seq 0 (y_n y))) (y_cells y).

  (** bem_fma.cc:132-1300: only rows of owned nodes are filled by the workers; all three matrices get
      the same rows (1050-1080) *)
  Definition p_direct_integrals : list ev :=
    [Call (Reinit Helper); Call (Reinit Init_pattern); Call (Use Init_pattern);
     Call (Reinit Prec_neumann); Call (Reinit Prec_dirichlet); Call (Reinit Init_prec)] ++
    flat_map (fun b => flat_map (fun i =>
        if own i
        then flat_map (fun _ => [w Prec_neumann Add i; w Prec_dirichlet Add i; w Init_prec Add i]) (y_pat y i)
        else []) b) (y_near y me).

  (** bem_fma.cc:2571-3190.  The copier of the downward pass (2919-2933) writes every node of the
      block, also nodes of other processes; the final evaluation (3166-3192) only owned nodes. *)
  Definition p_products (N D : obj) : list ev :=
    [Call (Use Prec_neumann); Call (Use Prec_dirichlet)] ++
    flat_map (fun b => flat_map (fun i => [w D Add i; w N Add i]) b) (y_down y me) ++
    flat_map (fun b => flat_map (fun i => if own i then [w D Add i; w N Add i] else []) b) (y_leaf y me).

  (** bem_problem.cc:1556-1584; [fresh]: the size of the static vectors differs from n_dofs *)
  Definition p_alpha (fresh : bool) : list ev :=
    (if fresh then [Call (Reinit Ones)] ++ p_shift Ones ++ [Call (Reinit Zeros); Call (Reinit Dummy)] else []) ++
    (if y_direct y then [Call (Use Neumann_matrix)]
     else [Call (Use Ones); Call (Use Zeros)] ++ p_products Alpha Dummy).

  (** bem_problem.cc:1249-1554: geometric part on owned nodes; three norms; b_i added on all doubles
      of an owned node, which may belong to other processes *)
  Definition p_hypersingular : list ev :=
    flat_map (fun i => [w Hyp_alpha Insert i] ++ map (fun p => w (C_ij (fst p) (snd p)) Insert i) axes2) mine ++
    [Call (Reinit Error_vec); Call (Use Error_vec); Call (Use Error_vec); Call (Use Error_vec); Call (Use Alpha)] ++
    flat_map (fun c => flat_map (fun i =>
        if own i then flat_map (fun j => map (fun a => w (B_i a) Add j) axes) (y_doubles y i) else [])
      (c_dofs (fst c))) (y_cells y) ++
    map (fun a => Call (Compress (B_i a) Add)) axes.

  (** bem_problem.cc:1651-1691 *)
  Definition p_compute_rhs : list ev :=
    [Call (Assign Serv_phi); Call (Assign Serv_dphi); Call (Reinit Rhs_N); Call (Reinit Rhs_D);
     Call (Use Serv_phi); Call (Use Serv_dphi)] ++
    (if y_direct y
     then [Call (Use Neumann_matrix); Call (Use Serv_phi); Call (Use System_rhs); Call (Use Dirichlet_matrix)]
     else [Call (Use Serv_phi); Call (Use Serv_dphi)] ++ p_products Rhs_N Rhs_D ++
          [Call (Use Serv_phi); Call (Use System_rhs)]).

  (** bem_problem.cc:1862-2135: the four gathered vectors; the rest is local *)
  Definition p_constraints : list ev :=
    p_surface ++ [Call (Use Surface); Call (Use Normals); Call (Use Dirichlet_nodes); Call (Use Tmp_rhs)].

  (** constrained_matrix.h:137-147 and bem_problem.cc:1740-1741 *)
  Definition p_distribute_rhs : list ev :=
    map (w System_rhs Insert) mine ++ [Call (Compress System_rhs Insert)].

  (** bem_problem.cc:2162-2235; is_preconditioner_initialized is false after reinit, so the first
      solve after it takes the first branch *)
  Definition p_band (first : bool) : list ev :=
    (if first then [Call (Use Band_pattern); Call (Reinit Band_system)] else [Call (MatZero Band_system)]) ++
    flat_map (fun i => match y_con y i with
                       | Some _ => [w Band_system Add i]
                       | None => w Band_system Add i :: (if y_isdir y i then [] else [w Band_system Add i])
                       end) mine ++
    [Call (Use Band_system)].

  (** bem_fma.cc:3291-3640 *)
  Definition p_fma_preconditioner : list ev :=
    [Call (Reinit Final_pattern); Call (Use Final_pattern); Call (Reinit Final_prec)] ++
    flat_map (fun i => match y_con y i with
                       | Some es => w Final_prec Insert i :: map (fun _ => w Final_prec Insert i) es
                       | None => map (fun _ => w Final_prec Insert i) (y_pat y i)
                       end) mine ++
    [Call (Compress Final_prec Insert)] ++
    map (w Final_prec Add) mine ++
    [Call (Compress Final_prec Add); Call (Compress Final_prec Insert); Call (Use Final_prec)].

  (** bem_problem.cc:1590-1646 *)
  Definition p_vmult (dst : obj) : list ev :=
    [Call (Assign Serv_phi)] ++
    (if hd then [] else [Call (Use Serv_phi)] ++ p_shift Serv_phi) ++
    [Call (Assign Serv_dphi); Call (Reinit Vm_N); Call (Reinit Vm_D); Call (Assign dst);
     Call (Use Serv_phi); Call (Use Serv_dphi)] ++
    (if y_direct y
     then [Call (Use Dirichlet_matrix); Call (Use dst); Call (Use Neumann_matrix); Call (Use Serv_phi); Call (Use dst)]
     else [Call (Use Serv_phi); Call (Use Serv_dphi)] ++ p_products Vm_N Vm_D ++ [Call (Use Serv_phi); Call (Use dst)]) ++
    (if hd then [] else [Call (Use dst)] ++ p_shift dst) ++
    [Call (Compress dst Add)].

  (** constrained_matrix.h:91-134: for every i < size, owned or not: the unconstrained and the
      non-owned entries get += 0. *)
  Definition p_cc_vmult (dst : obj) : list ev :=
    [Call (Reinit Loc_src); Call (Import Loc_src)] ++
    p_vmult dst ++
    flat_map (fun i => match y_con y i with
                       | Some es => if own i then w dst Add i :: map (fun _ => w dst Add i) es
                                    else [Write dst i Add Wzero (own i)]
                       | None => [Write dst i Add Wzero (own i)]
                       end) (seq 0 (y_n y)) ++
    [Call (Compress dst Add)].

  (** SolverGMRES::solve with the constrained operator: [y_it] applications *)
  Definition p_gmres : list ev :=
    [Call (Reinit Krylov); Call (Use Sol)] ++
    concat (repeat (p_cc_vmult Krylov ++ [Call (Use Krylov); Call Allreduce]) (y_it y)) ++
    [Call (Use Sol)].

  (** bem_problem.cc:1802-1826 *)
  Definition p_write_back : list ev :=
    map (fun i => if y_isdir y i then w Dphi_dn Insert i else w Phi Insert i) mine ++
    [First Phi nonempty; First Dphi_dn nonempty;
     Call (Compress Phi Insert); Call (Compress Dphi_dn Insert)].

  (** bem_problem.cc:1696-1830 *)
  Definition p_solve_system (fresh first : bool) : list ev :=
    [Call (Assign System_rhs); Call (Assign Sol); Call (Assign Alpha)] ++
    p_alpha fresh ++ p_hypersingular ++ p_compute_rhs ++ p_constraints ++ p_distribute_rhs ++
    (if y_direct y then p_band first ++ [Call (Use Sol)] else p_fma_preconditioner) ++
    p_gmres ++ p_write_back.

  (** boundary_conditions.cc:160-200 solve_problem; bem_problem.cc:1835-1858 solve *)
  Definition p_solve_problem (fresh first : bool) : list ev :=
    [Call (Reinit Phi); Call (Reinit Dphi_dn); Call (Reinit Tmp_rhs)] ++
    p_normals ++ p_prepare ++
    (if y_direct y then p_assemble_system else p_direct_integrals) ++
    p_solve_system fresh first ++
    (if hd then [] else (if me =? 0 then [Peek nonempty] else []) ++ [Call Bcast] ++ p_shift Phi).

  (** bem_problem.cc:2572-2905 compute_gradients_hypersingular (called by users, not by the driver) *)
  Definition p_hyp_gradients : list ev :=
    [Call (Reinit Hyp_gradients); Call (Reinit Hyp_b); Call (Use Phi); Call (Use Dphi_dn)] ++
    flat_map (fun c => flat_map (fun i =>
        if own i then map (fun a => vw Hyp_gradients Add (y_vec y a i)) axes else []) (seq 0 (y_n y))) (y_cells y) ++
    [Call (Compress Hyp_gradients Add); Call (Compress Hyp_b Add)] ++
    flat_map (fun i => map (fun a => vw Hyp_gradients Insert (y_vec y a i)) axes) mine ++
    [Call (Compress Hyp_gradients Insert)].

  (** boundary_conditions.cc:347-355 compute_errors: everything distributed comes before the test on rank 0 *)
  Definition p_errors : list ev :=
    p_gradients ++ [Call (Use Gradients); Call (Use Phi); Call (Use Dphi_dn); Call (Use Normals)].
  (** boundary_conditions.cc:546-560 output_results *)
  Definition p_output : list ev :=
    [Call (Use Phi); Call (Use Dphi_dn); Call (Use Alpha); Call (Use Gradients); Call (Use Surface); Call (Use Normals)].
End Process.

(** ** Histories of calls

    The public calls a program makes, in the same order on every process: BEMProblem::reinit (after a
    possibly new mesh, hence with new data), BoundaryConditions::solve_problem,
    BEMProblem::adaptive_refinement (bem_problem.cc:3020-3038: gathers phi, the rest is local),
    compute_gradients_hypersingular, compute_errors, output_results. *)
Inductive api := Api_reinit (y : cyc) | Api_solve | Api_refine | Api_hyp_gradients | Api_errors | Api_output.

(** data of the last reinit, size of the static vectors of compute_alpha (bem_problem.cc:1559-1567),
    not is_preconditioner_initialized *)
Record sess := { s_y : option cyc; s_n0 : nat; s_first : bool }.
Definition sess0 : sess := {| s_y := None; s_n0 := 0; s_first := true |}.

Definition api_next (s : sess) (a : api) : sess :=
  match a, s_y s with
  | Api_reinit y, _ => {| s_y := Some y; s_n0 := s_n0 s; s_first := true |}
  | Api_solve, Some y => {| s_y := Some y; s_n0 := y_n y; s_first := negb (y_direct y) && s_first s |}
  | _, _ => s
  end.
Definition api_events (np : nat) (s : sess) (a : api) (me : nat) : list ev :=
  match a, s_y s with
  | Api_reinit y, _ => p_reinit y me
  | _, None => []
  | Api_solve, Some y => p_solve_problem np y me (negb (s_n0 s =? y_n y)) (s_first s)
  | Api_refine, Some _ => [Call (Use Phi)]
  | Api_hyp_gradients, Some y => p_hyp_gradients y me
  | Api_errors, Some y => p_errors y me
  | Api_output, Some _ => p_output
  end.
Fixpoint history_events (np : nat) (s : sess) (h : list api) (me : nat) : list ev :=
  match h with
  | [] => []
  | a :: h => api_events np s a me ++ history_events np (api_next s a) h me
  end.

(** driver.cc:81-125: the calls made by Driver::run when the successive meshes are [ys] *)
Fixpoint driver_cycles (ys : list cyc) : list api :=
  match ys with
  | [] => []
  | [y] => [Api_reinit y; Api_solve; Api_errors; Api_output]
  | y :: ys' => [Api_reinit y; Api_solve; Api_refine] ++ driver_cycles ys'
  end.
