(** The linear system of BEMProblem: ConstrainedOperator, vmult, right-hand side, scatter of the
    solution, alpha, boundary indicator vectors, double nodes, double-node constraints, band
    preconditioner. Vectors are functions of the global dof index (a distributed vector is its
    global content; what one process may read or write is explicit where it matters);
    [double] is modelled by [R]. *)
From Coq Require Import Reals List Bool Arith Lia.
From Verif Require Import LibSum.
Import ListNotations.
Local Open Scope R_scope.

Definition vec := nat -> R.
Definition mat := nat -> nat -> R.

(** TrilinosWrappers::SparseMatrix::vmult of an n x n matrix. *)
Definition matvec (n : nat) (A : mat) (x : vec) : vec := fun i => sumn n (fun j => A i j * x j).

(** ** Constraints *)

(** One line of AffineConstraints: entries and inhomogeneity. The inhomogeneity is [None] when the
    double computed by the program is not a finite number (division by zero). *)
Record line := { l_entries : list (nat * R); l_inhom : option R }.
(** AffineConstraints<double>: [None] = not constrained. *)
Definition constraints := nat -> option line.

Definition constrained (c : constraints) (i : nat) : bool :=
  match c i with Some _ => true | None => false end.

(** ** ConstrainedOperator (include/constrained_matrix.h) *)

(** include/constrained_matrix.h:91-92: [loc_src] holds only the elements of [constr_cpu_set];
    reading any other element is an error ([None]). *)
Definition loc_read (ghost : nat -> bool) (src : vec) (j : nat) : option R :=
  if ghost j then Some (src j) else None.

(** include/constrained_matrix.h:112-115: [dst(i) -= second * loc_src(first)] for each entry. *)
Fixpoint sub_entries (ghost : nat -> bool) (src : vec) (es : list (nat * R)) (acc : R) : option R :=
  match es with
  | [] => Some acc
  | (j, w) :: t => match loc_read ghost src j with
                   | Some v => sub_entries ghost src t (acc - w * v)
                   | None => None
                   end
  end.

(** include/constrained_matrix.h:104-118: what process [own, ghost] adds to global element [i] of
    [dst] ([dst0] is the result of matrix.vmult): on an owned constrained row the increments
    [src(i) - dst(i)] and the entry terms, on every other row [0.]. *)
Definition proc_increment (c : constraints) (own ghost : nat -> bool) (src dst0 : vec) (i : nat)
  : option R :=
  match c i with
  | Some l => if own i
              then match sub_entries ghost src (l_entries l) (dst0 i + (src i - dst0 i)) with
                   | Some r => Some (r - dst0 i)
                   | None => None
                   end
              else Some 0
  | None => Some 0
  end.

Fixpoint sum_opt (l : list (option R)) : option R :=
  match l with
  | [] => Some 0
  | x :: t => match x, sum_opt t with Some a, Some b => Some (a + b) | _, _ => None end
  end.

(** include/constrained_matrix.h:87-130: vmult. [procs] lists (owned, constr_cpu_set) of every
    process; compress(VectorOperation::add) at :120 sums the contributions of all of them. *)
Definition co_vmult (M : vec -> vec) (c : constraints) (procs : list ((nat -> bool) * (nat -> bool)))
  (src : vec) (i : nat) : option R :=
  match sum_opt (map (fun pr => proc_increment c (fst pr) (snd pr) src (M src) i) procs) with
  | Some d => Some (M src i + d)
  | None => None
  end.

(** include/constrained_matrix.h:134-145: distribute_rhs, each process on its owned elements. *)
Definition co_distribute_rhs (c : constraints) (owns : list (nat -> bool)) (rhs : vec) (i : nat)
  : option R :=
  if existsb (fun own => own i) owns
  then match c i with Some l => l_inhom l | None => Some (rhs i) end
  else Some (rhs i).

(** source/bem_problem.cc:2093-2111: constr_cpu_set of a process: its owned dofs and the
    entries of its owned constrained rows. *)
Definition constr_cpu_set (n : nat) (c : constraints) (own : nat -> bool) (j : nat) : bool :=
  existsb (fun i => own i && ((j =? i)%nat ||
    match c i with
    | Some l => existsb (fun e => (fst e =? j)%nat) (l_entries l)
    | None => false
    end)) (seq 0 n).

(** ** The BEM operator *)

Definition scale (a b : vec) : vec := fun i => a i * b i.
Definition shift (a : vec) (s : R) : vec := fun i => a i + s.
Definition l2_norm (n : nat) (a : vec) : R := sqrt (sumn n (fun i => a i * a i)).

(** [products phi dphi = (N phi, D dphi)]: in the "Direct" method the two matrices
    (source/bem_problem.cc:1614-1618), in the FMM method
    fma.generate_multipole_expansions + fma.multipole_matr_vect_products (:1624-1628). *)
Record bem := {
  b_n : nat;
  b_direct : bool;                     (* solution_method == "Direct" *)
  b_N : vec -> vec;                    (* neumann product *)
  b_D : vec -> vec;                    (* dirichlet product *)
  b_alpha : vec;
  b_dir : vec;                         (* dirichlet_nodes *)
  b_neu : vec;                         (* neumann_nodes *)
  b_have_dirichlet : bool
}.

(** source/bem_problem.cc:1590-1646. *)
Definition vmult (b : bem) (src : vec) : vec :=
  let phi0 := if b_have_dirichlet b then src else shift src (- l2_norm (b_n b) src) in
  let phi := scale phi0 (b_neu b) in
  let dphi := scale src (b_dir b) in
  let dst := if b_direct b
             then fun i => (b_D b dphi i * -1 + b_N b phi i) + phi i * b_alpha b i
             else fun i => ((0 + b_D b dphi i) * -1 + b_N b phi i) + phi i * b_alpha b i in
  if b_have_dirichlet b then dst else shift dst (- l2_norm (b_n b) dst).

(** source/bem_problem.cc:1651-1691; the FMM branch accumulates onto the incoming [dst0]
    (zero in solve_system, :1709). *)
Definition compute_rhs (b : bem) (dst0 src : vec) : vec :=
  let phi := scale src (b_dir b) in
  let dphi := scale src (b_neu b) in
  if b_direct b
  then fun i => (b_N b phi i + phi i * b_alpha b i) * -1 + b_D b dphi i
  else fun i => ((dst0 i + b_N b phi i) + phi i * b_alpha b i) * -1 + b_D b dphi i.

(** source/bem_problem.cc:1786-1799: scatter of the solution, [dirichlet_nodes(i) == 0]. *)
Definition scatter_phi (b : bem) (phi sol : vec) : vec :=
  fun i => if Req_EM_T (b_dir b i) 0 then sol i else phi i.
Definition scatter_dphi (b : bem) (dphi sol : vec) : vec :=
  fun i => if Req_EM_T (b_dir b i) 0 then dphi i else sol i.

(** source/bem_problem.cc:1558-1580: compute_alpha, N applied to the vector of -1. *)
Definition compute_alpha (N : vec -> vec) (ones : vec) : vec := N ones.
(** :1562-1567 the cached vector: 0 shifted by -1. *)
Definition fresh_ones : vec := shift (fun _ => 0) (-1).

(** ** Boundary indicators *)

(** What the solver reads of a cell: dofs, material id, subdomain id. *)
Record cell := { c_dofs : list nat; c_mat : nat; c_sub : nat }.

(** source/bem_problem.cc:594-610: the search through dirichlet_boundary_ids. *)
Definition is_dirichlet_cell (ids : list nat) (c : cell) : bool :=
  existsb (fun d => (d =? c_mat c)%nat) ids.

Definition upd {T} (f : nat -> T) (i : nat) (v : T) : nat -> T :=
  fun j => if (j =? i)%nat then v else f j.

(** source/bem_problem.cc:589-656: the cell loop on process [me]; state = (dirichlet, neumann,
    helper_dirichlet). *)
Definition indicator_cell (ids : list nat) (me : nat) (st : vec * vec * bool) (c : cell)
  : vec * vec * bool :=
  let '(d, nn, h) := st in
  if (c_sub c =? me)%nat then
    if is_dirichlet_cell ids c
    then (fold_left (fun f k => upd f k 1) (c_dofs c) d,
          fold_left (fun f k => upd f k 0) (c_dofs c) nn, true)
    else st
  else st.

Definition indicators_local (ids : list nat) (cells : list cell) (me : nat) : vec * vec * bool :=
  fold_left (indicator_cell ids me) cells (fun _ => 0, shift (fun _ => 0) 1, false).

(** source/bem_problem.cc:658-663: each process keeps the entries it owns; [owner i] is the
    process owning dof [i]. *)
Definition dirichlet_nodes (ids : list nat) (cells : list cell) (owner : nat -> nat) : vec :=
  fun i => fst (fst (indicators_local ids cells (owner i))) i.
Definition neumann_nodes (ids : list nat) (cells : list cell) (owner : nat -> nat) : vec :=
  fun i => snd (fst (indicators_local ids cells (owner i))) i.
(** source/bem_problem.cc:668-678: MPI_Allreduce with MPI_MAX over processes 0..np-1. *)
Definition have_dirichlet (ids : list nat) (cells : list cell) (np : nat) : bool :=
  existsb (fun me => snd (indicators_local ids cells me)) (seq 0 np).

(** ** Double nodes *)

(** source/bem_problem.cc:686-729. [dist] is the distance between two support points, [edge] the
    increasing list of dofs on boundary faces; std::set keeps indices sorted, so a set is given by
    its membership test on 0..n-1. *)
Definition double_nodes (n : nat) (dist : nat -> nat -> R) (edge : list nat) (i : nat) : list nat :=
  filter (fun j => (j =? i)%nat ||
            (existsb (Nat.eqb i) edge && existsb (Nat.eqb j) edge &&
             (if Rlt_dec (dist i j) (1 / 10 ^ 10) then true else false)))
         (seq 0 n).

(** ** Double-node constraints: source/bem_problem.cc:1897-2089 *)

(** IEEE division where the result may not be a finite number. *)
Definition fdiv (a b : R) : option R := if Req_EM_T b 0 then None else Some (a / b).
(** [x < y] is false when x is not a number. *)
Definition flt (a : option R) (b : R) : bool :=
  match a with Some x => if Rlt_dec x b then true else false | None => false end.

Definition vec3 := nat -> R.    (* components 0,1,2 *)
Definition dot3 (a b : vec3) : R := sumn 3 (fun d => a d * b d).

Record cdata := {
  k_n : nat;
  k_doubles : nat -> list nat;        (* double_nodes_set, increasing *)
  k_dir : nat -> bool;                (* localized_dirichlet_nodes(i) == 1 *)
  k_normal : nat -> vec3;             (* nodal normal *)
  k_sgrad : nat -> vec3;              (* nodal surface gradient *)
  k_rhs : vec;                        (* loc_tmp_rhs *)
  k_cont : bool                       (* continuos_gradient *)
}.

(** source/bem_problem.cc:1905-1918 *)
Definition first_of_doubles (k : cdata) (i : nat) : nat :=
  match find (k_dir k) (k_doubles k i) with
  | Some j => j
  | None => match k_doubles k i with j :: _ => j | [] => i end
  end.

Definition add_line (c : constraints) (i : nat) : constraints :=
  match c i with Some _ => c | None => upd c i (Some {| l_entries := []; l_inhom := Some 0 |}) end.
Definition add_entry (c : constraints) (i j : nat) (w : R) : constraints :=
  match c i with
  | Some l => upd c i (Some {| l_entries := l_entries l ++ [(j, w)]; l_inhom := l_inhom l |})
  | None => c
  end.
Definition set_inhom (c : constraints) (i : nat) (v : option R) : constraints :=
  match c i with
  | Some l => upd c i (Some {| l_entries := l_entries l; l_inhom := v |})
  | None => c
  end.

(** source/bem_problem.cc:1945-1978: [normal_distance /= normal_distance; if (... < 1e-4)]. *)
Definition coplanar_test (k : cdata) (i j : nat) : bool :=
  let nd := dot3 (k_normal k i) (k_normal k j) in
  flt (fdiv nd nd) (1 / 10 ^ 4).

Definition omul (a : option R) (b : R) : option R := match a with Some x => Some (x * b) | None => None end.

(** source/bem_problem.cc:2030-2041. *)
Definition this_normal_gradient (ni nj si sj : vec3) : option R :=
  let c := dot3 ni nj in
  omul (fdiv 1 (1 - c ^ 2)) (dot3 sj ni + dot3 si nj * c).
Definition other_normal_gradient (ni nj si sj : vec3) : option R :=
  let c := dot3 ni nj in
  omul (fdiv 1 (1 - c ^ 2)) (dot3 si nj + dot3 sj ni * c).

(** body of the loop over the other doubles when the first is Dirichlet, :1936-2068 *)
Definition dirichlet_double (k : cdata) (i : nat) (c : constraints) (j : nat) : constraints :=
  if k_dir k j then
    if coplanar_test k i j then add_entry (add_line c j) j i 1
    else if k_cont k then
      let c1 := add_line c j in
      let c2 := set_inhom (add_line c1 i) i
                  (this_normal_gradient (k_normal k i) (k_normal k j) (k_sgrad k i) (k_sgrad k j)) in
      set_inhom (add_line c2 j) j
                  (other_normal_gradient (k_normal k i) (k_normal k j) (k_sgrad k i) (k_sgrad k j))
    else c
  else set_inhom (add_line c j) j (Some (k_rhs k i)).

(** :2076-2087 *)
Definition neumann_double (i : nat) (c : constraints) (j : nat) : constraints :=
  add_entry (add_line c j) j i 1.

Definition constraint_step (k : cdata) (c : constraints) (i : nat) : constraints :=
  if (i =? first_of_doubles k i)%nat then
    let others := filter (fun j => negb (j =? i)%nat) (k_doubles k i) in
    if k_dir k i then fold_left (dirichlet_double k i) others c
    else fold_left (neumann_double i) others c
  else c.

(** The constraints before hanging nodes are merged (:2091-2092). *)
Definition compute_constraints (k : cdata) : constraints :=
  fold_left (constraint_step k) (seq 0 (k_n k)) (fun _ => None).

(** ** Band preconditioner: source/bem_problem.cc:2163-2235 *)

(** :2183-2190 and :2217-2223 column range of row [i]; [band] is preconditioner_band (100, set at
    :346). *)
Definition band_cols (n band i : nat) : list nat :=
  let h := (band / 2)%nat in
  let start := if (h <? i)%nat then (i - h)%nat else 0%nat in
  let stop := Nat.min (i + h) n in
  seq start (stop - start).

(** The pattern built on the first call by the processes owning the rows. *)
Definition in_band_pattern (n band i j : nat) : bool :=
  (i <? n)%nat && existsb (Nat.eqb j) (band_cols n band i).

(** The list of (row, column, value) passed to band_system.add, rows in increasing order. *)
Definition band_row (n band : nat) (c : constraints) (N D : mat) (alpha dir : vec) (i : nat)
  : list (nat * nat * R) :=
  (if constrained c i then [(i, i, 1)] else []) ++
  flat_map (fun j =>
    if constrained c i then []
    else if Req_EM_T (dir i) 0
         then (i, j, N i j) :: (if (i =? j)%nat then [(i, j, alpha i)] else [])
         else [(i, j, - D i j)]) (band_cols n band i).

(** The assembled band matrix: sum of what was added at (i, j). *)
Definition band_entry (n band : nat) (c : constraints) (N D : mat) (alpha dir : vec) (i j : nat) : R :=
  suml (filter (fun e => (fst (fst e) =? i)%nat && (snd (fst e) =? j)%nat)
               (flat_map (band_row n band c N D alpha dir) (seq 0 n)))
       (fun e => snd e).

(** ** FMM preconditioner: source/bem_fma.cc *)

(** One pass of the innermost loop of the copier, source/bem_fma.cc:1051-1079: row, column and the
    two local values added to prec_neumann_matrix and prec_dirichlet_matrix. *)
Record near := { nr_i : nat; nr_j : nat; nr_N : R; nr_D : R }.

Definition at_ij (i j : nat) (e : near) : bool := ((nr_i e =? i) && (nr_j e =? j))%nat.
(** :1055-1062 *)
Definition near_N (es : list near) : mat := fun i j => suml (filter (at_ij i j) es) nr_N.
Definition near_D (es : list near) : mat := fun i j => suml (filter (at_ij i j) es) nr_D.
(** :1063-1079: the test is [dirichlet_nodes(column) > 0.8]. *)
Definition init_prec (dir : vec) (es : list near) : mat := fun i j =>
  suml (filter (at_ij i j) es)
       (fun e => if Rlt_dec (8 / 10) (dir (nr_j e)) then - nr_D e else nr_N e).

(** A row under construction: column -> value; [None] where the pattern has no entry. *)
Definition row_map := nat -> R.

(** source/bem_fma.cc:3419-3431: set(i,i,1) then set(i, first, second) for every entry: a later
    set overwrites. *)
Definition prec_row_constrained (i : nat) (l : line) : row_map :=
  fold_left (fun f e => upd f (fst e) (snd e)) (l_entries l) (upd (fun _ => 0) i 1).

(** source/bem_fma.cc:3320-3347 pattern and :3432-3445 values of an unconstrained row. *)
Definition prec_row_free (n : nat) (pat : nat -> nat -> bool) (init : mat) (i : nat) : row_map :=
  fun j => if (j <? n)%nat && pat i j then init i j else 0.

(** source/bem_fma.cc:3452-3480: alpha is added on the diagonal of unconstrained Neumann rows. *)
Definition prec_row (n : nat) (pat : nat -> nat -> bool) (c : constraints) (dir alpha : vec)
  (es : list near) (i : nat) : row_map :=
  let r := match c i with
           | Some l => prec_row_constrained i l
           | None => prec_row_free n pat (init_prec dir es) i
           end in
  match c i with
  | None => if Req_EM_T (dir i) 0 then upd r i (r i + alpha i) else upd r i (r i + 0)
  | Some _ => upd r i (r i + 0)
  end.
