(** * The parallel loops of BEMFMA as concurrent programs (machine: ModelConc).

    Every access to a datum that some parallel loop writes is an explicit read or write of a shared
    location; data that no loop writes (octree, interaction lists, geometry, kernels, densities) are
    arguments.  As in ModelFmm, one of the two kernels is modelled (the code handles "Ker1" and "Ker2"
    by the same statements side by side). *)
From Coq Require Import Reals List Arith Bool.
From Verif Require Import ModelOctree ModelFmm ModelConc.
Import ListNotations.
Local Open Scope nat_scope.

(** Shared locations: matrix entries (prec_neumann_matrix / prec_dirichlet_matrix), the sparsity
    pattern init_prec_sparsity_pattern, the map elemMultipoleExpansions, centre and contents
    (coefficients and zero flag) of blockMultipoleExpansions[b] and blockLocalExpansions[b], the static
    table LocalExpansion::mExp_to_lExp_Coeff (two words: order and pointer), the result vector,
    final_prec_sparsity_pattern and the entries of final_preconditioner. *)
Inductive loc := Ent (i d : nat) | Pat | Elem | MCen (b : nat) | MExp (b : nat) | LCen (b : nat) | LExp (b : nat)
               | Tab | Out (i : nat) | FPat | Prec (i j : nat).
Definition loc_eqb (a b : loc) : bool :=
  match a, b with
  | Ent i d, Ent i' d' => Nat.eqb i i' && Nat.eqb d d'
  | Pat, Pat | Elem, Elem | Tab, Tab | FPat, FPat => true
  | MCen x, MCen y | MExp x, MExp y | LCen x, LCen y | LExp x, LExp y | Out x, Out y => Nat.eqb x y
  | Prec i j, Prec i' j' => Nat.eqb i i' && Nat.eqb j j'
  | _, _ => false
  end.
(** only the table's words are accessed atomically; a double of the result vector could be added *)
Definition loc_word (a : loc) : bool := match a with Tab => true | _ => false end.

Section Work.
  Context {AR : arith}.
  Variable E : eops.
  Variable I : oin.
  Variable st : ost.
  Variable K : kern.
  Variable phi : nat -> R.
  Variable owned : nat -> bool.

  (** map<block, map<cell, vector<MultipoleExpansion>>> (bem_fma.h 266-285) *)
  Definition emap := nat -> option (nat -> option (nat -> ME E)).
  Inductive val := VR (r : R) | VM (x : ME E) | VL (x : LE E) | VC (b : nat) | VT (built : bool)
                 | VP (p : list (nat * nat)) | VE (e : emap).
  Definition asR (v : val) : R := match v with VR r => r | _ => 0%R end.
  Definition asM (v : val) : ME E := match v with VM x => x | _ => mz E 0 end.
  Definition asL (v : val) : LE E := match v with VL x => x | _ => lz E 0 end.
  Definition asC (v : val) : nat := match v with VC b => b | _ => 0 end.
  Definition asT (v : val) : bool := match v with VT b => b | _ => false end.
  Definition asP (v : val) : list (nat * nat) := match v with VP p => p | _ => [] end.
  Definition asE (v : val) : emap := match v with VE e => e | _ => fun _ => None end.
  Notation prog := (prog loc val).
  Notation mem := (mem loc val).
  Definition done1 : prog unit := Ret tt.
  (** location += x *)
  Definition add_to (l : loc) (x : R) : prog unit := Rd l (fun v => Wr l (VR (aadd (asR v) x)) done1).

  (** ** Sparsity pattern (bem_fma.cc 233-392 and 478-590) *)
  (** InitPrecCopy (bem_fma.cc 245-249) *)
  Record init_copy := { ic_rows : list nat; ic_cols : list (list nat) }.
  (** the two resize(0) (bem_fma.cc 264-265 and 496-497) *)
  Definition ic_reset (d : init_copy) : init_copy :=
    let d1 := {| ic_rows := []; ic_cols := ic_cols d |} in {| ic_rows := ic_rows d1; ic_cols := [] |}.
  Definition ic_push (d : init_copy) (i : nat) (cols : list nat) : init_copy :=
    {| ic_rows := ic_rows d ++ [i]; ic_cols := ic_cols d ++ [cols] |}.
  (** f_init_prec_childless_worker (bem_fma.cc 259-361) *)
  Definition pat_worker (b : nat) (d : init_copy) : prog init_copy :=
    let dofs := dofs_of_blocks I st (last_int I st b) in
    Ret (fold_left (fun d i => if owned i then ic_push d i dofs else d) (b_nodes (getb (st_blocks st) b)) (ic_reset d)).
  (** f_init_prec_level_worker (bem_fma.cc 492-577) *)
  Definition pat_level_worker (level b : nat) (d : init_copy) : prog init_copy :=
    Ret (fold_left (fun d s => let dofs := dofs_of_blocks I st (bigger I st level b s) in
                      fold_left (fun d i => if owned i then ic_push d i dofs else d) (b_nodes (getb (st_blocks st) b)) d)
                   (seq 0 (near_levels I st b)) (ic_reset d)).
  (** f_init_prec_copier (bem_fma.cc 368-377) *)
  Definition pat_copier (d : init_copy) : prog unit :=
    for_each (seq 0 (length (ic_cols d))) (fun _ k =>
      for_each (nth k (ic_cols d) []) (fun _ c => Rd Pat (fun p => Wr Pat (VP (asP p ++ [(nth k (ic_rows d) 0, c)])) done1)) tt) tt.
  Definition ic_sample : init_copy := {| ic_rows := []; ic_cols := [] |}.

  (** ** Direct integrals (bem_fma.cc 735-1300) *)
  (** the resize(0) of the copy data's vectors (bem_fma.cc 747-751 and 1120-1124) *)
  Definition dc_reset (d : direct_copy) : direct_copy :=
    let d1 := {| dc_nodes := dc_nodes d; dc_start := dc_start d; dc_rows := [] |} in
    let d2 := {| dc_nodes := []; dc_start := dc_start d1; dc_rows := dc_rows d1 |} in
    {| dc_nodes := dc_nodes d2; dc_start := []; dc_rows := dc_rows d2 |}.
  (** helper_index counts the rows pushed (bem_fma.cc 812, 1013; 1130, 1255): it starts from 0, whatever the
      vectors contained *)
  Definition dc_near (d : direct_copy) (b : nat) : direct_copy :=
    let qs := near_quads I st b in
    fst (fold_left (fun (a : direct_copy * nat) i => let (cd, h) := a in
      if owned i then
        let rows := map (fun c => (c, near_row I K i c qs)) (cells_in I qs) in
        ({| dc_nodes := dc_nodes cd ++ [i]; dc_start := dc_start cd ++ [h]; dc_rows := dc_rows cd ++ rows |}, h + length rows)
      else (cd, h)) (b_nodes (getb (st_blocks st) b)) (d, 0)).
  Definition dc_big (d : direct_copy) (level b : nat) : direct_copy :=
    let qs := big_quads I st level b in
    fst (fold_left (fun (a : direct_copy * nat) i => let (cd, h) := a in
      let rows := if owned i then map (fun c => (c, regular_row I K i c qs)) (cells_in I qs) else [] in
      ({| dc_nodes := dc_nodes cd ++ [i]; dc_start := dc_start cd ++ [h]; dc_rows := dc_rows cd ++ rows |}, h + length rows))
      (b_nodes (getb (st_blocks st) b)) (d, 0)).
  (** f_worker_direct_childless_non_int_list (735-1020) and f_worker_direct_bigger_blocks (1114-1267) *)
  Definition near_work (b : nat) (d : direct_copy) : prog direct_copy := Ret (dc_near (dc_reset d) b).
  Definition big_work (level b : nat) (d : direct_copy) : prog direct_copy := Ret (dc_big (dc_reset d) level b).
  (** f_copier_direct (1026-1092): matrix.add(row, column, value) *)
  Definition direct_copier (d : direct_copy) : prog unit :=
    for_each (copier_adds I d) (fun _ a => add_to (Ent (fst (fst a)) (snd (fst a))) (snd a)) tt.
  Definition dc_sample : direct_copy := {| dc_nodes := []; dc_start := []; dc_rows := [] |}.

  (** ** multipole_integrals (bem_fma.cc 1791-1915) *)
  (** the entries the worker creates for a block: one per cell with points in it (1844-1890) *)
  Definition elem_cells (b : nat) (old : nat -> option (nat -> ME E)) : nat -> option (nat -> ME E) :=
    fold_left (fun f c => upd f c (Some (fun j => elem_exp E I st K b c j)))
              (cells_in I (b_quads (getb (st_blocks st) b))) old.
  (** f_worker_multipole_integral: copy_data.my...[blockId][cell] = ...; the maps are NOT cleared: the
      copy data still holds what earlier items put there *)
  Definition elem_worker (b : nat) (d : emap) : prog emap :=
    Ret (match cells_in I (b_quads (getb (st_blocks st) b)) with
         | [] => d
         | _ => upd d b (Some (elem_cells b (match d b with Some f => f | None => fun _ => None end)))
         end).
  (** f_copier_multipole_integral (1897-1904): std::map::insert(first, last) keeps existing keys *)
  Definition elem_copier (d : emap) : prog unit :=
    Rd Elem (fun e => Wr Elem (VE (fun b => match asE e b with Some f => Some f | None => d b end)) done1).
  Definition elem_sample : emap := fun _ => None.

  (** ** generate_multipole_expansions (bem_fma.cc 2150-2515) *)
  (** f_creation_tbb (2168-2183) *)
  Definition create_m (b : nat) : prog unit := Wr (MCen b) (VC b) (Wr (MExp b) (VM (mz E b)) done1).
  (** f_childless_creation_tbb (2227-2278): elemMultipoleExpansions[blockId][cell][jj] through
      std::map::operator[], which inserts (writes the shared map) if a key is missing *)
  Definition leaf_body (b : nat) : prog unit :=
    for_each (cells_in I (b_quads (getb (st_blocks st) b))) (fun _ c =>
      for_each (combine (seq 0 (length (o_cdofs I c))) (o_cdofs I c)) (fun _ jd =>
        Rd Elem (fun e =>
          match asE e b with
          | Some f => match f c with
                      | Some x => Rd (MExp b) (fun m => Wr (MExp b) (VM (maddc E (asM m) (x (fst jd)) (phi (snd jd)))) done1)
                      | None => Wr Elem (VE (upd (asE e) b (Some (upd f c (Some (fun _ => mz E 0)))))) done1
                      end
          | None => Wr Elem (VE (upd (asE e) b (Some (fun _ => None)))) done1
          end)) tt) tt.
  (** AscendCopyData (2407-2441; the member start is never used) *)
  Record up_copy := { uc_parent : nat; uc_exp : ME E }.
  (** f_worker_ascend (2447-2483) *)
  Definition up_worker (k : nat) (d : up_copy) : prog up_copy :=
    let d1 := {| uc_parent := uc_parent d; uc_exp := mz E 0 |} in           (* = dummy *)
    let d2 := {| uc_parent := b_parent (getb (st_blocks st) k); uc_exp := uc_exp d1 |} in
    Rd (MCen (uc_parent d2)) (fun c =>                                        (* SetCenter *)
    let d3 := {| uc_parent := uc_parent d2; uc_exp := mz E (asC c) |} in
    Rd (MExp k) (fun m => Ret {| uc_parent := uc_parent d3; uc_exp := madd E (uc_exp d3) (asM m) |})).
  (** f_copier_ascend (2487-2496) *)
  Definition up_copier (d : up_copy) : prog unit :=
    Rd (MExp (uc_parent d)) (fun m => Wr (MExp (uc_parent d)) (VM (madd E (asM m) (uc_exp d))) done1).
  Definition up_sample : up_copy := {| uc_parent := 0; uc_exp := mz E 0 |}.

  (** ** multipole_matr_vect_products (bem_fma.cc 2569-3200) *)
  (** LocalExpansion::operator= (local_expansion.cc 64-78) also executes
      [mExp_to_lExp_Coeff = other.mExp_to_lExp_Coeff], both sides being the same static object: it reads
      the table's words and writes them back (the other static table is a std::vector, whose
      self-assignment does nothing) *)
  Definition touch_table {A} (k : prog A) : prog A := Rd Tab (fun t => Wr Tab t k).
  (** f_local_creation_tbb (2619-2633) *)
  Definition create_l (b : nat) : prog unit :=
    touch_table (Wr (LCen b) (VC b) (Wr (LExp b) (VL (lz E b)) done1)).
  (** DescendCopyData (2694-2724); contributions by position in nodesBlk1Ids *)
  Record dn_copy := { nc_block : nat; nc_exp : LE E; nc_contr : nat -> R; nc_nodes : list nat }.
  (** LocalExpansion::Add(multipole) reads the table; with anything but the built table the result is
      unspecified (here: an empty expansion) *)
  Definition laddm_t (t : val) (l : LE E) (m : ME E) : LE E := if asT t then laddm E l m else lz E 0.
  (** one subLevel of f_worker_Descend (2797-2911) *)
  Definition dn_sub (b level : nat) (nodes : list nat) (a : LE E * (nat -> R)) (s : nat) : prog (LE E * (nat -> R)) :=
    bind (for_each (same_size I st level b s)
            (fun l c => Rd (MExp c) (fun m => Rd Tab (fun t => Ret (laddm_t t l (asM m))))) (fst a)) (fun l =>
    bind (for_each (smaller I st level b s)
            (fun r c => for_each (seq 0 (length nodes))
               (fun r ii => Rd (MExp c) (fun m => Ret (upd r ii (aadd (r ii) (evM E (asM m) (nth ii nodes 0%nat)))))) r) (snd a)) (fun r =>
    Ret (l, r))).
  (** f_worker_Descend (2733-2914) *)
  Definition dn_worker (b : nat) (d : dn_copy) : prog dn_copy :=
    let d1 := {| nc_block := b; nc_exp := nc_exp d; nc_contr := nc_contr d; nc_nodes := nc_nodes d |} in
    Rd (LCen b) (fun c =>
    touch_table (                                                             (* = dummy *)
    let d2 := {| nc_block := nc_block d1; nc_exp := lz E (asC c); nc_contr := nc_contr d1; nc_nodes := nc_nodes d1 |} in
    let level := level_of_id I st b in
    let nodes := b_nodes (getb (st_blocks st) b) in
    let d3 := {| nc_block := nc_block d2; nc_exp := nc_exp d2; nc_contr := nc_contr d2; nc_nodes := nodes |} in
    let d4 := {| nc_block := nc_block d3; nc_exp := nc_exp d3; nc_contr := fun _ => 0%R; nc_nodes := nc_nodes d3 |} in   (* reinit *)
    if existsb owned nodes then
      Rd (LExp (b_parent (getb (st_blocks st) b))) (fun lp =>
      bind (for_each (seq 0 (near_levels I st b)) (dn_sub b level nodes) (laddl E (nc_exp d4) (asL lp), nc_contr d4))
           (fun a => Ret {| nc_block := nc_block d4; nc_exp := fst a; nc_contr := snd a; nc_nodes := nc_nodes d4 |}))
    else Ret d4)).
  (** f_copier_Descend (2919-2933) *)
  Definition dn_copier (d : dn_copy) : prog unit :=
    Rd (LExp (nc_block d)) (fun l => Wr (LExp (nc_block d)) (VL (laddl E (asL l) (nc_exp d)))
      (for_each (seq 0 (length (nc_nodes d))) (fun _ ii => add_to (Out (nth ii (nc_nodes d) 0)) (nc_contr d ii)) tt)).
  Definition dn_sample : dn_copy := {| nc_block := 0; nc_exp := lz E 0; nc_contr := fun _ => 0%R; nc_nodes := [] |}.
  (** f_local_evaluation_tbb (3166-3193) *)
  Definition eval_body (b : nat) : prog unit :=
    for_each (b_nodes (getb (st_blocks st) b)) (fun _ i =>
      if owned i then Rd (LExp b) (fun l => add_to (Out i) (evL E (asL l) i)) else done1) tt.

  (** ** The preconditioner's pattern and values (bem_fma.cc 3311-3570) *)
  Variable nd : nat.                                  (* n_dofs *)
  Variable cons : nat -> option (list (nat * R)).     (* the constraint lines *)
  (** PrecCopy (3316-3330); [None] is invalid_unsigned_int *)
  Record prec_copy := { pc_row : option nat; pc_cols : list nat }.
  (** f_worker_prec (3331-3367): the row is only set for owned dofs; otherwise it keeps the row of an
      earlier item *)
  Definition fpat_worker (i : nat) (d : prec_copy) : prog prec_copy :=
    let d1 := {| pc_row := pc_row d; pc_cols := [] |} in
    if owned i then
      let d2 := {| pc_row := Some i; pc_cols := pc_cols d1 |} in
      match cons i with
      | Some es => Ret {| pc_row := pc_row d2; pc_cols := pc_cols d2 ++ [i] ++ map fst es |}
      | None => for_each (seq 0 nd) (fun d j => Rd Pat (fun p =>
                  Ret (if existsb (fun e => Nat.eqb (fst e) i && Nat.eqb (snd e) j) (asP p)
                       then {| pc_row := pc_row d; pc_cols := pc_cols d ++ [j] |} else d))) d2
      end
    else Ret d1.
  (** f_copier_prec (3370-3384) *)
  Definition fpat_copier (d : prec_copy) : prog unit :=
    match pc_row d with
    | Some r => if owned r then for_each (pc_cols d) (fun _ c => Rd FPat (fun p => Wr FPat (VP (asP p ++ [(r, c)])) done1)) tt else done1
    | None => done1
    end.
  Definition fpat_sample : prec_copy := {| pc_row := None; pc_cols := [] |}.
  (** f_sparsity_filler_tbb (3405-3448); [init] is init_preconditioner *)
  Variable init : nat -> nat -> R.
  Definition fill_body (i : nat) : prog unit :=
    if owned i then
      match cons i with
      | Some es => Wr (Prec i i) (VR 1) (for_each es (fun _ e => Wr (Prec i (fst e)) (VR (snd e)) done1) tt)
      | None => for_each (seq 0 nd) (fun _ j => Rd Pat (fun p =>
                  if existsb (fun e => Nat.eqb (fst e) i && Nat.eqb (snd e) j) (asP p)
                  then Wr (Prec i j) (VR (init i j)) done1 else done1)) tt
      end
    else done1.
  (** f_alpha_adder_tbb (3518-3535) *)
  Variable dirichlet : nat -> R.
  Variable alpha : nat -> R.
  Definition alpha_body (i : nat) : prog unit :=
    if owned i then
      match cons i with
      | None => if Req_EM_T (dirichlet i) 0 then add_to (Prec i i) (alpha i) else add_to (Prec i i) 0
      | Some _ => add_to (Prec i i) 0
      end
    else done1.

  (** ** The loops in program order *)
  Definition ws {X D} (worker : X -> D -> prog D) (copier : D -> prog unit) (sample : D) (items : list X) (m m' : mem) : Prop :=
    exists n dn, work_stream loc val loc_eqb loc_word X D worker copier n items sample m m' dn.
  Definition pf {X} (items : list X) (body : X -> prog unit) (m m' : mem) : Prop :=
    parallel_for loc val loc_eqb loc_word items body m m'.
  Fixpoint over (ls : list nat) (loop : nat -> mem -> mem -> Prop) (m m' : mem) : Prop :=
    match ls with [] => m' = m | l :: r => exists m1, loop l m m1 /\ over r loop m1 m' end.
  Definition levels := seq 1 (o_N I).
  Definition dfill (level : nat) : list nat := nth level (st_dfill st) [].

  (** the sparsity loops of direct_integrals (383-392, 478-590) *)
  Definition pattern_run (m m' : mem) : Prop :=
    exists m1, ws pat_worker pat_copier ic_sample (st_childless st) m m1 /\
               over levels (fun l => ws (pat_level_worker l) pat_copier ic_sample (dfill l)) m1 m'.
  (** the integration loops of direct_integrals (1096-1105, 1271-1295) *)
  Definition direct_run (m m' : mem) : Prop :=
    exists m1, ws near_work direct_copier dc_sample (st_childless st) m m1 /\
               over levels (fun l => ws (big_work l) direct_copier dc_sample (dfill l)) m1 m'.
  (** multipole_integrals (1909-1914) *)
  Definition elem_run : mem -> mem -> Prop := ws elem_worker elem_copier elem_sample (st_childless st).
  (** generate_multipole_expansions (2185, 2280, 2498-2515) *)
  Definition up_run (m m' : mem) : Prop :=
    exists m1 m2, pf (seq 0 (num_blocks st)) create_m m m1 /\ pf (st_childless st) leaf_body m1 m2 /\
                  over (rev levels) (fun l => ws up_worker up_copier up_sample (level_ids st l)) m2 m'.
  (** prec_matrix.vmult(result, values) (2589-2590) *)
  Definition vmult_run (m m' : mem) : Prop :=
    forall l, m' l = match l with
      | Out i => VR (fold_left (fun a d => aadd a (amul (asR (m (Ent i d))) (phi d))) (seq 0 (o_nd I)) 0%R)
      | _ => m l end.
  (** multipole_matr_vect_products (2569-3200) *)
  Definition down_run (m m' : mem) : Prop :=
    exists m1 m2 m3, vmult_run m m1 /\ pf (seq 0 (num_blocks st)) create_l m1 m2 /\
                  over levels (fun l => ws dn_worker dn_copier dn_sample (dfill l)) m2 m3 /\ pf (st_childless st) eval_body m3 m'.
  (** direct_integrals; multipole_integrals; generate_multipole_expansions;
      multipole_matr_vect_products.  [m] is any memory in which the matrices and the map have just been
      cleared (prec_neumann_matrix.reinit 677, elemMultipoleExpansions.clear 1770) *)
  Definition fmm_start (m : mem) : Prop :=
    (forall i d, m (Ent i d) = VR 0) /\ m Elem = VE elem_sample /\ m Tab = VT true.
  Definition fmm_run (m m' : mem) : Prop :=
    exists m1 m2 m3, direct_run m m1 /\ elem_run m1 m2 /\ up_run m2 m3 /\ down_run m3 m'.
  (** the loops of FMA_preconditioner (3391, 3451, 3537): pattern and values *)
  Definition prec_run (m m' : mem) : Prop :=
    exists m1 m2, ws fpat_worker fpat_copier fpat_sample (seq 0 nd) m m1 /\ pf (seq 0 nd) fill_body m1 m2 /\ pf (seq 0 nd) alpha_body m2 m'.
End Work.
