(** * The fast multipole products: direct near field, multipole and local expansions.

    Models BEMFMA<3>::direct_integrals (source/bem_fma.cc 127-1742), multipole_integrals
    (1750-1999), generate_multipole_expansions (2130-2559) and multipole_matr_vect_products
    (2569-3284) on top of the octree of ModelOctree.

    Simplifications: one kernel at a time (the Neumann/"Ker1" and Dirichlet/"Ker2" halves of every
    loop are the same program with different kernels); node and block indices stand
    for their positions and centres; expansions are an abstract type with the operations the loops
    use (the operations themselves are modelled elsewhere).  WorkStream::run(worker, copier) is a
    sequential loop over the items in some order: the copier is never run concurrently with itself
    and workers only read what no copier of the same loop writes; the order is a parameter. *)
From Coq Require Import Reals List Arith Bool.
From Verif Require Import ModelOctree.
Import ListNotations.
Local Open Scope nat_scope.

(** The arithmetic of doubles (+, *, / and numbers::PI) is a parameter: the values are reals, the
    operations may round in any way.  [exact_arith], real arithmetic, is what is meant where no other
    is given. *)
Class arith := { aadd : R -> R -> R; amul : R -> R -> R; adiv : R -> R -> R; api : R }.
#[global] Instance exact_arith : arith := {| aadd := Rplus; amul := Rmult; adiv := Rdiv; api := PI |}.

(** ** Which quadrature points are integrated directly, converted, or evaluated *)

Definition quads_of_blocks (st : ost) (l : list nat) : list nat :=
  nub (flat_map (fun c => b_quads (getb (st_blocks st) c)) l).

(** directQuadPoints of f_worker_direct_childless_non_int_list (bem_fma.cc 756-800): points of the
    blocks of the last interaction list, as a set *)
Definition near_quads (I : oin) (st : ost) (b : nat) : list nat := quads_of_blocks st (last_int I st b).

(** blocks of nonIntList(subLevel) before lower_bound(startBlockLevel) (bem_fma.cc 1160-1170) *)
Definition bigger (I : oin) (st : ost) (level b s : nat) : list nat :=
  filter (fun c => Nat.ltb c (startL st level)) (nonint_list I st b s).
(** directQuadPoints of f_worker_direct_bigger_blocks (bem_fma.cc 1150-1195) *)
Definition big_quads (I : oin) (st : ost) (level b : nat) : list nat :=
  quads_of_blocks st (flat_map (bigger I st level b) (seq 0 (near_levels I st b))).

(** from lower_bound(startBlockLevel) to upper_bound(endBlockLevel) (bem_fma.cc 2820-2835) *)
Definition same_size (I : oin) (st : ost) (level b s : nat) : list nat :=
  filter (fun c => Nat.leb (startL st level) c && Nat.leb c (endL st level)) (nonint_list I st b s).
(** from upper_bound(endBlockLevel) (bem_fma.cc 2870-2880) *)
Definition smaller (I : oin) (st : ost) (level b s : nat) : list nat :=
  filter (fun c => Nat.ltb (endL st level) c) (nonint_list I st b s).

(** the level recovered by f_worker_Descend from the id (bem_fma.cc 2755-2763) *)
Definition level_of_id (I : oin) (st : ost) (k : nat) : nat :=
  match find (fun l => Nat.leb (startL st l) k && Nat.leb k (endL st l)) (seq 0 (S (o_N I))) with
  | Some l => l | None => 0 end.

(** every way in which the loops account for the pair (node, quadrature point): the quantity the
    commented-out integralCheck counters of the code count *)
Inductive way := Near (b : nat) | Big (b : nat) | M2L (b c : nat) | MEval (b c : nat).

Definition mem (x : nat) (l : list nat) : bool := existsb (Nat.eqb x) l.

Definition near_ways (I : oin) (st : ost) (i q : nat) : list way :=
  flat_map (fun b => if mem i (b_nodes (getb (st_blocks st) b)) && mem q (near_quads I st b) then [Near b] else [])
           (st_childless st).
Definition big_ways (I : oin) (st : ost) (level i q : nat) : list way :=
  flat_map (fun b => if mem i (b_nodes (getb (st_blocks st) b)) && mem q (big_quads I st level b) then [Big b] else [])
           (nth level (st_dfill st) []).
Definition far_ways (I : oin) (st : ost) (level i q : nat) : list way :=
  flat_map (fun b => if mem i (b_nodes (getb (st_blocks st) b)) then
      flat_map (fun s =>
        flat_map (fun c => if mem q (b_quads (getb (st_blocks st) c)) then [M2L b c] else []) (same_size I st level b s) ++
        flat_map (fun c => if mem q (b_quads (getb (st_blocks st) c)) then [MEval b c] else []) (smaller I st level b s))
        (seq 0 (near_levels I st b))
    else []) (nth level (st_dfill st) []).
Definition ways (I : oin) (st : ost) (i q : nat) : list way :=
  near_ways I st i q ++
  flat_map (fun level => big_ways I st level i q ++ far_ways I st level i q) (seq 1 (o_N I)).

(** ** Direct integration (bem_fma.cc 735-1295) *)

(** kernel data: [kd i q] the kernel between node i and point q (times the normal for Ker1),
    [shp q j] shape function value, [jxw q]; [sing i c j] the result of the singular quadrature on
    cell c for local function j (bem_fma.cc 930-1005) *)
Record kern := { kd : nat -> nat -> R; shp : nat -> nat -> R; jxw : nat -> R; sing : nat -> nat -> nat -> R }.

(** is_singular: a local dof of the cell is in the double set of the node (bem_fma.cc 855-868) *)
Definition is_singular (I : oin) (i c : nat) : bool := existsb (fun d => mem d (o_dbl I i)) (o_cdofs I c).

(** keys of the map<cell, set<q>> *)
Definition cells_in (I : oin) (qs : list nat) : list nat := nub (map (cell_of I) qs).
Definition cell_quads (I : oin) (qs : list nat) (c : nat) : list nat := filter (fun q => Nat.eqb (cell_of I q) c) qs.

(** one entry of vec_local_*_matrix_row_i: the local dof indices and the row (bem_fma.cc 832-1010) *)
Definition regular_row `{arith} (I : oin) (K : kern) (i c : nat) (qs : list nat) : nat -> R :=
  fun j => fold_left (fun a q => aadd a (amul (amul (kd K i q) (shp K q j)) (jxw K q))) (cell_quads I qs c) 0%R.
Definition near_row `{arith} (I : oin) (K : kern) (i c : nat) (qs : list nat) : nat -> R :=
  if is_singular I i c then sing K i c else regular_row I K i c qs.

(** DirectCopyData: node indices, start positions, and the rows as (cell, row) *)
Record direct_copy := { dc_nodes : list nat; dc_start : list nat; dc_rows : list (nat * (nat -> R)) }.

(** loop over the nodes of the block (bem_fma.cc 801-1020): only owned nodes are recorded *)
Definition near_worker `{arith} (I : oin) (st : ost) (K : kern) (owned : nat -> bool) (b : nat) : direct_copy :=
  let qs := near_quads I st b in
  fold_left (fun cd i =>
      if owned i then
        {| dc_nodes := dc_nodes cd ++ [i]; dc_start := dc_start cd ++ [length (dc_rows cd)];
           dc_rows := dc_rows cd ++ map (fun c => (c, near_row I K i c qs)) (cells_in I qs) |}
      else cd)
    (b_nodes (getb (st_blocks st) b)) {| dc_nodes := []; dc_start := []; dc_rows := [] |}.

(** bem_fma.cc 1114-1267: every node is recorded, rows only for owned nodes *)
Definition big_worker `{arith} (I : oin) (st : ost) (K : kern) (owned : nat -> bool) (level b : nat) : direct_copy :=
  let qs := big_quads I st level b in
  fold_left (fun cd i =>
      {| dc_nodes := dc_nodes cd ++ [i]; dc_start := dc_start cd ++ [length (dc_rows cd)];
         dc_rows := dc_rows cd ++
           (if owned i then map (fun c => (c, regular_row I K i c qs)) (cells_in I qs) else []) |})
    (b_nodes (getb (st_blocks st) b)) {| dc_nodes := []; dc_start := []; dc_rows := [] |}.

(** rows of the ii-th recorded node: from vec_start_helper[ii] to the next start or the end
    (bem_fma.cc 1034-1043) *)
Definition slice (cd : direct_copy) (ii : nat) : list (nat * (nat -> R)) :=
  let s := nth ii (dc_start cd) 0 in
  let e := if Nat.ltb ii (length (dc_nodes cd) - 1) then nth (S ii) (dc_start cd) 0 else length (dc_rows cd) in
  firstn (e - s) (skipn s (dc_rows cd)).

(** all matrix.add(row, column, value) calls of f_copier_direct (bem_fma.cc 1026-1092), in order *)
Definition copier_adds (I : oin) (cd : direct_copy) : list (nat * nat * R) :=
  flat_map (fun ii => flat_map (fun cr => map (fun jd => (nth ii (dc_nodes cd) 0, snd jd, snd cr (fst jd)))
                                             (combine (seq 0 (length (o_cdofs I (fst cr)))) (o_cdofs I (fst cr))))
                               (slice cd ii))
           (seq 0 (length (dc_nodes cd))).

(** all adds of direct_integrals; the orders in which the items are processed are arguments
    (bem_fma.cc 1096-1105 and 1271-1295) *)
Definition direct_adds `{arith} (I : oin) (st : ost) (K : kern) (owned : nat -> bool)
           (cl_order : list nat) (lv_order : nat -> list nat) : list (nat * nat * R) :=
  flat_map (fun b => copier_adds I (near_worker I st K owned b)) cl_order ++
  flat_map (fun level => flat_map (fun b => copier_adds I (big_worker I st K owned level b)) (lv_order level))
           (seq 1 (o_N I)).

(** prec_neumann_matrix / prec_dirichlet_matrix after the loops: sum of the adds at an entry *)
Definition entry `{arith} (adds : list (nat * nat * R)) (i d : nat) : R :=
  fold_left (fun a x => if Nat.eqb (fst (fst x)) i && Nat.eqb (snd (fst x)) d then aadd a (snd x) else a) adds 0%R.

(** ** Sparsity pattern (bem_fma.cc 262-345 and 470-600) *)

(** directNodes: dofs of the cells of the points of the blocks *)
Definition dofs_of_blocks (I : oin) (st : ost) (l : list nat) : list nat :=
  nub (flat_map (fun b2 => flat_map (fun c => o_cdofs I c) (cells_in I (b_quads (getb (st_blocks st) b2)))) l).

Definition near_pattern (I : oin) (st : ost) (owned : nat -> bool) (b : nat) : list (nat * nat) :=
  flat_map (fun i => map (fun d => (i, d)) (dofs_of_blocks I st (last_int I st b)))
           (filter owned (b_nodes (getb (st_blocks st) b))).
Definition level_pattern (I : oin) (st : ost) (owned : nat -> bool) (level b : nat) : list (nat * nat) :=
  flat_map (fun s => flat_map (fun i => map (fun d => (i, d)) (dofs_of_blocks I st (bigger I st level b s)))
                              (filter owned (b_nodes (getb (st_blocks st) b))))
           (seq 0 (near_levels I st b)).
Definition sparsity (I : oin) (st : ost) (owned : nat -> bool) : list (nat * nat) :=
  flat_map (near_pattern I st owned) (st_childless st) ++
  flat_map (fun level => flat_map (level_pattern I st owned level) (nth level (st_dfill st) [])) (seq 1 (o_N I)).

(** ** Expansions *)

(** The operations used by the loops.  [mz b], [lz b]: empty expansions centred in block b;
    [msrc m w q]: MultipoleExpansion::Add(w, point) or AddNormDer; [madd]: Add(other) with
    translation; [maddc]: Add(other, coefficient); [laddl]: LocalExpansion::Add(local) with
    translation; [laddm]: LocalExpansion::Add(multipole); [evM], [evL]: Evaluate at a node. *)
Record eops := {
  ME : Type; LE : Type;
  mz : nat -> ME; msrc : ME -> R -> nat -> ME; madd : ME -> ME -> ME; maddc : ME -> ME -> R -> ME;
  lz : nat -> LE; laddl : LE -> LE -> LE; laddm : LE -> ME -> LE;
  evM : ME -> nat -> R; evL : LE -> nat -> R }.

Section Expansions.
  Context {AR : arith}.
  Variable E : eops.
  Variable I : oin.
  Variable st : ost.
  Variable K : kern.
  Variable phi : nat -> R.        (* phi_values (Ker1) or dphi_dn_values (Ker2) *)

  (** elemMultipoleExpansions[b][c][j] (bem_fma.cc 1810-1880): strength shape*JxW/4/pi *)
  Definition elem_exp (b c j : nat) : ME E :=
    fold_left (fun m q => msrc E m (adiv (adiv (amul (shp K q j) (jxw K q)) 4) api) q)
              (cell_quads I (b_quads (getb (st_blocks st) b)) c) (mz E b).

  Definition upd {T} (f : nat -> T) (k : nat) (v : T) : nat -> T := fun j => if Nat.eqb j k then v else f j.

  (** leaf expansions (bem_fma.cc 2213-2268) *)
  Definition leaf_exp (b : nat) (m : ME E) : ME E :=
    fold_left (fun m c => fold_left (fun m jd => maddc E m (elem_exp b c (fst jd)) (phi (snd jd)))
                                    (combine (seq 0 (length (o_cdofs I c))) (o_cdofs I c)) m)
              (cells_in I (b_quads (getb (st_blocks st) b))) m.
  Definition leaves (order : list nat) : nat -> ME E :=
    fold_left (fun M b => upd M b (leaf_exp b (M b))) order (mz E).

  (** f_worker_ascend + f_copier_ascend for one block (bem_fma.cc 2478-2520) *)
  Definition ascend1 (M : nat -> ME E) (k : nat) : nat -> ME E :=
    let p := b_parent (getb (st_blocks st) k) in
    upd M p (madd E (M p) (madd E (mz E p) (M k))).
  (** loop over levels N..1 (bem_fma.cc 2522-2555); [lv_order level] is the processing order *)
  Definition ascend (lv_order : nat -> list nat) (M : nat -> ME E) : nat -> ME E :=
    fold_left (fun M level => fold_left ascend1 (lv_order level) M) (rev (seq 1 (o_N I))) M.

  Variable owned : nat -> bool.

  (** f_worker_Descend (bem_fma.cc 2733-2914): the new local expansion and the contributions to the
      nodes of the block *)
  Definition descend_local (M : nat -> ME E) (L : nat -> LE E) (b : nat) : LE E :=
    let level := level_of_id I st b in
    fold_left (fun l s => fold_left (fun l c => laddm E l (M c)) (same_size I st level b s) l)
              (seq 0 (near_levels I st b)) (laddl E (lz E b) (L (b_parent (getb (st_blocks st) b)))).
  Definition descend_eval (M : nat -> ME E) (b i : nat) : R :=
    let level := level_of_id I st b in
    fold_left (fun a s => fold_left (fun a c => aadd a (evM E (M c) i)) (smaller I st level b s) a)
              (seq 0 (near_levels I st b)) 0%R.

  (** worker and copier for one block (2919-2933); without owned nodes the worker adds nothing *)
  Definition descend1 (M : nat -> ME E) (s : (nat -> LE E) * (nat -> R)) (b : nat) : (nat -> LE E) * (nat -> R) :=
    let (L, out) := s in
    let on := existsb owned (b_nodes (getb (st_blocks st) b)) in
    let l := if on then descend_local M L b else lz E b in
    (upd L b (laddl E (L b) l),
     fold_left (fun o i => upd o i (aadd (o i) (if on then descend_eval M b i else 0%R))) (b_nodes (getb (st_blocks st) b)) out).
  Definition descend (M : nat -> ME E) (lv_order : nat -> list nat) (out : nat -> R) : (nat -> LE E) * (nat -> R) :=
    fold_left (fun s level => fold_left (descend1 M) (lv_order level) s) (seq 1 (o_N I)) (lz E, out).

  (** final evaluation on the childless blocks (bem_fma.cc 3166-3198) *)
  Definition evaluate (L : nat -> LE E) (order : list nat) (out : nat -> R) : nat -> R :=
    fold_left (fun o b => fold_left (fun o i => if owned i then upd o i (aadd (o i) (evL E (L b) i)) else o)
                                    (b_nodes (getb (st_blocks st) b)) o) order out.
End Expansions.

(** orders of the seven parallel loops *)
Record sched := {
  s_direct : list nat; s_big : nat -> list nat; s_leaves : list nat;
  s_up : nat -> list nat; s_down : nat -> list nat; s_eval : list nat }.

(** multipole_matr_vect_products after direct_integrals, multipole_integrals and
    generate_multipole_expansions: row i of the product (vmult of the near matrix first,
    bem_fma.cc 2600-2601) *)
Definition fmm_product `{arith} (E : eops) (I : oin) (st : ost) (K : kern) (phi : nat -> R) (owned : nat -> bool) (s : sched) : nat -> R :=
  let adds := direct_adds I st K owned (s_direct s) (s_big s) in
  let out0 := fun i => fold_left (fun a d => aadd a (amul (entry adds i d) (phi d))) (seq 0 (o_nd I)) 0%R in
  let M := ascend E I st (s_up s) (leaves E I st K phi (s_leaves s)) in
  let (L, out) := descend E I st owned M (s_down s) out0 in
  evaluate E st owned L (s_eval s) out.
