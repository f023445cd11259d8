(** * Octree generation and proximity lists (3D).

    Models BEMFMA<dim>::generate_octree_blocking, source/bem_fma.cc 3850-5208, for dim = 3
    (the FMA is refused in 2D: "BEMFMA only 3D").

    Simplifications, valid for the whole file:
    - doubles are rationals (Q), so that the model can be run; every sum, difference and product of
      coordinates is followed by the rounding function [o_rnd], an ARBITRARY function Q -> Q: the
      theorems of the file PropOctree that do not ask [o_rnd] to be the identity hold for floating
      point coordinates.  Halving (delta /= 2., delta/2.) and doubling are exact in binary floating
      point (no underflow) and are not rounded; neither is the node count blockNumNodes;
    - the map<cell, vector<local index>> of quadrature points of a block is one list of global
      quadrature ids in map order; id = cell * (points per cell) + local index;
    - std::set is a duplicate-free list (only membership and multiplicity matter);
    - writing blocks[i] outside the allocated array is not part of this file: the allocated
      length is [o_storage] and the count reached is [length (st_blocks _)] (property C34);
    - the map dof_to_elems left by earlier calls is the field o_old, restricted to what it can do;
    - printouts, numParent (length of parentList), quadPointsCheck etc. are left out. *)
From Coq Require Import QArith Qabs Qminmax Qround ZArith List Lia Arith Bool.
Import ListNotations.
Local Open Scope nat_scope.

(** deal.II Point<3> *)
Record pt := mkpt { px : Q; py : Q; pz : Q }.

(** What generate_octree_blocking reads: the parameters num_octree_levels and
    max_num_nodes_per_block (bem_fma.cc 100-110), the support points, the quadrature points of
    every cell (3973-3990), the double nodes sets, and the dof indices of every cell. *)
Record oin := {
  o_N : nat;                    (* num_octree_levels *)
  o_max : nat;                  (* max_num_nodes_per_block *)
  o_nd : nat;                   (* fma_dh->n_dofs() *)
  o_pos : nat -> pt;            (* support_points *)
  o_nc : nat;                   (* n_active_cells() *)
  o_nqc : nat;                  (* fe_v.n_quadrature_points *)
  o_qpos : nat -> pt;           (* quadPoints[cell][q], flattened *)
  o_dbl : nat -> list nat;      (* double_nodes_set *)
  o_cdofs : nat -> list nat;    (* cell->get_dof_indices *)
  o_rnd : Q -> Q;               (* rounding of the results of double arithmetic on coordinates *)
  o_old : nat -> list nat       (* dof_to_elems before the call: generate_octree_blocking appends to
                                   this map and never clears it (only compute_geometry_cache, 3689,
                                   does, and nothing calls that) *)
}.

Definition o_nq (I : oin) : nat := o_nc I * o_nqc I.
(** key of the map entry that holds the quadrature point (bem_fma.cc 3990-3994) *)
Definition cell_of (I : oin) (q : nat) : nat := q / o_nqc I.
(** quadPoints[cell], as global ids (bem_fma.cc 3977) *)
Definition quads_of_cell (I : oin) (c : nat) : list nat := seq (c * o_nqc I) (o_nqc I).
(** dof_to_elems[d] (bem_fma.cc 3989-3993): what was there, then one push per local index equal to
    d.  Entries left from another mesh whose cell is not active any more have no quadrature points
    (quadPoints was cleared and quadPoints[cell] creates an empty vector), so they count for
    nothing; an id below o_nc is a cell that still exists. *)
Definition dof_elems (I : oin) (d : nat) : list nat :=
  filter (fun c => Nat.ltb c (o_nc I)) (o_old I d) ++
  flat_map (fun c => map (fun _ => c) (filter (Nat.eqb d) (o_cdofs I c))) (seq 0 (o_nc I)).

(** OctreeBlock<dim> (include/octree_block.h): level, parent, corner, side, nodes, quadrature
    points, children.  The proximity lists are computed separately below. *)
Record block := mkblock {
  b_level : nat; b_parent : nat; b_min : pt; b_delta : Q;
  b_nodes : list nat; b_quads : list nat; b_kids : list nat }.

Definition dblock : block := mkblock 0 0 (mkpt 0 0 0) 0%Q [] [] [].

(** max_coor_value (bem_fma.cc 3871-3882) *)
Definition max_coord (I : oin) : Q :=
  fold_left (fun m i => let p := o_pos I i in
               Qmax (Qmax (Qmax m (Qabs (px p))) (Qabs (py p))) (Qabs (pz p)))
            (seq 0 (o_nd I)) 0%Q.

(** root block (bem_fma.cc 3957-3965, 3988-4006) *)
Definition root_block (I : oin) : block :=
  let m := max_coord I in
  let c := o_rnd I (- (o_rnd I (11 # 10)) * m)%Q in
  mkblock 0 0 (mkpt c c c) (o_rnd I (o_rnd I (22 # 10) * m)%Q) (seq 0 (o_nd I)) (seq 0 (o_nq I)) [].

(** maxNumBlocks (bem_fma.cc 3890-3892) *)
Definition o_storage (I : oin) : nat := o_N I * o_nc I * o_nqc I.

(** child corners (bem_fma.cc 4054-4070) *)
Definition child_min (r : Q -> Q) (m : pt) (d : Q) (c : nat) : pt :=
  match c with
  | 0 => m
  | 1 => mkpt (r (px m + d)%Q) (py m) (pz m)
  | 2 => mkpt (r (px m + d)%Q) (r (py m + d)%Q) (pz m)
  | 3 => mkpt (px m) (r (py m + d)%Q) (pz m)
  | 4 => mkpt (px m) (py m) (r (pz m + d)%Q)
  | 5 => mkpt (r (px m + d)%Q) (py m) (r (pz m + d)%Q)
  | 6 => mkpt (r (px m + d)%Q) (r (py m + d)%Q) (r (pz m + d)%Q)
  | _ => mkpt (px m) (r (py m + d)%Q) (r (pz m + d)%Q)
  end.

(** nested tests that choose the child of a point (bem_fma.cc 4103-4164 for nodes, 4178-4241 for
    quadrature points) *)
Definition octant (r : Q -> Q) (m : pt) (d : Q) (p : pt) : nat :=
  if Qle_bool (pz p) (r (pz m + d)%Q) then
    if Qle_bool (py p) (r (py m + d)%Q) then
      if Qle_bool (px p) (r (px m + d)%Q) then 0 else 1
    else
      if Qle_bool (px p) (r (px m + d)%Q) then 3 else 2
  else
    if Qle_bool (py p) (r (py m + d)%Q) then
      if Qle_bool (px p) (r (px m + d)%Q) then 4 else 5
    else
      if Qle_bool (px p) (r (px m + d)%Q) then 7 else 6.

(** children[c] after the assignment loops (bem_fma.cc 4052-4243) *)
Definition child_block (I : oin) (level jj : nat) (delta : Q) (b : block) (c : nat) : block :=
  mkblock level jj (child_min (o_rnd I) (b_min b) delta c) delta
    (filter (fun n => Nat.eqb (octant (o_rnd I) (b_min b) delta (o_pos I n)) c) (b_nodes b))
    (filter (fun q => Nat.eqb (octant (o_rnd I) (b_min b) delta (o_qpos I q)) c) (b_quads b))
    [].

(** the emptiness test of bem_fma.cc 4247-4250 *)
Definition nonempty (b : block) : bool := Nat.ltb 0 (length (b_nodes b) + length (b_quads b)).

(** State of the level loop. *)
Record ost := {
  st_blocks : list block;            (* blocks[0..blocksCount] *)
  st_qtb : nat -> list nat;          (* quad_point_to_block *)
  st_dtb : nat -> list nat;          (* dof_to_block *)
  st_parents : list nat;             (* parentList[level] of the last processed level *)
  st_childless : list nat;           (* childlessList *)
  st_start : list nat;               (* startLevel *)
  st_end : list nat;                 (* endLevel *)
  st_dfill : list (list nat);        (* dofs_filled_blocks *)
  st_qfill : list (list nat)         (* quad_points_filled_blocks *)
}.

Definition getb (bs : list block) (i : nat) : block := nth i bs dblock.

(** push_back of [x] on the vectors of all keys of [l] *)
Definition push_all (l : list nat) (x : nat) (f : nat -> list nat) : nat -> list nat :=
  fold_left (fun f k => fun k' => if Nat.eqb k' k then f k ++ [x] else f k') l f.

(** parent->AddChild (octree_block.cc AddChild; childrenId has room for 8, see ModelOctBlock) *)
Definition add_kid (bs : list block) (jj x : nat) : list block :=
  let b := getb bs jj in
  firstn jj bs ++
  mkblock (b_level b) (b_parent b) (b_min b) (b_delta b) (b_nodes b) (b_quads b) (b_kids b ++ [x])
  :: skipn (S jj) bs.

(** body of the loop over children, bem_fma.cc 4245-4281: append a copy of the child, AddChild,
    push the new id for the child's quadrature points, push [jj] (sic: 4274-4281 push the parent)
    for the PARENT's nodes. *)
Definition add_child (jj : nat) (st : ost) (kid : block) : ost :=
  if nonempty kid then
    let x := length (st_blocks st) in
    let par := getb (st_blocks st) jj in
    {| st_blocks := add_kid (st_blocks st) jj x ++ [kid];
       st_qtb := push_all (b_quads kid) x (st_qtb st);
       st_dtb := push_all (b_nodes par) jj (st_dtb st);
       st_parents := st_parents st; st_childless := st_childless st;
       st_start := st_start st; st_end := st_end st;
       st_dfill := st_dfill st; st_qfill := st_qfill st |}
  else st.

(** one pass of the loop over parents, bem_fma.cc 4035-4425 *)
Definition split_block (I : oin) (level : nat) (delta : Q) (st : ost) (jj : nat) : ost :=
  let par := getb (st_blocks st) jj in
  fold_left (add_child jj) (map (child_block I level jj delta par) (seq 0 8)) st.

(** blockNumNodes (bem_fma.cc 4452-4462).  1/0 is 0 here and infinity in C++: a node's own set
    of doubles is never empty. *)
Definition block_weight (I : oin) (b : block) : Q :=
  fold_left (fun w n => (w + 1 / inject_Z (Z.of_nat (length (o_dbl I n))))%Q) (b_nodes b) 0%Q.

(** C round(): halves away from zero; the weights are non-negative *)
Definition qround (w : Q) : Z := Qfloor (w + (1 # 2))%Q.

(** classification of one new block, bem_fma.cc 4447-4503 *)
Definition classify (I : oin) (level : nat) (st : ost) (jj : nat) : ost :=
  let b := getb (st_blocks st) jj in
  let w := block_weight I b in
  let small := Z.leb (qround w) (Z.of_nat (o_max I)) in
  let rest := o_N I - level in                     (* j = level+1 .. num_octree_levels *)
  {| st_blocks := st_blocks st;
     st_qtb := if small then
                 fold_left (fun f q => fold_left (fun f _ => push_all [q] jj f) (seq 0 rest) f)
                           (b_quads b) (st_qtb st)
               else st_qtb st;
     st_dtb := if small then
                 fold_left (fun f n => fold_left (fun f _ => push_all [n] jj f) (seq 0 rest) f)
                           (b_nodes b) (st_dtb st)
               else st_dtb st;
     st_parents := if small then st_parents st else st_parents st ++ [jj];
     st_childless := if small then st_childless st ++ [jj] else st_childless st;
     st_start := st_start st; st_end := st_end st;
     st_dfill := if negb (Qle_bool w 0%Q)
                 then firstn level (st_dfill st) ++ [nth level (st_dfill st) [] ++ [jj]]
                 else st_dfill st;
     st_qfill := if Nat.ltb 0 (length (b_quads b))
                 then firstn level (st_qfill st) ++ [nth level (st_qfill st) [] ++ [jj]]
                 else st_qfill st |}.

(** startLevel[level], endLevel[level] and the fresh parentList[level] (bem_fma.cc 4429-4430; the
    lists dofs_filled_blocks[level], quad_points_filled_blocks[level] and parentList[level] start
    empty, 3905, 3936-3938) *)
Definition open_level (st : ost) : ost :=
  {| st_blocks := st_blocks st; st_qtb := st_qtb st; st_dtb := st_dtb st;
     st_parents := []; st_childless := st_childless st;
     st_start := st_start st ++ [S (last (st_end st) 0)];
     st_end := st_end st ++ [length (st_blocks st) - 1];
     st_dfill := st_dfill st ++ [[]]; st_qfill := st_qfill st ++ [[]] |}.

(** one iteration of the level loop (bem_fma.cc 4029-4523); [delta] is the value before "/= 2" *)
Definition level_step (I : oin) (sd : ost * Q) (level : nat) : ost * Q :=
  let (st, delta) := sd in
  let delta' := (delta / 2)%Q in
  let st1 := fold_left (split_block I level delta') (st_parents st) st in
  let st2 := open_level st1 in
  let s := last (st_start st2) 0 in
  let e := last (st_end st2) 0 in
  (fold_left (classify I level) (seq s (S e - s)) st2, delta').

(** state before the level loop (bem_fma.cc 3884-4013) *)
Definition init_state (I : oin) : ost :=
  {| st_blocks := [root_block I];
     st_qtb := fun q => if Nat.ltb q (o_nq I) then [0] else [];
     st_dtb := fun d => if Nat.ltb d (o_nd I) then [0] else [];
     st_parents := [0]; st_childless := [];
     st_start := [0]; st_end := [0];
     st_dfill := [[]]; st_qfill := [[]] |}.

Definition levels (I : oin) (k : nat) : ost * Q :=
  fold_left (level_step I) (seq 1 k) (init_state I, b_delta (root_block I)).

(** The tree after the level loop, with the blocks still in parentList[num_octree_levels]
    appended to childlessList (bem_fma.cc 4526-4538). *)
Definition octree (I : oin) : ost :=
  let st := fst (levels I (o_N I)) in
  {| st_blocks := st_blocks st; st_qtb := st_qtb st; st_dtb := st_dtb st;
     st_parents := st_parents st;
     st_childless := st_childless st ++ st_parents st;
     st_start := st_start st; st_end := st_end st;
     st_dfill := st_dfill st; st_qfill := st_qfill st |}.

(** num_blocks (bem_fma.cc 4540) *)
Definition num_blocks (st : ost) : nat := length (st_blocks st).
Definition startL (st : ost) (l : nat) : nat := nth l (st_start st) 0.
Definition endL (st : ost) (l : nat) : nat := nth l (st_end st) 0.
Definition level_ids (st : ost) (l : nat) : list nat := seq (startL st l) (S (endL st l) - startL st l).

(** ** Near neighbours (bem_fma.cc 4591-4961) *)

Definition toll : Q := 1 # 1000.          (* TOLL, bem_fma.cc 1 *)

(** PMax = 2*Center + PMin, Center = delta/2 (e.g. bem_fma.cc 4612-4618) *)
Definition pmax (r : Q -> Q) (b : block) : pt :=
  let h := (2 * (b_delta b / 2))%Q in
  mkpt (r (h + px (b_min b))%Q) (r (h + py (b_min b))%Q) (r (h + pz (b_min b))%Q).

(** fabs(PMin1(d) - PMax2(d)) <= TOLL || fabs(PMax1(d) - PMin2(d)) <= TOLL *)
Definition faces_meet (r : Q -> Q) (lo1 hi1 lo2 hi2 : Q) : bool :=
  Qle_bool (Qabs (r (lo1 - hi2)%Q)) (r toll) || Qle_bool (Qabs (r (hi1 - lo2)%Q)) (r toll).
(** PMin1(d) - TOLL <= PMax2(d) && PMax1(d) + TOLL >= PMin2(d) *)
Definition overlap (r : Q -> Q) (lo1 hi1 lo2 hi2 : Q) : bool :=
  Qle_bool (r (lo1 - r toll)%Q) hi2 && Qle_bool lo2 (r (hi1 + r toll)%Q).

(** the three tests of bem_fma.cc 4651-4699 (repeated at 4747-4795 and 4867-4922) *)
Definition touches (r : Q -> Q) (b1 b2 : block) : bool :=
  let m1 := b_min b1 in let M1 := pmax r b1 in
  let m2 := b_min b2 in let M2 := pmax r b2 in
  (faces_meet r (px m1) (px M1) (px m2) (px M2) &&
     (overlap r (py m1) (py M1) (py m2) (py M2) && overlap r (pz m1) (pz M1) (pz m2) (pz M2)))
  || (faces_meet r (py m1) (py M1) (py m2) (py M2) &&
     (overlap r (px m1) (px M1) (px m2) (px M2) && overlap r (pz m1) (pz M1) (pz m2) (pz M2)))
  || (faces_meet r (pz m1) (pz M1) (pz m2) (pz M2) &&
     (overlap r (py m1) (py M1) (py m2) (py M2) && overlap r (px m1) (px M1) (px m2) (px M2))).

Definition nub (l : list nat) : list nat := nodup Nat.eq_dec l.

(** a block of a list, or its children when it has some *)
Definition refine1 (bs : list block) (j : nat) : list nat :=
  match b_kids (getb bs j) with [] => [j] | ks => ks end.

(** near neighbours of [k] at its own level, from those of its parent (bem_fma.cc 4605-4821) *)
Definition near0 (r : Q -> Q) (bs : list block) (k : nat) (parentNN : list nat) : list nat :=
  nub (k :: filter (fun j => touches r (getb bs k) (getb bs j)) (flat_map (refine1 bs) parentNN)).

(** the next sublevel (bem_fma.cc 4843-4944): childless members stay, children are tested *)
Definition near_next (r : Q -> Q) (bs : list block) (k : nat) (prev : list nat) : list nat :=
  nub (flat_map (fun j => match b_kids (getb bs j) with
                          | [] => [j]
                          | ks => filter (fun c => touches r (getb bs k) (getb bs c)) ks
                          end) prev).

Fixpoint near_subs (r : Q -> Q) (bs : list block) (k : nat) (n : nat) (prev : list nat) : list (list nat) :=
  match n with 0 => [] | S m => let c := near_next r bs k prev in c :: near_subs r bs k m c end.

(** all sublevels of block [k]; [tab] holds the lists already computed *)
Definition near_of (I : oin) (st : ost) (tab : nat -> list (list nat)) (k : nat) : list (list nat) :=
  let bs := st_blocks st in
  let b := getb bs k in
  if Nat.eqb (b_level b) 1 then [level_ids st 1]                      (* 4591-4598 *)
  else
    let n0 := near0 (o_rnd I) bs k (nth 0 (tab (b_parent b)) []) in
    n0 :: match b_kids b with
          | [] => near_subs (o_rnd I) bs k (o_N I - b_level b) n0               (* 4829-4944 *)
          | _ => []
          end.

(** loops over levels and blocks of a level: ids increase (bem_fma.cc 4591, 4601-4607) *)
Definition near_tab (I : oin) (st : ost) : nat -> list (list nat) :=
  fold_left (fun tab k => let v := near_of I st tab k in
                          fun j => if Nat.eqb j k then v else tab j)
            (seq 1 (num_blocks st - 1)) (fun _ => [[]]).

Definition near (I : oin) (st : ost) (k s : nat) : list nat := nth s (near_tab I st k) [].
(** NumNearNeighLevels / GetNearNeighSize / GetIntListSize of block [k] *)
Definition near_levels (I : oin) (st : ost) (k : nat) : nat := length (near_tab I st k).

(** ** Interaction lists (bem_fma.cc 4994-5064) *)

(** blocks of the quadrature points of the cells around the nodes of [k] (5027-5062) *)
Definition around (I : oin) (st : ost) (k s : nat) : list nat :=
  let b := getb (st_blocks st) k in
  flat_map (fun n => flat_map (fun d => flat_map (fun c =>
      map (fun q => nth (b_level b + s) (st_qtb st q) 0) (quads_of_cell I c))
      (dof_elems I d)) (o_dbl I n)) (b_nodes b).

Definition int_list (I : oin) (st : ost) (k s : nat) : list nat :=
  if Nat.eqb (b_level (getb (st_blocks st) k)) 1 then level_ids st 1
  else nub (near I st k s ++ around I st k s).

(** ** Non-interaction lists (bem_fma.cc 5065-5118); level 1 blocks keep an empty list *)
Definition nonint_list (I : oin) (st : ost) (k s : nat) : list nat :=
  let b := getb (st_blocks st) k in
  if Nat.eqb (b_level b) 1 then []
  else
    let up := match s with 0 => int_list I st (b_parent b) 0 | S s' => int_list I st k s' end in
    nub (filter (fun j => negb (existsb (Nat.eqb j) (int_list I st k s)))
                (flat_map (refine1 (st_blocks st)) up)).

(** GetIntList(GetIntListSize() - 1), the list used for direct integration (bem_fma.cc 283-285,
    756-758) *)
Definition last_int (I : oin) (st : ost) (k : nat) : list nat :=
  int_list I st k (near_levels I st k - 1).
