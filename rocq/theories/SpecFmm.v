(** * What the fast multipole product should compute (specification, independent of the loops).

    [geo]: the geometric linear maps behind the expansions of one kernel: coefficients of a unit
    source, multipole translation, multipole-to-local conversion, local translation, and the two
    evaluations.  Nothing but linearity is asked of them. *)
From Coq Require Import Reals List Arith Bool.
From Verif Require Import ModelOctree ModelFmm LibSum.
Import ListNotations.
Local Open Scope nat_scope.

Definition coefs := nat -> R.
Record geo := {
  gS : nat -> nat -> coefs;              (* block centre, quadrature point: unit source *)
  gMM : nat -> nat -> coefs -> coefs;    (* to block, from block *)
  gML : nat -> nat -> coefs -> coefs;    (* to block, from block *)
  gLL : nat -> nat -> coefs -> coefs;    (* to block, from block *)
  gEM : nat -> nat -> coefs -> R;        (* block, node *)
  gEL : nat -> nat -> coefs -> R }.

Definition lin (F : coefs -> R) : Prop :=
  (forall u v, (forall k, u k = v k) -> F u = F v) /\
  (forall u v, F (fun k => u k + v k)%R = (F u + F v)%R) /\
  (forall a u, F (fun k => a * u k)%R = (a * F u)%R).
Definition lin_op (T : coefs -> coefs) : Prop := forall k, lin (fun u => T u k).
Definition geo_lin (G : geo) : Prop :=
  (forall a b, lin_op (gMM G a b)) /\ (forall a b, lin_op (gML G a b)) /\ (forall a b, lin_op (gLL G a b)) /\
  (forall b i, lin (gEM G b i)) /\ (forall b i, lin (gEL G b i)).

(** Expansion objects with a centre and coefficients: what MultipoleExpansion and LocalExpansion
    do with these maps.  Adding an expansion with the same centre adds coefficients
    (multipole_expansion.cc 151-160, local_expansion.cc 96-105). *)
Definition lin_eops (G : geo) : eops := {|
  ME := nat * coefs; LE := nat * coefs;
  mz := fun b => (b, fun _ => 0%R);
  msrc := fun m w q => (fst m, fun k => (snd m k + w * gS G (fst m) q k)%R);
  madd := fun m m' => (fst m, fun k => (snd m k + (if Nat.eqb (fst m) (fst m') then snd m' k else gMM G (fst m) (fst m') (snd m') k))%R);
  maddc := fun m m' a => (fst m, fun k => (snd m k + a * snd m' k)%R);
  lz := fun b => (b, fun _ => 0%R);
  laddl := fun l l' => (fst l, fun k => (snd l k + (if Nat.eqb (fst l) (fst l') then snd l' k else gLL G (fst l) (fst l') (snd l') k))%R);
  laddm := fun l m => (fst l, fun k => (snd l k + gML G (fst l) (fst m) (snd m) k)%R);
  evM := fun m i => gEM G (fst m) i (snd m);
  evL := fun l i => gEL G (fst l) i (snd l) |}.

(** n-th ancestor of a block *)
Fixpoint anc (bs : list block) (b n : nat) : nat :=
  match n with 0 => b | S m => b_parent (getb bs (anc bs b m)) end.
(** a unit source of leaf [b] carried up n levels *)
Fixpoint carry_up (G : geo) (bs : list block) (q b n : nat) : coefs :=
  match n with 0 => gS G b q | S m => gMM G (anc bs b (S m)) (anc bs b m) (carry_up G bs q b m) end.
(** local coefficients of the n-th ancestor of [b] carried down to [b] *)
Fixpoint carry_down (G : geo) (bs : list block) (b n : nat) (u : coefs) : coefs :=
  match n with 0 => u | S m => carry_down G bs b m (gLL G (anc bs b m) (anc bs b (S m)) u) end.

(** kernel value that a way of accounting for the pair (node, point) uses; [b] and [e] are the
    leaves of the node and of the point *)
Definition way_kernel (G : geo) (bs : list block) (K : kern) (b e i q : nat) (w : way) : R :=
  let lv x := b_level (getb bs x) in
  match w with
  | Near _ | Big _ => kd K i q
  | M2L b' c => (gEL G b i (carry_down G bs b (lv b - lv b') (gML G b' c (carry_up G bs q e (lv e - lv c)))) / 4 / PI)%R
  | MEval _ c => (gEM G c i (carry_up G bs q e (lv e - lv c)) / 4 / PI)%R
  end.

(** density at a quadrature point times the quadrature weight *)
Definition dof_list (I : oin) (c : nat) : list (nat * nat) := combine (seq 0 (length (o_cdofs I c))) (o_cdofs I c).
Definition density (I : oin) (K : kern) (phi : nat -> R) (q : nat) : R :=
  suml (dof_list I (cell_of I q)) (fun jd => shp K q (fst jd) * jxw K q * phi (snd jd))%R.

(** The product the BEM needs at node i: singular cells by their special quadrature, the others
    by ordinary quadrature; [k q] is the kernel between i and q. *)
Definition direct_product (I : oin) (K : kern) (phi : nat -> R) (k : nat -> R) (i : nat) : R :=
  suml (seq 0 (o_nc I)) (fun c =>
    if is_singular I i c
    then suml (dof_list I c) (fun jd => sing K i c (fst jd) * phi (snd jd))%R
    else suml (quads_of_cell I c) (fun q => k q * density I K phi q)%R).

(** Work items of the parallel loops, in any order *)
From Coq Require Import Permutation.
Definition good_sched (I : oin) (st : ost) (s : sched) : Prop :=
  Permutation (s_direct s) (st_childless st) /\
  (forall l, 1 <= l <= o_N I -> Permutation (s_big s l) (nth l (st_dfill st) [])) /\
  Permutation (s_leaves s) (st_childless st) /\
  (forall l, 1 <= l <= o_N I -> Permutation (s_up s l) (level_ids st l)) /\
  (forall l, 1 <= l <= o_N I -> Permutation (s_down s l) (nth l (st_dfill st) [])) /\
  Permutation (s_eval s) (st_childless st).
