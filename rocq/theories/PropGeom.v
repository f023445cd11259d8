(** Property theorems C83: the surface the equations are solved on, cycle by cycle. *)
From Coq Require Import Reals List Bool Arith Lia Lra.
From Verif Require Import LibSum ModelBem ModelBc ModelGeom PropBc.
Import ListNotations.
Local Open Scope R_scope.

(** ** Vocabulary *)
(** the numbering of the vector dofs is a permutation; components are scaled by the axes *)
Definition geo_numbered (dim : nat) (m : geo_mesh) : Prop :=
  (forall k, (k < dim * gm_m m)%nat -> (gm_perm m k < dim * gm_m m)%nat) /\
  (forall i j, (i < dim * gm_m m)%nat -> (j < dim * gm_m m)%nat -> gm_perm m i = gm_perm m j -> i = j).
(** component [d] of the point of node [i] *)
Definition comp (m : geo_mesh) (v : vec) (d i : nat) : R := v (gm_perm m (d * gm_m m + i)%nat).
(** what a call multiplies component [d] by, if it stretches *)
Definition axis (dim : nat) (g : geo_params) (d : nat) : R :=
  match d with 0%nat => gp_x g | 1%nat => gp_y g * (if (dim =? 3)%nat then gp_z g else 1) | _ => 1 end.
(** a hanging node of the mesh is the same combination of nodes in each component *)
Definition componentwise (dim : nat) (m : geo_mesh) (line : nat -> list (nat * R)) : Prop :=
  forall d i, (d < dim)%nat -> (i < gm_m m)%nat -> gm_con m (gm_perm m (d * gm_m m + i)%nat) = map (fun e => (gm_perm m (d * gm_m m + fst e)%nat, snd e)) (line i) /\
    forall e, In e (line i) -> (fst e < gm_m m)%nat.
(** the position read from the mesh, hanging nodes on their parents *)
Definition mesh_point (m : geo_mesh) (line : nat -> list (nat * R)) (d i : nat) : R := suml (line i) (fun e => snd e * comp m (gm_pos m) d (fst e)).

Lemma distribute_comp dim m line d i : componentwise dim m line -> (d < dim)%nat -> (i < gm_m m)%nat ->
  comp m (geo_distribute (gm_con m) (gm_pos m)) d i = mesh_point m line d i.
Proof.
  intros C Hd Hi. unfold comp, geo_distribute, mesh_point. rewrite (proj1 (C d i Hd Hi)), suml_map. reflexivity.
Qed.
Lemma stretch_comp dim g m v d i : geo_numbered dim m -> (2 <= dim)%nat -> (d < dim)%nat -> (i < gm_m m)%nat ->
  comp m (stretch dim (gm_m m) (gm_perm m) (gp_x g) (gp_y g) (gp_z g) v) d i = comp m v d i * axis dim g d.
Proof.
  intros (_ & Inj) Hdim Hd Hi. destruct (C53_spheroid (gm_perm m) dim (gm_m m) (gp_x g) (gp_y g) (gp_z g) v Inj Hdim i Hi) as (A & B & C).
  unfold comp, axis. destruct d as [|[|d]].
  - cbn [Nat.mul Nat.add]. exact A.
  - replace (1 * gm_m m + i)%nat with (i + gm_m m)%nat by lia. rewrite B. ring.
  - rewrite C; [ring|]. split; [nia|]. apply Nat.lt_le_trans with (S (S (S d)) * gm_m m)%nat; [cbn [Nat.mul]; lia|apply Nat.mul_le_mono_r; lia].
Qed.

Definition last_call (calls : list (geo_params * geo_mesh)) (d : geo_params * geo_mesh) := last calls d.
Lemma run_app dim a b s : geo_run dim (a ++ b) s = match geo_run dim a s with Some s' => geo_run dim b s' | None => None end.
Proof. revert s. induction a as [|(g & m) a IH]; intros s; cbn; [auto|]. destruct (geo_reinit dim g m s); auto. Qed.
Lemma run_kept dim calls s k : gs_mapping s = Some k -> exists s', geo_run dim calls s = Some s' /\ gs_mapping s' = Some k.
Proof.
  revert s. induction calls as [|(g & m) l IH]; intros s E; cbn; [eauto|]. unfold geo_reinit. rewrite E. apply IH. reflexivity.
Qed.

(** ** Theorems *)
(** With the FE mapping every run is defined.  The surface of the first cycle has the stretched position vector; that of every later
    cycle is the position vector of its mesh, not stretched. *)
Theorem C83_fe_mapping : forall dim g first rest line d i,
  (2 <= dim)%nat -> gp_fe g = true -> (d < dim)%nat ->
  (forall m, In m (first :: rest) -> geo_numbered dim m) ->
  let calls := map (fun m => (g, m)) (first :: rest) in let now := last (first :: rest) first in
  componentwise dim now line -> (i < gm_m now)%nat ->
  exists s, geo_run dim calls geo_start = Some s /\ gs_mapping s = Some MapFEField /\ gs_size s = (dim * gm_m now)%nat /\
    comp now (gs_map s) d i = mesh_point now line d i * (if gp_spheroid g && gp_spherical g then match rest with [] => axis dim g d | _ => 1 end else 1).
Proof.
  intros dim g first rest line d i Hdim Fe Hd Num calls now Cw Hi.
  assert (F : exists s, geo_reinit dim g first geo_start = Some s /\ gs_mapping s = Some MapFEField /\ gs_size s = (dim * gm_m first)%nat /\
    gs_map s = (if gp_spheroid g && gp_spherical g then stretch dim (gm_m first) (gm_perm first) (gp_x g) (gp_y g) (gp_z g) (geo_distribute (gm_con first) (gm_pos first)) else geo_distribute (gm_con first) (gm_pos first))).
  { unfold geo_reinit. rewrite Fe. cbn [gs_mapping geo_start]. destruct (gp_spheroid g && gp_spherical g); [|eexists; split; [reflexivity|auto]].
    replace (forallb _ _) with true; [eexists; split; [reflexivity|auto]|]. symmetry. apply forallb_forall. intros k Hk. apply in_seq in Hk.
    destruct (Num first (or_introl eq_refl)) as [R _]. apply andb_true_iff. split; apply Nat.ltb_lt; apply R; nia. }
  destruct F as (s1 & F1 & F2 & F3 & F4). unfold calls. cbn [map geo_run]. rewrite F1.
  destruct rest as [|m2 rest'].
  - cbn [map geo_run]. exists s1. split; [reflexivity|]. split; [exact F2|]. split; [exact F3|]. cbn [last] in now. unfold now in *. rewrite F4.
    destruct (gp_spheroid g && gp_spherical g).
    + rewrite stretch_comp by (auto; apply Num; left; auto). rewrite (distribute_comp dim first line d i Cw Hd Hi). reflexivity.
    + rewrite (distribute_comp dim first line d i Cw Hd Hi). ring.
  - assert (Q : forall l m s, gs_mapping s = Some MapFEField -> exists s', geo_run dim (map (fun m => (g, m)) (m :: l)) s = Some s' /\ gs_mapping s' = Some MapFEField /\
      gs_size s' = (dim * gm_m (last (m :: l) first))%nat /\ gs_map s' = geo_distribute (gm_con (last (m :: l) first)) (gm_pos (last (m :: l) first))).
    { assert (R : forall m s, gs_mapping s = Some MapFEField -> geo_reinit dim g m s = Some {| gs_size := dim * gm_m m; gs_map := geo_distribute (gm_con m) (gm_pos m); gs_mapping := Some MapFEField |}).
      { intros m s E. unfold geo_reinit. rewrite E, Fe. reflexivity. }
      induction l as [|m' l IH]; intros m s E.
      - cbn [map geo_run]. rewrite (R m s E). eexists. split; [reflexivity|]. auto.
      - change (geo_run dim (map (fun m => (g, m)) (m :: m' :: l)) s) with (match geo_reinit dim g m s with Some s' => geo_run dim (map (fun m => (g, m)) (m' :: l)) s' | None => None end).
        rewrite (R m s E). change (last (m :: m' :: l) first) with (last (m' :: l) first). apply IH. reflexivity. }
    destruct (Q rest' m2 s1 F2) as (s' & A & B & C & D). exists s'. split; [exact A|]. split; [exact B|].
    assert (En : now = last (m2 :: rest') first) by reflexivity. split; [rewrite En; exact C|]. rewrite D, <- En. rewrite (distribute_comp dim now line d i Cw Hd Hi).
    destruct (gp_spheroid g && gp_spherical g); ring.
Qed.

(** Hanging nodes stay on their parents, stretched or not: every component is the same combination of the nodes' points. *)
Theorem C83_hanging_nodes_stay : forall dim g first rest line d i,
  (2 <= dim)%nat -> gp_fe g = true -> (d < dim)%nat -> (forall m, In m (first :: rest) -> geo_numbered dim m) ->
  let now := last (first :: rest) first in
  componentwise dim now line -> (forall j e, (j < gm_m now)%nat -> In e (line j) -> line (fst e) = [(fst e, 1)]) -> (i < gm_m now)%nat ->
  forall s, geo_run dim (map (fun m => (g, m)) (first :: rest)) geo_start = Some s ->
  comp now (gs_map s) d i = suml (line i) (fun e => snd e * comp now (gs_map s) d (fst e)).
Proof.
  intros dim g first rest line d i Hdim Fe Hd Num now Cw Cl Hi s Hs.
  assert (P : forall j, (j < gm_m now)%nat -> comp now (gs_map s) d j = mesh_point now line d j * (if gp_spheroid g && gp_spherical g then match rest with [] => axis dim g d | _ => 1 end else 1)).
  { intros j Hj. destruct (C83_fe_mapping dim g first rest line d j Hdim Fe Hd Num Cw Hj) as (s' & A & _ & _ & B). rewrite Hs in A. inversion A. subst s'. exact B. }
  rewrite P by auto. set (f := if gp_spheroid g && gp_spherical g then match rest with [] => axis dim g d | _ => 1 end else 1) in *.
  rewrite (suml_ext _ _ (fun e => f * (snd e * comp now (gm_pos now) d (fst e)))).
  - rewrite suml_scal. unfold mesh_point. ring.
  - intros e He. rewrite P by (apply (Cw d i Hd Hi); auto). unfold mesh_point. rewrite (Cl i e Hi He). cbn. ring.
Qed.

(** With the Q mapping there is no position vector to stretch: asking for a spheroid writes outside it, in the first
    call, on every mesh with a node; otherwise all calls are defined. *)
Theorem C83_q_mapping : forall dim g first rest, gp_fe g = false ->
  (geo_run dim (map (fun m => (g, m)) (first :: rest)) geo_start = None <-> gp_spheroid g = true /\ gp_spherical g = true /\ (0 < gm_m first)%nat) /\
  (forall s, geo_run dim (map (fun m => (g, m)) (first :: rest)) geo_start = Some s -> gs_mapping s = Some (MapQ (gp_degree g))).
Proof.
  intros dim g first rest Fe. cbn [map geo_run]. unfold geo_reinit. rewrite Fe. cbn [gs_mapping geo_start gs_size gs_map].
  assert (K := fun s k E => run_kept dim (map (fun m => (g, m)) rest) s k E).
  destruct (gp_spheroid g && gp_spherical g) eqn:E.
  - apply andb_true_iff in E as [E1 E2]. destruct (gm_m first) as [|n].
    + cbn [seq forallb]. destruct (K {| gs_size := 0; gs_map := stretch dim 0 (gm_perm first) (gp_x g) (gp_y g) (gp_z g) (fun _ => 0); gs_mapping := Some (MapQ (gp_degree g)) |} _ eq_refl) as (s' & A & B).
      rewrite A. split; [split; [discriminate|lia]|]. intros s Hs. inversion Hs. subst. exact B.
    + cbn [seq forallb]. replace (Nat.ltb (gm_perm first 0) 0) with false by (symmetry; apply Nat.ltb_ge; lia). cbn [andb]. split; [split; [intros _; repeat split; auto; lia|auto]|]. intros s Hs. discriminate Hs.
  - destruct (K {| gs_size := 0; gs_map := fun _ => 0; gs_mapping := Some (MapQ (gp_degree g)) |} _ eq_refl) as (s' & A & B).
    rewrite A. split; [split; [discriminate|intros (X & Y & _); rewrite X, Y in E; discriminate]|]. intros s Hs. inversion Hs. subst. exact B.
Qed.

(** The kind and degree of the mapping are those of the first call, whatever the parameters are later. *)
Theorem C83_mapping_is_never_replaced : forall dim g m calls s, geo_run dim ((g, m) :: calls) geo_start = Some s ->
  gs_mapping s = Some (if gp_fe g then MapFEField else MapQ (gp_degree g)).
Proof.
  intros dim g m calls s Hs. cbn [geo_run] in Hs. destruct (geo_reinit dim g m geo_start) as [s1|] eqn:E; [|discriminate].
  assert (M : gs_mapping s1 = Some (if gp_fe g then MapFEField else MapQ (gp_degree g))).
  { unfold geo_reinit in E. cbn [gs_mapping geo_start] in E. destruct (gp_spheroid g && gp_spherical g); [destruct (forallb _ _) in E; [|discriminate]|]; inversion E; reflexivity. }
  destruct (run_kept dim calls s1 _ M) as (s' & A & B). rewrite A in Hs. inversion Hs. subst. exact B.
Qed.

(** A user who asks for a spheroid expects it in every cycle; from the second cycle on the surface is the sphere again. *)
Definition one_node : geo_mesh := {| gm_m := 1; gm_perm := fun k => k; gm_pos := fun _ => 1; gm_con := fun k => [(k, 1)] |}.
Definition spheroid_2 : geo_params := {| gp_fe := true; gp_degree := 1; gp_spheroid := true; gp_spherical := true; gp_x := 2; gp_y := 1; gp_z := 1 |}.
Lemma one_node_numbered : geo_numbered 3 one_node.
Proof. split; auto. Qed.
Lemma one_node_componentwise : componentwise 3 one_node (fun i => [(i, 1)]).
Proof. intros d i Hd Hi. cbn. split; [reflexivity|]. intros e [<-|[]]. exact Hi. Qed.
Theorem C83_spheroid_in_every_cycle_refuted : exists g m s1 s2,
  gp_spheroid g = true /\ gp_spherical g = true /\ gp_fe g = true /\ gp_x g = 2 /\ geo_numbered 3 m /\
  geo_run 3 [(g, m)] geo_start = Some s1 /\ geo_run 3 [(g, m); (g, m)] geo_start = Some s2 /\
  comp m (gs_map s1) 0 0 = 2 * comp m (gm_pos m) 0 0 /\ comp m (gs_map s2) 0 0 = comp m (gm_pos m) 0 0 /\ comp m (gs_map s1) 0 0 <> comp m (gs_map s2) 0 0.
Proof.
  destruct (C83_fe_mapping 3 spheroid_2 one_node [] (fun i => [(i, 1)]) 0 0) as (s1 & A1 & _ & _ & B1); auto; try (cbn; lia); [intros m [<-|[]]; apply one_node_numbered|apply one_node_componentwise|].
  destruct (C83_fe_mapping 3 spheroid_2 one_node [one_node] (fun i => [(i, 1)]) 0 0) as (s2 & A2 & _ & _ & B2); auto; try (cbn; lia); [intros m [<-|[<-|[]]]; apply one_node_numbered|apply one_node_componentwise|].
  exists spheroid_2, one_node, s1, s2. cbn [last] in B1, B2.
  assert (V : mesh_point one_node (fun i => [(i, 1)]) 0 0 = 1) by (unfold mesh_point, comp; cbn; ring).
  assert (P : comp one_node (gm_pos one_node) 0 0 = 1) by reflexivity.
  rewrite V in B1, B2. cbn [spheroid_2 gp_spheroid gp_spherical andb axis gp_x] in B1, B2.
  repeat split; auto; rewrite ?B1, ?B2, ?P; lra.
Qed.
(** a mesh with a hanging node (node 2 between 0 and 1), stretched *)
Definition three_nodes : geo_mesh := {| gm_m := 3; gm_perm := fun k => (8 - k)%nat; gm_pos := fun k => INR k;
  gm_con := fun k => if Nat.eqb ((8 - k) mod 3) 2 then [((k + 2)%nat, 1/2); ((k + 1)%nat, 1/2)] else [(k, 1)] |}.
Definition three_lines (i : nat) : list (nat * R) := if Nat.eqb i 2 then [(0%nat, 1/2); (1%nat, 1/2)] else [(i, 1)].
Example C83_instance : geo_numbered 3 three_nodes /\ componentwise 3 three_nodes three_lines /\
  (forall j e, (j < 3)%nat -> In e (three_lines j) -> three_lines (fst e) = [(fst e, 1)]) /\ gp_fe spheroid_2 = true.
Proof.
  split; [|split; [|split; [|reflexivity]]].
  - split; cbn [gm_m gm_perm three_nodes]; intros; lia.
  - intros d i Hd Hi. cbn [gm_m three_nodes] in *.
    do 3 (destruct d as [|d]; [do 3 (destruct i as [|i]; [split; [reflexivity|cbn; intros e He; repeat destruct He as [<-|He]; cbn; try lia; destruct He]|]); lia|]). lia.
  - intros j e Hj. do 3 (destruct j as [|j]; [cbn; intros He; repeat destruct He as [<-|He]; try reflexivity; destruct He|]). lia.
Qed.
