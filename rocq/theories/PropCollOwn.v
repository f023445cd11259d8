(** * C74, continued: which partitions let every process own a node (the hypothesis of C74, from the numbering of C71) *)
From Coq Require Import List Bool Arith Lia.
From Verif Require Import ModelBem ModelBc ModelOwn SpecOwn PropOwn ModelColl SpecColl ProofsColl PropColl.
Import ListNotations.
Local Open Scope nat_scope.

(** the owners recorded in the run are those of the numbering *)
Definition owners_of (U : numbering) (y : cyc) : Prop :=
  y_n y = nu_n U /\ forall i p, i < nu_n U -> (y_own y i = p <-> cpu_set U p i = true).
(** the process has a cell with a node that no cell of a lower process has *)
Definition has_a_node_of_its_own (U : numbering) (p : nat) : Prop :=
  exists c i, c < nu_cells U /\ nu_sub U c = p /\ In i (nu_dofs U c) /\
    forall c', c' < nu_cells U -> nu_sub U c' < p -> ~ In i (nu_dofs U c').

Lemma owns_iff U p : well_numbered U -> (exists i, cpu_set U p i = true) <-> has_a_node_of_its_own U p.
Proof.
  intros W. split.
  - intros [i Hi]. assert (L : i < nu_n U).
    { unfold cpu_set in Hi. apply andb_prop in Hi. apply Nat.ltb_lt, Hi. }
    destruct (C71_tables U W) as [T [_ D]]. apply (C71_owner U i p W L) in Hi. destruct Hi as [(c & Hc & Hs & Hin) Hmin].
    exists c, (s2o U i). split; [exact Hc|]. split; [exact Hs|]. split; [apply (D c i Hc L); exact Hin|].
    intros c' Hc' Hlt Hin'. apply (D c' i Hc' L) in Hin'. specialize (Hmin c' Hc' Hin'). lia.
  - intros (c & i & Hc & Hs & Hin & Hno). destruct (C71_tables U W) as [T [_ D]].
    assert (L : i < nu_n U). { destruct W as (_ & _ & Wd & _); exact (Wd c i Hc Hin). }
    exists (o2s U i). destruct (T i L) as (Lo & Ho & _). apply (C71_owner U _ p W Lo). split.
    + exists c. split; [exact Hc|]. split; [exact Hs|]. apply (D c _ Hc Lo). rewrite Ho. exact Hin.
    + intros c' Hc' Hin'. apply (D c' _ Hc' Lo) in Hin'. rewrite Ho in Hin'.
      destruct (Nat.le_gt_cases p (nu_sub U c')); auto. exfalso. apply (Hno c' Hc'); auto.
Qed.

(** every process owns a node exactly when each one has a cell with a node no lower process touches *)
Theorem C74_which_partitions_are_safe : forall U y, well_numbered U -> owners_of U y ->
  (every_process_owns (nu_np U) y <-> forall p, p < nu_np U -> has_a_node_of_its_own U p).
Proof.
  intros U y W [En Eo]. split.
  - intros O p Hp. apply (owns_iff U p W). destruct (O p Hp) as (i & Hi & Hp'). exists i. apply Eo; [lia|exact Hp'].
  - intros O p Hp. destruct (proj2 (owns_iff U p W) (O p Hp)) as [i Hi].
    assert (L : i < nu_n U). { unfold cpu_set in Hi. apply andb_prop in Hi. apply Nat.ltb_lt, Hi. }
    exists i. split; [lia|]. apply Eo; auto.
Qed.
(** in particular every process must have a cell, and there must be at least as many nodes as processes *)
Theorem C74_too_many_processes : forall np y, every_process_owns np y -> np <= y_n y.
Proof.
  intros np y O. 
  assert (I : incl (seq 0 np) (map (y_own y) (seq 0 (y_n y)))).
  { intros p Hp. apply in_seq in Hp. destruct (O p ltac:(lia)) as (i & Hi & E). apply in_map_iff. exists i. split; [exact E|]. apply in_seq. lia. }
  apply (NoDup_incl_length (seq_NoDup np 0)) in I. rewrite seq_length, map_length, seq_length in I. exact I.
Qed.

(** enough: every process has a cell, and every cell has a node of its own (elements of degree at least two, discontinuous elements) *)
Theorem C74_interior_nodes_are_enough : forall U y, well_numbered U -> owners_of U y ->
  (forall p, p < nu_np U -> exists c, c < nu_cells U /\ nu_sub U c = p) ->
  (forall c, c < nu_cells U -> exists i, In i (nu_dofs U c) /\ forall c', c' < nu_cells U -> In i (nu_dofs U c') -> c' = c) ->
  every_process_owns (nu_np U) y.
Proof.
  intros U y W Ow HC HI. apply (C74_which_partitions_are_safe U y W Ow). intros p Hp.
  destruct (HC p Hp) as (c & Hc & Hs). destruct (HI c Hc) as (i & Hin & Hu). exists c, i.
  split; [exact Hc|]. split; [exact Hs|]. split; [exact Hin|]. intros c' Hc' Hlt Hin'. rewrite (Hu c' Hc' Hin') in Hlt. lia.
Qed.
(** having cells is not enough: the two-process partition of the cube of C71, one face to process 1: the solve of process 1 is undefined *)
Definition cube_cycle : cyc := {|
  y_direct := true; y_n := nu_n cube; y_own := fun i => match domain_of cube i with Some s => s | None => 0 end;
  y_vown := fun j => match vdomain_of cube j with Some s => s | None => 0 end;
  y_cells := map (fun c => ({| c_dofs := dofs_now cube c; c_mat := 1; c_sub := nu_sub cube c |}, vdofs_now cube c)) (seq 0 (nu_cells cube));
  y_ids := [1]; y_doubles := fun i => [i]; y_con := fun _ => None; y_vlines := [];
  y_vec := fun a i => vec_index (nvec cube) (nu_dim cube) (vo2s cube) (s2o cube) (match a with AX => 0 | AY => 1 | AZ => 2 end) i;
  y_isdir := fun _ => true; y_pat := fun _ => seq 0 (nu_n cube); y_near := fun _ => []; y_down := fun _ => []; y_leaf := fun _ => [];
  y_itn := 1; y_its := 1; y_itg := 1; y_it := 1 |}.
Theorem C74_having_cells_is_enough_refuted : well_numbered cube /\ owners_of cube cube_cycle /\
  (forall p, p < nu_np cube -> exists c, c < nu_cells cube /\ nu_sub cube c = p) /\
  ~ every_process_owns (nu_np cube) cube_cycle /\
  exists me, me < nu_np cube /\ run_evs pst0 (history_events (nu_np cube) sess0 [Api_reinit cube_cycle; Api_solve] me) = None.
Proof.
  destruct C71_every_process_owns_refuted as (W & S5 & N & _).
  assert (Ow : owners_of cube cube_cycle).
  { split; [reflexivity|]. intros i p Hi. unfold cpu_set. rewrite (proj2 (Nat.ltb_lt i _)) by exact Hi. cbn [andb].
    destruct (C71_partition cube i W Hi) as (q & Hq & E). specialize (E q) as [_ E]. specialize (E eq_refl).
    unfold cpu_set in E. apply andb_prop in E. destruct E as [_ E]. cbn [y_own cube_cycle]. unfold is_sub in *.
    destruct (domain_of cube i) as [s|]; [|discriminate]. rewrite Nat.eqb_eq. reflexivity. }
  assert (No : ~ every_process_owns (nu_np cube) cube_cycle).
  { intros O. destruct (O 1 ltac:(cbn; lia)) as (i & Hi & E). destruct Ow as [_ Ow]. apply (Ow i 1 Hi) in E. rewrite N in E. discriminate. }
  split; [exact W|]. split; [exact Ow|]. split; [|split; [exact No|]].
  - intros p Hp. cbn in Hp. destruct p as [|[|p]]; [exists 0|exists 5|lia]; cbn; split; auto; lia.
  - exists 1. split; [cbn; lia|]. vm_compute. reflexivity.
Qed.
(** non-vacuity of the positive statements *)
Example C74_safe_partition_met : exists U y, well_numbered U /\ nu_np U = 2 /\ owners_of U y /\ every_process_owns 2 y.
Proof.
  set (y := {| y_direct := true; y_n := nu_n strip; y_own := fun i => match domain_of strip i with Some s => s | None => 0 end;
    y_vown := fun _ => 0; y_cells := []; y_ids := []; y_doubles := fun i => [i]; y_con := fun _ => None; y_vlines := [];
    y_vec := fun _ i => i; y_isdir := fun _ => true; y_pat := fun _ => []; y_near := fun _ => []; y_down := fun _ => []; y_leaf := fun _ => [];
    y_itn := 1; y_its := 1; y_itg := 1; y_it := 1 |}).
  assert (W : well_numbered strip) by apply C71_nonvacuous.
  exists strip, y. split; [exact W|]. split; [reflexivity|]. split.
  - split; [reflexivity|]. intros i p Hi. unfold cpu_set. rewrite (proj2 (Nat.ltb_lt i _)) by exact Hi. cbn [andb].
    destruct (C71_partition strip i W Hi) as (q & Hq & E). specialize (E q) as [_ E]. specialize (E eq_refl).
    unfold cpu_set in E. apply andb_prop in E. destruct E as [_ E]. cbn [y_own y]. unfold is_sub in *.
    destruct (domain_of strip i) as [s|]; [|discriminate]. rewrite Nat.eqb_eq. reflexivity.
  - intros me Hme. destruct me as [|[|me]]; [exists 0|exists 5|lia]; split; try reflexivity; cbn; lia.
Qed.
