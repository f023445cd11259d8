(** * C52: calling the octree generation again. *)
From Coq Require Import QArith List Lia Arith Bool Permutation.
From Verif Require Import ModelOctree SpecOctree ModelFmm ModelRegen ProofsOctTree ProofsOctLevels ProofsOctFacts ProofsOctLists ProofsFmmCover ProofsFmm PropOctree PropFmm.
Import ListNotations.
Local Open Scope nat_scope.

Lemma with_old_child I f : child_block (with_old I f) = child_block I.
Proof. unfold child_block, with_old. cbn [o_pos o_qpos]. reflexivity. Qed.
Lemma with_old_split I f : split_block (with_old I f) = split_block I.
Proof. unfold split_block. rewrite with_old_child. reflexivity. Qed.
Lemma with_old_weight I f : block_weight (with_old I f) = block_weight I.
Proof. unfold block_weight, with_old. cbn [o_dbl]. reflexivity. Qed.
Lemma with_old_classify I f : classify (with_old I f) = classify I.
Proof. unfold classify. rewrite with_old_weight. unfold with_old. cbn [o_max o_N]. reflexivity. Qed.
Lemma with_old_step I f : level_step (with_old I f) = level_step I.
Proof. unfold level_step. rewrite with_old_split, with_old_classify. reflexivity. Qed.
Lemma with_old_max I f : max_coord (with_old I f) = max_coord I.
Proof. unfold max_coord, with_old. cbn [o_pos o_nd]. reflexivity. Qed.
Lemma with_old_root I f : root_block (with_old I f) = root_block I.
Proof. unfold root_block. rewrite with_old_max. unfold o_nq, with_old. cbn [o_nd o_nc o_nqc]. reflexivity. Qed.
Lemma with_old_init I f : init_state (with_old I f) = init_state I.
Proof. unfold init_state. rewrite with_old_root. unfold o_nq, with_old. cbn [o_nd o_nc o_nqc]. reflexivity. Qed.
Lemma with_old_levels I f k : levels (with_old I f) k = levels I k.
Proof.
  unfold levels. rewrite with_old_step, with_old_init, with_old_root. reflexivity.
Qed.
Lemma with_old_octree I f : octree (with_old I f) = octree I.
Proof. unfold octree. change (o_N (with_old I f)) with (o_N I). rewrite with_old_levels. reflexivity. Qed.
Lemma with_old_near_of I f : near_of (with_old I f) = near_of I.
Proof. unfold near_of, with_old. cbn [o_N]. reflexivity. Qed.
Lemma with_old_near I f st k s : near (with_old I f) st k s = near I st k s.
Proof. unfold near, near_tab. rewrite with_old_near_of. reflexivity. Qed.
Lemma with_old_wf I f : wf_in I -> wf_in (with_old I f).
Proof. intros H. exact H. Qed.
Lemma dof_elems_pushes I d : dof_elems I d = filter (fun c => Nat.ltb c (o_nc I)) (o_old I d) ++ pushes I d.
Proof. reflexivity. Qed.
Lemma pushes_in I d c : In c (pushes I d) <-> c < o_nc I /\ In d (o_cdofs I c).
Proof.
  unfold pushes. rewrite in_flat_map. split.
  - intros (x & A & C). apply in_map_iff in C. destruct C as (y & <- & C). apply filter_In in C. destruct C as (C & D). apply Nat.eqb_eq in D. subst y. apply in_seq in A. split; [lia|exact C].
  - intros (A & C). exists c. split; [apply in_seq; lia|]. apply in_map_iff. exists d. split; [reflexivity|]. apply filter_In. split; [exact C|apply Nat.eqb_refl].
Qed.

Lemma same_around I f k s j : wf_in I -> (forall d c, In c (f d) -> c < o_nc I -> In d (o_cdofs I c)) ->
  (In j (around (with_old I f) (octree I) k s) <-> In j (around (with_old I (fun _ => [])) (octree I) k s)).
Proof.
  intros W H. unfold around. cbn [with_old o_dbl]. rewrite !in_flat_map.
  assert (E : forall d, In j (flat_map (fun c => map (fun q => nth (b_level (getb (st_blocks (octree I)) k) + s) (st_qtb (octree I) q) 0) (quads_of_cell (with_old I f) c)) (dof_elems (with_old I f) d)) <->
              In j (flat_map (fun c => map (fun q => nth (b_level (getb (st_blocks (octree I)) k) + s) (st_qtb (octree I) q) 0) (quads_of_cell (with_old I (fun _ => [])) c)) (dof_elems (with_old I (fun _ => [])) d))).
  { intros d. rewrite !in_flat_map. split; intros (c & A & C); exists c; (split; [|exact C]).
    - apply dof_elems_in in A. apply dof_elems_in. cbn [with_old o_nc o_old o_cdofs] in *. destruct A as (A & [A'|A']); split; auto.
    - apply dof_elems_in in A. apply dof_elems_in. cbn [with_old o_nc o_old o_cdofs] in *. destruct A as (A & [[]|A']); split; auto. }
  split; intros (n & A & C); exists n; (split; [exact A|]); rewrite in_flat_map in *; destruct C as (d & D & F); exists d; (split; [exact D|]); apply E; exact F.
Qed.
Lemma same_int I f k s j : wf_in I -> (forall d c, In c (f d) -> c < o_nc I -> In d (o_cdofs I c)) ->
  (In j (int_list (with_old I f) (octree I) k s) <-> In j (int_list (with_old I (fun _ => [])) (octree I) k s)).
Proof.
  intros W H. unfold int_list. destruct (Nat.eqb (b_level (getb (st_blocks (octree I)) k)) 1); [tauto|].
  rewrite !nub_in, !in_app_iff, !with_old_near. rewrite (same_around I f k s j W H). reflexivity.
Qed.
Lemma same_nonint I f k s j : wf_in I -> (forall d c, In c (f d) -> c < o_nc I -> In d (o_cdofs I c)) ->
  (In j (nonint_list (with_old I f) (octree I) k s) <-> In j (nonint_list (with_old I (fun _ => [])) (octree I) k s)).
Proof.
  intros W H. unfold nonint_list. destruct (Nat.eqb (b_level (getb (st_blocks (octree I)) k)) 1); [tauto|].
  rewrite !nub_in, !filter_In, !in_flat_map.
  assert (E : forall x : bool, negb x = true <-> ~ x = true) by (intros [|]; simpl; split; intros; try discriminate; try congruence; tauto).
  rewrite !E, !existsb_eqb, (same_int I f k s j W H).
  assert (U : forall p, In p (match s with 0 => int_list (with_old I f) (octree I) (b_parent (getb (st_blocks (octree I)) k)) 0 | S s' => int_list (with_old I f) (octree I) k s' end) <->
                        In p (match s with 0 => int_list (with_old I (fun _ => [])) (octree I) (b_parent (getb (st_blocks (octree I)) k)) 0 | S s' => int_list (with_old I (fun _ => [])) (octree I) k s' end)).
  { intros p. destruct s; apply same_int; auto. }
  split; intros ((p & A & C) & D); (split; [exists p; split; [apply U; exact A|exact C]|exact D]).
Qed.

(** Any number of earlier calls on the same mesh: same blocks, same near lists, and interaction
    and non-interaction lists with the same members. *)
Theorem C52_same_mesh_same_lists : forall I n k s, wf_in I -> o_old I = (fun _ => []) ->
  let I' := call_after (repeat (I, fun c => c) n) I in
  octree I' = octree I /\ near I' (octree I') k s = near I (octree I) k s /\
  Permutation (int_list I' (octree I') k s) (int_list I (octree I) k s) /\
  Permutation (nonint_list I' (octree I') k s) (nonint_list I (octree I) k s).
Proof.
  intros I n k s W Ho I'. unfold I', call_after. split; [apply with_old_octree|]. rewrite with_old_octree. split; [apply with_old_near|].
  assert (E : with_old I (fun _ => []) = I) by (destruct I; simpl in *; subst; reflexivity).
  assert (H : forall d c, In c (dof_to_elems (repeat (I, fun c => c) n) d) -> c < o_nc I -> In d (o_cdofs I c)).
  { intros d c Hc _. induction n as [|n IH]; [destruct Hc|]. cbn [repeat dof_to_elems] in Hc. rewrite map_id in Hc. apply in_app_iff in Hc. destruct Hc as [Hc|Hc]; auto. apply pushes_in in Hc. tauto. }
  assert (N1 : forall J st k s, NoDup (int_list J st k s)) by (intros; unfold int_list; destruct (Nat.eqb _ 1); [apply seq_NoDup|apply nub_nodup]).
  assert (N2 : forall J st k s, NoDup (nonint_list J st k s)) by (intros; unfold nonint_list; destruct (Nat.eqb _ 1); [constructor|apply nub_nodup]).
  split; apply NoDup_Permutation; auto; intros j.
  - assert (X := same_int I _ k s j W H). rewrite E in X. exact X.
  - assert (X := same_nonint I _ k s j W H). rewrite E in X. exact X.
Qed.
(** but dof_to_elems grows by one copy at each call *)
Theorem C52_dof_to_elems_accumulates : forall I n d, o_old I = (fun _ => []) ->
  length (dof_elems (call_after (repeat (I, fun c => c) n) I) d) = S n * length (dof_elems I d).
Proof.
  intros I n d Ho. rewrite !dof_elems_pushes, Ho. cbn [call_after with_old o_old o_nc filter app].
  rewrite app_length. change (pushes (call_after (repeat (I, fun c => c) n) I) d) with (pushes I d).
  assert (L : length (filter (fun c => Nat.ltb c (o_nc I)) (dof_to_elems (repeat (I, fun c => c) n) d)) = n * length (pushes I d)).
  { induction n as [|n IH]; [reflexivity|]. cbn [repeat dof_to_elems]. rewrite map_id, filter_app, app_length, IH.
    assert (F : filter (fun c => Nat.ltb c (o_nc I)) (pushes I d) = pushes I d).
    { assert (X : forall l, (forall c, In c l -> c < o_nc I) -> filter (fun c => Nat.ltb c (o_nc I)) l = l).
      { induction l as [|c l IHl]; intros H; auto. cbn [filter]. rewrite (proj2 (Nat.ltb_lt _ _) (H c (or_introl eq_refl))). f_equal. apply IHl. intros; apply H; right; auto. }
      apply X. intros c Hc. apply pushes_in in Hc. tauto. }
    rewrite F. lia. }
  rewrite L. lia.
Qed.
(** After a call on another mesh the leftover entries can add blocks to the interaction lists ... *)
Definition ex_unb2 : oin := {|
  o_N := 3; o_max := 1; o_nd := 4; o_pos := o_pos ex_unb; o_nc := 2; o_nqc := 1; o_qpos := o_qpos ex_unb;
  o_dbl := fun d => [d]; o_cdofs := fun c => match c with 0 => [1; 2; 3] | _ => [0] end; o_rnd := fun x => x; o_old := fun _ => [] |}.
Theorem C52_other_mesh_same_lists_refuted : exists I1 I2 k s, wf_in I1 /\ wf_in I2 /\ o_old I2 = (fun _ => []) /\
  ~ Permutation (int_list (call_after [(I1, fun c => c)] I2) (octree I2) k s) (int_list I2 (octree I2) k s).
Proof.
  exists ex_unb2, ex_unb, 3, 1. split; [|split; [apply ex_unb_wf|split; [reflexivity|]]].
  - split; [simpl; lia|]. split; [simpl; lia|]. split.
    + intros d Hd. simpl. split; [auto|]. intros e [<-|[]]. auto.
    + intros c Hc d Hd. simpl in *. destruct c as [|[|c]]; simpl in Hd; intuition lia.
  - intros P. apply Permutation_length in P. vm_compute in P. discriminate.
Qed.
(** ... yet every pair (node, quadrature point) is still accounted for exactly once, whatever was
    left in the map. *)
Theorem C52_any_history_still_complete : forall h I i q, wf_in I -> 0 < o_nqc I -> i < o_nd I -> q < o_nq I ->
  length (ways (call_after h I) (octree (call_after h I)) i q) = 1.
Proof. intros h I i q W Wq Hi Hq. apply (C37_each_pair_accounted_for_exactly_once (call_after h I)); [exact W|exact Wq|exact Hi|exact Hq]. Qed.
Example C52_nonvacuous : wf_in ex_oin /\ o_old ex_oin = (fun _ => []) /\ dof_elems (call_after [(ex_oin, fun c => c)] ex_oin) 0 = [0; 0].
Proof. split; [apply ex_oin_wf|]. split; vm_compute; reflexivity. Qed.
