(** * Meshes smaller than the tolerance of the neighbour tests (C76). *)
From Coq Require Import QArith Qabs Qminmax ZArith List Lia Arith Bool Lqa.
From Verif Require Import ModelOctree SpecOctree ModelFmm ProofsOctTree ProofsOctLevels ProofsOctFacts ProofsOctLists ProofsFmmCover ProofsOctGeom ProofsOctMore.
Import ListNotations.
Local Open Scope nat_scope.

Section Small.
  Variable I : oin.
  Hypothesis W : wf_in I.
  Notation st := (octree I).
  Notation bs := (st_blocks (octree I)).
  Notation B := (getb (st_blocks (octree I))).
  Notation N := (o_N I).
  Variable e : Q.
  Hypothesis RE : rounding_within I e.
  Notation m := (max_coord I).
  Notation r := (o_rnd I).
  Hypothesis Sm : ((24 # 10) * m + (2 * inject_Z (Z.of_nat (o_N I)) + 5) * e <= 1 # 1000)%Q.

  Lemma co_range a k : k < length bs -> (- (12 # 10) * m - NQ I * e <= co a (b_min (B k)) /\ co a (b_min (B k)) <= (12 # 10) * m + NQ I * e /\
     - (12 # 10) * m - NQ I * e - e <= co a (pmax r (B k)) /\ co a (pmax r (B k)) <= (12 # 10) * m + NQ I * e + e)%Q.
  Proof.
    intros Hk. assert (P := pos_grid I W e RE a k Hk). assert (T := pmax_grid I W e RE a k Hk). assert (L := lq_le I W e RE k Hk).
    assert (Y := X_root I W a k Hk). assert (P0 := wz_pos I (b_level (B k))). fold (wid I k) in P0.
    assert (G1 := gx_range I e RE a (X I a k) ltac:(lia)). assert (G2 := gx_range I e RE a (X I a k + wid I k) ltac:(lia)).
    repeat split; lra.
  Qed.
  Lemma all_touch k k' : k < length bs -> k' < length bs -> touches r (B k) (B k') = true.
  Proof.
    intros Hk Hk'. destruct (small_e I e RE) as (S0 & S1 & S2 & S3 & _). assert (Tl := r_toll I e RE). assert (M0 := max_coord_nonneg I).
    assert (Sm' := Sm). unfold NQ in *. set (n := (inject_Z (Z.of_nat (o_N I)))%Q) in *.
    assert (F : forall a, faces_meet r (co a (b_min (B k))) (co a (pmax r (B k))) (co a (b_min (B k'))) (co a (pmax r (B k'))) = true).
    { intros a. destruct (co_range a k Hk) as (A1 & A2 & A3 & A4). destruct (co_range a k' Hk') as (C1 & C2 & C3 & C4). unfold NQ in *. fold n in A1, A2, A3, A4, C1, C2, C3, C4.
      unfold faces_meet. apply orb_true_iff. left. apply Qle_bool_iff. set (x := (co a (b_min (B k)) - co a (pmax r (B k')))%Q).
      assert (Rb := r_bound I e RE x ltac:(unfold x; lra) ltac:(unfold x; lra)). apply Qabs_Qle_condition. unfold x in *. split; lra. }
    assert (O : forall a, overlap r (co a (b_min (B k))) (co a (pmax r (B k))) (co a (b_min (B k'))) (co a (pmax r (B k'))) = true).
    { intros a. destruct (co_range a k Hk) as (A1 & A2 & A3 & A4). destruct (co_range a k' Hk') as (C1 & C2 & C3 & C4). unfold NQ in *. fold n in A1, A2, A3, A4, C1, C2, C3, C4.
      unfold overlap. apply andb_true_iff. split; apply Qle_bool_iff.
      - assert (Rb := r_bound I e RE (co a (b_min (B k)) - r toll) ltac:(lra) ltac:(lra)). lra.
      - assert (Rb := r_bound I e RE (co a (pmax r (B k)) + r toll) ltac:(lra) ltac:(lra)). lra. }
    assert (F0 := F 0). assert (O1 := O 1). assert (O2 := O 2). cbn [co] in F0, O1, O2. unfold touches. rewrite F0, O1, O2. reflexivity.
  Qed.
  Lemma all_near k s j : 0 < k < length bs -> s < near_levels I st k -> front I (b_level (B k) + s) j -> In j (near I st k s).
  Proof.
    revert s j. induction k as [k IH] using lt_wf_ind. intros s j Hk Hs F.
    destruct (Nat.eq_dec (b_level (B k)) 1) as [L1|L1].
    - rewrite (near_levels_eq I W), L1 in Hs by auto. simpl in Hs. assert (s = 0) by lia. subst. rewrite (near_1 I W) by auto.
      apply (lvl1_front I W). rewrite L1 in F. exact F.
    - destruct (parent_ok I W k Hk L1) as (P1 & P2 & P3 & P4). revert j F. induction s; intros j F.
      + rewrite (near_0 I W) by auto. apply near0_in. destruct (Nat.eq_dec j k) as [->|NE]; [auto|right].
        rewrite Nat.add_0_r in F. replace (b_level (B k)) with (S (b_level (B k) - 1)) in F by lia.
        destruct (front_up I W (b_level (B k) - 1) j ltac:(lia) F) as (j' & F' & R & C).
        exists j'. split; [|split; auto].
        * apply (IH (b_parent (B k))); auto; try lia; [apply (near_levels_pos I W); lia|rewrite P2, Nat.add_0_r; auto].
        * apply all_touch; [lia|apply F].
      + rewrite (near_S I W) by auto. apply near_next_in. rewrite Nat.add_succ_r in F.
        destruct (front_up I W (b_level (B k) + s) j ltac:(lia) F) as (j' & F' & R & C).
        exists j'. split; [apply IHs; auto; lia|].
        unfold refine1 in R. destruct (b_kids (B j')) as [|x l] eqn:Kj; [left; split; auto; destruct R as [|[]]; auto|].
        right. split; auto. apply all_touch; [lia|apply F].
  Qed.
  Lemma no_far k s : 0 < k < length bs -> s < near_levels I st k -> nonint_list I st k s = [].
  Proof.
    intros Hk Hs. destruct (Nat.eq_dec (b_level (B k)) 1) as [L1|L1]; [apply nonint_1; auto|].
    destruct (nonint_list I st k s) as [|j l] eqn:E; auto. exfalso. assert (Hj : In j (nonint_list I st k s)) by (rewrite E; left; auto).
    assert (F := nonint_front I W k s j Hk L1 Hs Hj). apply (nonint_in I) in Hj; auto. destruct Hj as (_ & Hj). apply Hj. apply (near_in_int I W); auto. apply all_near; auto.
  Qed.
  Lemma all_ways_near i q : i < o_nd I -> q < o_nq I -> exists b, In b (st_childless st) /\ In i (b_nodes (B b)) /\ ways I st i q = [Near b].
  Proof.
    intros Hi Hq. assert (L := ways_one I W i q Hi Hq).
    assert (E : flat_map (fun level => big_ways I st level i q ++ far_ways I st level i q) (seq 1 N) = []).
    { assert (Z : forall l, 1 <= l <= N -> big_ways I st l i q ++ far_ways I st l i q = []).
      { intros l Hl. assert (Zb : forall b, In b (nth l (st_dfill st) []) -> forall s, s < near_levels I st b -> nonint_list I st b s = []).
        { intros b Hb s Hs. apply (dfill_in I W) in Hb; [|lia]. destruct Hb as (Hb & Lb & _). apply no_far; auto. split; auto.
          destruct (Nat.eq_dec b 0) as [->|]; [|lia]. assert (Y := proj2 (level_pos I bs (F_tree I W) 0 Hb) eq_refl). lia. }
        revert Zb. unfold big_ways, far_ways. generalize (nth l (st_dfill st) []) as bl. intros bl Zb.
        assert (Z1 : forall T (f : nat -> list T), (forall b, In b bl -> f b = []) -> flat_map f bl = []).
        { intros T f Hf. clear -Hf. induction bl as [|b bl IH]; [reflexivity|]. cbn. rewrite Hf by (left; auto). apply IH. intros; apply Hf; right; auto. }
        rewrite !Z1; auto.
        - intros b Hb. assert (Z2 : forall s, In s (seq 0 (near_levels I st b)) -> flat_map (fun c => if mem q (b_quads (B c)) then [M2L b c] else []) (same_size I st l b s) ++
            flat_map (fun c => if mem q (b_quads (B c)) then [MEval b c] else []) (smaller I st l b s) = []).
          { intros s Hs. apply in_seq in Hs. unfold same_size, smaller. rewrite (Zb b Hb s) by lia. reflexivity. }
          destruct (mem i (b_nodes (B b))); auto. clear -Z2. induction (seq 0 (near_levels I st b)) as [|s ls IH]; [reflexivity|]. cbn [flat_map]. rewrite (Z2 s) by (left; auto). apply IH. intros; apply Z2; right; auto.
        - intros b Hb. unfold big_quads. assert (Z2 : flat_map (bigger I st l b) (seq 0 (near_levels I st b)) = []).
          { assert (Z3 : forall s, In s (seq 0 (near_levels I st b)) -> bigger I st l b s = []) by (intros s Hs; apply in_seq in Hs; unfold bigger; rewrite (Zb b Hb s) by lia; reflexivity).
            clear -Z3. induction (seq 0 (near_levels I st b)) as [|s ls IH]; [reflexivity|]. cbn [flat_map]. rewrite (Z3 s) by (left; auto). apply IH. intros; apply Z3; right; auto. }
          rewrite Z2. cbn. rewrite andb_false_r. reflexivity. }
      assert (Z1 : forall l, In l (seq 1 N) -> big_ways I st l i q ++ far_ways I st l i q = []) by (intros l Hl; apply in_seq in Hl; apply Z; lia).
      clear -Z1. induction (seq 1 N) as [|l ls IH]; [reflexivity|]. cbn [flat_map]. rewrite (Z1 l) by (left; auto). apply IH. intros; apply Z1; right; auto. }
    unfold ways in *. rewrite E, app_nil_r in *. destruct (near_ways I st i q) as [|w [|]] eqn:Ew; cbn in L; try lia.
    assert (Hw : In w (near_ways I st i q)) by (rewrite Ew; left; auto). unfold near_ways in Hw. apply in_flat_map in Hw. destruct Hw as (b & Hb & Hw).
    destruct (mem i (b_nodes (B b))) eqn:Mi; cbn [andb] in Hw; [|destruct Hw]. destruct (mem q (near_quads I st b)); [|destruct Hw]. destruct Hw as [<-|[]].
    exists b. split; auto. split; auto. apply mem_in in Mi. auto.
  Qed.
End Small.
