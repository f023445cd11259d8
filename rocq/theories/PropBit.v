(** * Which results are reproducible bit for bit, and the rounding error of the near field (C73). *)
From Coq Require Import ZArith QArith Reals List Arith Bool Permutation Lia Lra.
From Flocq Require Import Core Relative.
From Verif Require Import ModelOctree SpecOctree ModelFmm SpecFmm LibSum SpecBit PropOctree PropFmm ProofsOctFacts ProofsOctMore ModelConc ModelWork ProofsWork2 ProofsWork3 ProofsBit ProofsRnd ProofsCnt PropWork.
Import ListNotations.
Local Open Scope nat_scope.

(** Every execution of the assembly loops gives the same bits in every entry of the near-field matrices,
    whatever the arithmetic. *)
Theorem C73_near_matrix_is_reproducible : forall {AR : arith} E I K owned m1 m1' m2 m2' i d, wf_in I ->
  (forall i d, m1 (Ent i d) = VR E 0) -> (forall i d, m2 (Ent i d) = VR E 0) ->
  direct_run E I (octree I) K owned m1 m1' -> direct_run E I (octree I) K owned m2 m2' -> m1' (Ent i d) = m2' (Ent i d).
Proof.
  intros AR E I K owned m1 m1' m2 m2' i d W S1 S2 R1 R2.
  destruct (direct_run_result E I K owned m1 m1' S1 R1) as (cl & lv & P1 & P2 & P3 & _). destruct (direct_run_result E I K owned m2 m2' S2 R2) as (cl' & lv' & Q1 & Q2 & Q3 & _).
  rewrite P3, Q3. f_equal. apply near_matrix_bit; auto. Unshelve. exact (fun _ => 0%R).
Qed.
(** The product of every execution is a function of one thing only: the order in which the upward pass
    takes the children of each block. *)
Theorem C73_only_the_order_of_children_matters : forall {AR : arith} E I K phi owned m m', wf_in I -> fmm_start E m -> fmm_run E I (octree I) K phi owned m m' ->
  exists up, (forall l, 1 <= l <= o_N I -> Permutation (up l) (level_ids (octree I) l)) /\
    forall s, good_sched I (octree I) s -> (forall l p, 1 <= l <= o_N I -> children_order I p (s_up s l) = children_order I p (up l)) ->
    forall i, asR E (m' (Out i)) = fmm_product E I (octree I) K phi owned s i.
Proof.
  intros AR E I K phi owned m m' W S R. destruct (C68_every_execution_is_a_sequential_one E I K phi owned m m' W S R) as (s0 & G0 & E0). exists (s_up s0). split; [apply G0|].
  intros s Gs Hk i. rewrite E0. apply product_bit; auto. intros l p Hl. symmetry. apply Hk; auto.
Qed.
(** in particular two executions that took the children in the same orders agree bit for bit *)
Theorem C73_same_child_orders_same_bits : forall {AR : arith} E I K phi owned s s' i, wf_in I -> good_sched I (octree I) s -> good_sched I (octree I) s' ->
  (forall l p, 1 <= l <= o_N I -> children_order I p (s_up s l) = children_order I p (s_up s' l)) ->
  fmm_product E I (octree I) K phi owned s i = fmm_product E I (octree I) K phi owned s' i.
Proof. intros AR E I K phi owned s s' i W G1 G2 Hk. apply product_bit; auto. Qed.
(** ... and so do two processes, or two runs with different partitions, for the nodes they own *)
Theorem C73_partition_does_not_change_bits : forall {AR : arith} E I K phi owned owned' s i, wf_in I -> good_sched I (octree I) s -> owned i = true -> owned' i = true ->
  fmm_product E I (octree I) K phi owned s i = fmm_product E I (octree I) K phi owned' s i.
Proof. intros AR E I K phi owned owned' s i W G H1 H2. apply product_part; auto. Qed.

(** ** The order of the children does matter in binary64 *)
(** one far block with three children, each holding one panel; the node is in a block far away *)
Definition ex_three : oin := {|
  o_N := 3; o_max := 1; o_nd := 5;
  o_pos := fun d => mkpt (match d with 0%nat => -1 | 1%nat => -(9#10) | _ => 1 end)%Q (match d with 2%nat => 5#100 | 3%nat => 45#100 | 4%nat => 45 # 100 | _ => 1#100 end)%Q (match d with 4%nat => 45#100 | 3%nat => 5#100  | _ => 1#100 end)%Q;
  o_nc := 4; o_nqc := 1;
  o_qpos := fun q => mkpt (match q with 0%nat => -(95 # 100) | _ => 95 # 100 end)%Q (match q with 1%nat => 4#100 | 2%nat => 44#100 | 3%nat => 44 # 100 | _ => 1#100 end)%Q (match q with 3%nat => 44#100 | 2%nat => 4#100  | _ => 1#100 end)%Q;
  o_dbl := fun d => [d]; o_cdofs := fun c => match c with 0%nat => [0%nat;1%nat] | _ => [(c + 1)%nat] end; o_rnd := fun x => x; o_old := fun _ => [] |}.
Lemma ex_three_wf : wf_in ex_three.
Proof.
  split; [simpl; lia|]. split; [simpl; lia|]. split.
  - intros d Hd. simpl. split; [auto|]. intros x [<-|[]]. auto.
  - intros c Hc. cbn in Hc. destruct c as [|[|[|[|c]]]]; cbn; try lia; intuition lia.
Qed.
(** expansions of order zero (a total charge), with rounded additions; conversions and evaluations of
    unit factor *)
Definition charge_eops (rnd : R -> R) : eops := {|
  ME := R; LE := R; mz := fun _ => 0%R; msrc := fun m w _ => rnd (m + w)%R; madd := fun a b => rnd (a + b)%R; maddc := fun m x c => rnd (m + rnd (c * x))%R;
  lz := fun _ => 0%R; laddl := fun a b => rnd (a + b)%R; laddm := fun a b => rnd (a + b)%R; evM := fun m _ => m; evL := fun l _ => l |}.
Definition ex_up (l3 : list nat) : sched := let st := octree ex_three in {| s_direct := st_childless st; s_big := fun l => nth l (st_dfill st) []; s_leaves := st_childless st;
  s_up := fun l => if Nat.eqb l 3 then l3 else level_ids st l; s_down := fun l => nth l (st_dfill st) []; s_eval := st_childless st |}.
Lemma ex_up_good l3 : Permutation l3 [5; 6; 7; 8] -> good_sched ex_three (octree ex_three) (ex_up l3).
Proof.
  intros Hp. unfold good_sched, ex_up. cbn [s_direct s_big s_leaves s_up s_down s_eval]. assert (L3 : level_ids (octree ex_three) 3 = [5; 6; 7; 8]) by (vm_compute; reflexivity).
  repeat split; auto. intros l Hl. destruct (Nat.eqb_spec l 3) as [->|]; auto.
  Qed.
Definition rnd_arith (rnd : R -> R) (p : R) : arith := {| aadd := fun x y => rnd (x + y)%R; amul := fun x y => rnd (x * y)%R; adiv := fun x y => rnd (x / y)%R; api := p |}.
Section Symbolic.
  Variable rnd : R -> R.
  Variable p : R.
  Variable K : kern.
  Variable phi : nat -> R.
  Definition w4 q := rnd (rnd (rnd (shp K q 0 * jxw K q) / 4) / p)%R.
  Definition ch q d := rnd (0 + rnd (0 + rnd (phi d * rnd (0 + w4 q))))%R.
  Definition res (M : R) := rnd (rnd (rnd (rnd (rnd (rnd (rnd (rnd (rnd (0 + rnd (rnd (0 + sing K 0 0 0) * phi 0%nat)) + rnd (rnd (0 + sing K 0 0 1) * phi 1%nat)) + rnd (0 * phi 2%nat)) + rnd (0 * phi 3%nat)) + rnd (0 * phi 4%nat)) + 0) + 0) + 0)
      + rnd (0 + rnd (0 + rnd (0 + rnd (rnd (0 + rnd (0 + rnd (0 + 0))) + M)))))%R.
  Lemma ex_product1 : fmm_product (H := rnd_arith rnd p) (charge_eops rnd) ex_three (octree ex_three) K phi (fun _ => true) (ex_up [5; 6; 7; 8]) 0 =
    res (rnd (rnd (rnd (0 + ch 1 2) + ch 2 3) + ch 3 4))%R.
  Proof. vm_compute. reflexivity. Qed.
  Lemma ex_product2 : fmm_product (H := rnd_arith rnd p) (charge_eops rnd) ex_three (octree ex_three) K phi (fun _ => true) (ex_up [6; 7; 5; 8]) 0 =
    res (rnd (rnd (rnd (0 + ch 2 3) + ch 3 4) + ch 1 2))%R.
  Proof. vm_compute. reflexivity. Qed.
End Symbolic.

(** facts of binary64 *)
Lemma dbl_fix m k : (Z.abs m < 2 ^ 53)%Z -> (-1074 <= k)%Z -> dbl (IZR m * bpow radix2 k) = (IZR m * bpow radix2 k)%R.
Proof.
  intros Hm Hk. apply round_generic; [apply valid_rnd_N|]. apply generic_format_FLT. exists (Float radix2 m k); auto.
Qed.
Lemma dbl_0 : dbl 0 = 0%R. Proof. apply round_0. apply valid_rnd_N. Qed.
Lemma dbl_idem x : dbl (dbl x) = dbl x.
Proof. unfold dbl. apply round_generic; [apply valid_rnd_N|]. apply generic_format_round; [apply FLT_exp_valid; reflexivity|apply valid_rnd_N]. Qed.
Lemma dbl_pi_pos : (1 <= dbl PI)%R.
Proof.
  assert (E1 : dbl 1 = 1%R) by (rewrite <- (Rmult_1_r 1); apply (dbl_fix 1 0); reflexivity || discriminate).
  rewrite <- E1 at 1. unfold dbl. apply round_le; [apply FLT_exp_valid; reflexivity|apply valid_rnd_N|]. assert (Q := PI_RGT_0). assert (Q2 := PI2_1). lra.
Qed.
Lemma dbl_four x : dbl (4 * dbl x) = (4 * dbl x)%R.
Proof.
  assert (G : generic_format radix2 (FLT_exp (-1074) 53) (dbl x)) by (apply generic_format_round; [apply FLT_exp_valid; reflexivity|apply valid_rnd_N]).
  apply FLT_format_generic in G; [|reflexivity]. destruct G as [f Hf Hm He]. destruct f as [m k]. cbn [Fnum Fexp] in *. rewrite Hf. unfold F2R. cbn [Fnum Fexp].
  replace (4 * (IZR m * bpow radix2 k))%R with (IZR m * bpow radix2 (k + 2))%R; [apply dbl_fix; [exact Hm|lia]|].
  rewrite bpow_plus. replace (bpow radix2 2) with 4%R by (cbn; lra). ring.
Qed.
Lemma P52 : IZR (2 ^ 52) = bpow radix2 52. Proof. apply (IZR_Zpower radix2 52). discriminate. Qed.
Lemma dbl_tie : dbl (1 + bpow radix2 (-53)) = 1%R.
Proof.
  assert (P := bpow_gt_0 radix2 (-53)). assert (P1 : (bpow radix2 (-53) < 1)%R) by (apply (bpow_lt radix2 (-53) 0); reflexivity).
  assert (M : mag_val radix2 _ (mag radix2 (1 + bpow radix2 (-53))) = 1%Z).
  { apply mag_unique. rewrite Rabs_right by lra. cbn [Z.sub Z.pos_sub Z.add Z.opp]. cbn. split; [lra|]. cbn in P1. lra. }
  unfold dbl, round, scaled_mantissa, cexp. rewrite M. replace (FLT_exp (-1074) 53 1) with (-52)%Z by reflexivity. cbn [Z.opp].
  assert (S : ((1 + bpow radix2 (-53)) * bpow radix2 52 = IZR (2 ^ 52) + / 2)%R).
  { rewrite Rmult_plus_distr_r, <- bpow_plus. replace (-53 + 52)%Z with (-1)%Z by reflexivity. rewrite Rmult_1_l. rewrite <- (IZR_Zpower radix2 52) by discriminate. f_equal. }
  rewrite S. assert (F : Zfloor (IZR (2 ^ 52) + / 2) = (2 ^ 52)%Z) by (apply Zfloor_imp; rewrite plus_IZR; lra).
  unfold Znearest. rewrite F. replace (IZR (2 ^ 52) + / 2 - IZR (2 ^ 52))%R with (/ 2)%R by ring. rewrite Rcompare_Eq by reflexivity.
  replace (negb (Z.even (2 ^ 52))) with false by reflexivity. unfold F2R. cbn [Fnum Fexp].
  rewrite P52. rewrite <- bpow_plus. reflexivity.
Qed.
Definition tie_phi (d : nat) : R := match d with 2 => 1%R | 3 | 4 => bpow radix2 (-53) | _ => 0%R end.
Definition tie_kern : kern := {| kd := fun _ _ => 0%R; shp := fun _ _ => 1%R; jxw := fun _ => (4 * dbl PI)%R; sing := fun _ _ _ => 0%R |}.
Lemma tie_w q : w4 dbl (dbl PI) tie_kern q = 1%R.
Proof.
  unfold w4. cbn [shp jxw tie_kern]. assert (P := dbl_pi_pos). rewrite Rmult_1_l, dbl_four. replace (4 * dbl PI / 4)%R with (dbl PI) by field. rewrite dbl_idem.
  replace (dbl PI / dbl PI)%R with (1 * bpow radix2 0)%R by (cbn; field; lra). rewrite (dbl_fix 1 0) by (reflexivity || discriminate). cbn. ring.
Qed.
Lemma dbl_1 : dbl 1 = 1%R. Proof. rewrite <- (Rmult_1_r 1). apply (dbl_fix 1 0); reflexivity || discriminate. Qed.
Lemma dbl_eps : dbl (bpow radix2 (-53)) = bpow radix2 (-53).
Proof. rewrite <- (Rmult_1_l (bpow radix2 (-53))). apply (dbl_fix 1 (-53)); reflexivity || discriminate. Qed.
Lemma dbl_2eps : dbl (bpow radix2 (-53) + bpow radix2 (-53)) = bpow radix2 (-52).
Proof.
  replace (bpow radix2 (-53) + bpow radix2 (-53))%R with (1 * bpow radix2 (-52))%R; [rewrite (dbl_fix 1 (-52)) by (reflexivity || discriminate); ring|].
  change (-52)%Z with (-53 + 1)%Z. rewrite bpow_plus. replace (bpow radix2 1) with 2%R by (cbn; lra). ring.
Qed.
Lemma dbl_1_2eps : dbl (bpow radix2 (-52) + 1) = (1 + bpow radix2 (-52))%R.
Proof.
  replace (bpow radix2 (-52) + 1)%R with (IZR (2 ^ 52 + 1) * bpow radix2 (-52))%R; [rewrite dbl_fix by (reflexivity || discriminate)|]; rewrite plus_IZR, P52, Rmult_plus_distr_r, <- bpow_plus; change (bpow radix2 (52 + -52)) with 1%R; ring.
Qed.
Lemma tie_ch q d : In d [2;3;4] -> ch dbl (dbl PI) tie_kern tie_phi q d = tie_phi d.
Proof.
  intros Hd. unfold ch. rewrite tie_w. rewrite !Rplus_0_l, dbl_1, Rmult_1_r. 
  destruct Hd as [<-|[<-|[<-|[]]]]; cbn [tie_phi]; rewrite ?dbl_1, ?dbl_eps, ?dbl_1, ?dbl_eps; auto.
Qed.
Lemma tie_res M : dbl M = M -> res dbl tie_kern tie_phi M = M.
Proof.
  intros Hm. unfold res. cbn [sing tie_kern tie_phi]. repeat (rewrite ?Rplus_0_l, ?Rplus_0_r, ?Rmult_0_l, ?Rmult_0_r, ?dbl_0, ?Hm). reflexivity.
Qed.
(** bit-for-bit reproducibility of the whole product fails: two legal executions of the upward pass on the
    same binary64 data give 1 and 1 + 2^-52 *)
Theorem C73_child_order_changes_bits_refuted :
  let E := charge_eops dbl in
  exists I K phi s s', wf_in I /\ good_sched I (octree I) s /\ good_sched I (octree I) s' /\
    fmm_product (H := double_arith) E I (octree I) K phi (fun _ => true) s 0 = 1%R /\
    fmm_product (H := double_arith) E I (octree I) K phi (fun _ => true) s' 0 = (1 + bpow radix2 (-52))%R.
Proof.
  intros E. exists ex_three, tie_kern, tie_phi, (ex_up [5; 6; 7; 8]), (ex_up [6; 7; 5; 8]). split; [apply ex_three_wf|]. split; [apply ex_up_good; auto|].
  split; [apply ex_up_good; apply Permutation_sym; apply (Permutation_middle [6;7] [8] 5)|].
  change double_arith with (rnd_arith dbl (dbl PI)). subst E. split.
  - rewrite ex_product1, !tie_ch by (simpl; auto). cbn [tie_phi]. rewrite Rplus_0_l, dbl_1, dbl_tie, dbl_tie. apply tie_res. apply dbl_1.
  - rewrite ex_product2, !tie_ch by (simpl; auto). cbn [tie_phi]. rewrite Rplus_0_l, dbl_eps, dbl_2eps, dbl_1_2eps. apply tie_res. rewrite <- dbl_1_2eps at 1. rewrite dbl_idem. apply dbl_1_2eps.
Qed.

(** ** Rounding of the near field *)
(** the operations of binary64 (round to nearest even, gradual underflow, no overflow) commit a relative
    error of at most 2^-53 and an absolute error of at most 2^-1075 *)
Theorem C73_double_arithmetic_rounds_within : rounds_within (bpow radix2 (-53)) (bpow radix2 (-1075)) double_arith.
Proof.
  replace (bpow radix2 (-53)) with (/ 2 * bpow radix2 (-52))%R by (change (-52)%Z with (-53 + 1)%Z; rewrite bpow_plus; replace (bpow radix2 1) with 2%R by (cbn; lra); field).
  replace (bpow radix2 (-1075)) with (/ 2 * bpow radix2 (-1074))%R by (change (-1074)%Z with (-1075 + 1)%Z; rewrite bpow_plus; replace (bpow radix2 1) with 2%R by (cbn; lra); field).
  apply double_rounds.
Qed.
(** Every entry of the near-field matrix assembled in an arithmetic of unit roundoff [u] differs from the
    exactly assembled one by a multiple of the same sum taken with absolute values *)
Theorem C73_near_entry_rounding : forall u e (A : arith) I K owned J cl lv i d, rounds_within u e A -> wf_in I -> 0 < o_nqc I -> (forall q, Rabs (jxw K q) <= J)%R ->
  let exact := direct_adds (H := exact_arith) I (octree I) K owned cl lv in
  let terms := adds_at exact i d in let n := 2 + o_nqc I + terms in
  (Rabs (entry (H := A) (direct_adds (H := A) I (octree I) K owned cl lv) i d - entry (H := exact_arith) exact i d) <=
     ((1 + u) ^ n - 1) * entry (H := exact_arith) (direct_adds (H := exact_arith) I (octree I) (abs_kern K) owned cl lv) i d
     + (1 + u) ^ n * (INR terms * (INR (o_nqc I) * (e * J + e + e) + e)))%R.
Proof. intros u e A I K owned J cl lv i d HA W Wq HJ. apply entry_bound; auto. Qed.
(** the number of terms of an entry: at most one per occurrence of the column in a cell and per level of
    the tree, plus one *)
Theorem C73_terms_of_an_entry : forall (A : arith) I K owned cl lv i d, wf_in I -> 0 < o_nqc I ->
  Permutation cl (st_childless (octree I)) -> (forall l, 1 <= l <= o_N I -> Permutation (lv l) (nth l (st_dfill (octree I)) [])) ->
  adds_at (direct_adds (H := A) I (octree I) K owned cl lv) i d <= S (o_N I) * occurrences I d.
Proof. intros A I K owned cl lv i d W Wq Hc Hl. apply adds_bound; auto. Qed.
(** ... and so does every row of its product with a vector, whatever the execution *)
Theorem C73_near_product_rounding : forall u e (A : arith) I K owned J cl lv phi P M i, rounds_within u e A -> wf_in I -> 0 < o_nqc I -> (forall q, Rabs (jxw K q) <= J)%R ->
  Permutation cl (st_childless (octree I)) -> (forall l, 1 <= l <= o_N I -> Permutation (lv l) (nth l (st_dfill (octree I)) [])) ->
  (forall d, d < o_nd I -> occurrences I d <= M) -> (forall d, d < o_nd I -> (Rabs (phi d) <= P)%R) ->
  let m := S (o_N I) * M in let k := 3 + o_nqc I + m + o_nd I in
  let adds {a : arith} k := direct_adds I (octree I) k owned cl lv in
  (Rabs (near_product (A := A) (adds (a := A) K) (o_nd I) phi i - near_product (A := exact_arith) (adds (a := exact_arith) K) (o_nd I) phi i) <=
     ((1 + u) ^ k - 1) * near_product (A := exact_arith) (adds (a := exact_arith) (abs_kern K)) (o_nd I) (fun d => Rabs (phi d)) i
     + (1 + u) ^ k * (INR (o_nd I) * (INR m * (INR (o_nqc I) * (e * J + e + e) + e) * P + e + e)))%R.
Proof.
  intros u e A I K owned J cl lv phi P M i HA W Wq HJ Hc Hl HM HP m k adds. apply (product_bound u e A HA I K owned J Wq HJ cl lv (o_nd I) m phi P i); [|exact HP|].
  - intros d Hd. eapply Nat.le_trans; [apply adds_bound; auto|]. apply Nat.mul_le_mono_l. auto.
  - destruct W as (_ & Nd & _). assert (Q := HP 0%nat Nd). assert (Q2 := Rabs_pos (phi 0%nat)). lra.
Qed.
(** the hypotheses are met by binary64 and a mesh *)
Example C73_nonvacuous : wf_in ex_three /\ 0 < o_nqc ex_three /\ rounds_within (bpow radix2 (-53)) (bpow radix2 (-1075)) double_arith /\
  (forall q, Rabs (jxw tie_kern q) <= 16)%R /\ (forall d, d < o_nd ex_three -> occurrences ex_three d <= 1) /\ (forall d, d < o_nd ex_three -> (Rabs (tie_phi d) <= 1)%R) /\
  good_sched ex_three (octree ex_three) (ex_up [6; 7; 5; 8]) /\ children_order ex_three 3 (s_up (ex_up [6; 7; 5; 8]) 3) = [6; 7; 5].
Proof.
  split; [apply ex_three_wf|]. split; [cbn; lia|]. split; [apply C73_double_arithmetic_rounds_within|]. split.
  - intros q. cbn [jxw tie_kern]. assert (P := dbl_pi_pos). rewrite Rabs_right by lra.
    assert (dbl PI <= dbl 4)%R by (unfold dbl; apply round_le; [apply FLT_exp_valid; reflexivity|apply valid_rnd_N|apply PI_4]).
    assert (E4 : dbl 4 = 4%R) by (rewrite <- (Rmult_1_r 4); apply (dbl_fix 4 0); reflexivity || discriminate). lra.
  - split; [intros d Hd; cbn in Hd; do 5 (destruct d as [|d]; [vm_compute; lia|]); lia|]. split.
    + intros d _. unfold tie_phi. assert (P := bpow_gt_0 radix2 (-53)). assert (P1 : (bpow radix2 (-53) < 1)%R) by (apply (bpow_lt radix2 (-53) 0); reflexivity).
      destruct d as [|[|[|[|[|d]]]]]; rewrite ?Rabs_R0, ?Rabs_R1, ?Rabs_right; lra.
    + split; [|vm_compute; reflexivity]. apply ex_up_good; apply Permutation_sym; apply (Permutation_middle [6;7] [8] 5).
Qed.
