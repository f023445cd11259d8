(** * Reproducibility and rounding errors of the Direct method (C79). *)
From Coq Require Import ZArith QArith Reals List Arith Bool Permutation Lia Lra.
From Flocq Require Import Core.
From Verif Require Import ModelOctree ModelFmm LibSum SpecBit ProofsBit ProofsRnd ModelAssemble SpecRndDirect ProofsRndDirect PropBit.
Import ListNotations.
Local Open Scope nat_scope.

(** The entries a process stores are the same bits, however the nodes are distributed over the processes and whatever
    the arithmetic. *)
Theorem C79_stored_entries_are_reproducible : forall (A : arith) I K S owned owned' i d, i < o_nd I -> owned i = true -> owned' i = true ->
  entry (assemble_adds I K S owned) i d = entry (assemble_adds I K S owned') i d.
Proof. intros A I K S owned owned' i d Hi H1 H2. rewrite !entry_rows by auto. reflexivity. Qed.
(** One value is added into the entry for each cell (and local function) that has the column's node. *)
Theorem C79_terms_of_an_entry : forall (A : arith) I K S owned i d, i < o_nd I -> owned i = true ->
  adds_at (assemble_adds I K S owned) i d = occurrences I d.
Proof. intros A I K S owned i d Hi Ho. apply assemble_count; auto. Qed.
(** Error of a stored entry: a relative error of about (2 + points + cells at the node) roundings with respect to the sum
    of the absolute values of what was added. *)
Theorem C79_stored_entry_rounding : forall u e (A : arith) I K S owned N J i d, rounds_within u e A -> rules_within I K S N J -> i < o_nd I -> owned i = true ->
  let terms := occurrences I d in let n := 2 + N + terms in
  (Rabs (entry (H := A) (assemble_adds (H := A) I K S owned) i d - entry (H := exact_arith) (assemble_adds (H := exact_arith) I K S owned) i d) <=
     ((1 + u) ^ n - 1) * entry (H := exact_arith) (assemble_adds (H := exact_arith) I (abs_kern K) (abs_rule S) owned) i d
     + (1 + u) ^ n * (INR terms * (INR N * (e * J + e + e) + e)))%R.
Proof.
  intros u e A I K S owned N J i d HA HR Hi Ho. cbv zeta. rewrite <- (assemble_count exact_arith I K S owned i d Hi Ho).
  destruct (entry_par' u e A HA _ _ i d _ _ _ (dcr_pos u e A HA I K S N J HR) (assemble_par u e A HA I K S N J HR owned)) as (_ & _ & Q). exact Q.
Qed.
(** Error of a product with the stored matrix, in whatever order a process has its columns. *)
Theorem C79_product_rounding : forall u e (A : arith) I K S owned N J cols phi P M i, rounds_within u e A -> rules_within I K S N J -> i < o_nd I -> owned i = true ->
  Permutation cols (seq 0 (o_nd I)) -> (forall d, d < o_nd I -> occurrences I d <= M) -> (forall d, d < o_nd I -> (Rabs (phi d) <= P)%R) ->
  let k := 3 + N + M + o_nd I in
  (Rabs (row_product (H := A) I K S owned cols phi i - direct_vmult (H := exact_arith) I K S owned phi i) <=
     ((1 + u) ^ k - 1) * direct_vmult (H := exact_arith) I (abs_kern K) (abs_rule S) owned (fun d => Rabs (phi d)) i
     + (1 + u) ^ k * (INR (o_nd I) * (INR M * (INR N * (e * J + e + e) + e) * P + e + e)))%R.
Proof.
  intros u e A I K S owned N J cols phi P M i HA HR Hi Ho Hp HM HP k.
  assert (HI : forall d, In d cols -> d < o_nd I) by (intros d Hd; apply (Permutation_in d Hp) in Hd; apply in_seq in Hd; lia).
  assert (Q := direct_product_apx u e A HA I K S N J HR owned i cols M phi P). 
  assert (L : length cols = o_nd I) by (rewrite (Permutation_length Hp), seq_length; auto).
  assert (Fl : forall (K' : kern) (S' : singular_rule) v, row_product (H := exact_arith) I K' S' owned cols v i = direct_vmult (H := exact_arith) I K' S' owned v i).
  { intros K' S' v. unfold row_product, direct_vmult. cbn [aadd amul exact_arith]. rewrite !fold_left_plus. f_equal. apply suml_perm. auto. }
  rewrite !Fl, L in Q. destruct Q as (_ & _ & Q).
  - intros d Hd. rewrite assemble_count by auto. auto.
  - auto.
  - exact Q.
Qed.
(** So two distributions of the nodes give products that differ by rounding errors only ... *)
Theorem C79_partitions_differ_by_rounding_only : forall u e (A : arith) I K S owned owned' N J cols cols' phi P M i, rounds_within u e A -> rules_within I K S N J -> i < o_nd I -> owned i = true -> owned' i = true ->
  Permutation cols (seq 0 (o_nd I)) -> Permutation cols' (seq 0 (o_nd I)) -> (forall d, d < o_nd I -> occurrences I d <= M) -> (forall d, d < o_nd I -> (Rabs (phi d) <= P)%R) ->
  let k := 3 + N + M + o_nd I in
  (Rabs (row_product (H := A) I K S owned cols phi i - row_product (H := A) I K S owned' cols' phi i) <=
     2 * (((1 + u) ^ k - 1) * direct_vmult (H := exact_arith) I (abs_kern K) (abs_rule S) owned (fun d => Rabs (phi d)) i
     + (1 + u) ^ k * (INR (o_nd I) * (INR M * (INR N * (e * J + e + e) + e) * P + e + e))))%R.
Proof.
  intros u e A I K S owned owned' N J cols cols' phi P M i HA HR Hi H1 H2 P1 P2 HM HP k.
  assert (Ro : row_product (H := A) I K S owned' cols' phi i = row_product (H := A) I K S owned cols' phi i).
  { unfold row_product. generalize 0%R. induction cols' as [|d l IH] in |- *; intros a; [reflexivity|]. cbn [fold_left]. rewrite IH. rewrite (C79_stored_entries_are_reproducible A I K S owned' owned i d) by auto. reflexivity. }
  rewrite Ro. assert (B1 := C79_product_rounding u e A I K S owned N J cols phi P M i HA HR Hi H1 P1 HM HP). assert (B2 := C79_product_rounding u e A I K S owned N J cols' phi P M i HA HR Hi H1 P2 HM HP). cbv zeta in B1, B2. fold k in B1, B2.
  set (x := direct_vmult (H := exact_arith) I K S owned phi i) in *. replace (row_product (H := A) I K S owned cols phi i - row_product (H := A) I K S owned cols' phi i)%R with ((row_product (H := A) I K S owned cols phi i - x) - (row_product (H := A) I K S owned cols' phi i - x))%R by ring.
  eapply Rle_trans; [apply Rabs_triang|]. rewrite Rabs_Ropp. lra.
Qed.
(** ... and not bit for bit: in binary64 the order of the columns changes the product. *)
Definition ex_tie : oin := {| o_N := 1; o_max := 1; o_nd := 4; o_pos := fun _ => mkpt 0%Q 0%Q 0%Q; o_nc := 2; o_nqc := 1; o_qpos := fun _ => mkpt 0%Q 0%Q 0%Q;
  o_dbl := fun d => [d]; o_cdofs := fun c => match c with 0 => [0] | _ => [1; 2; 3] end; o_rnd := fun x => x; o_old := fun _ => [] |}.
Definition one_kern : kern := {| kd := fun _ _ => 1%R; shp := fun _ _ => 1%R; jxw := fun _ => 1%R; sing := fun _ _ _ => 0%R |}.
Definition no_rule : singular_rule := {| sr_n := fun _ => 0; sr_kernel := fun _ _ _ _ => 0%R; sr_shape := fun _ _ _ => 0%R; sr_jxw := fun _ _ _ => 0%R |}.
Definition eps_vec (d : nat) : R := match d with 0 => 0%R | 1 => 1%R | _ => bpow radix2 (-53) end.
Lemma ex_tie_entry d : d <= 3 -> entry (H := double_arith) (assemble_adds (H := double_arith) ex_tie one_kern no_rule (fun _ => true)) 0 d = match d with 0 => 0%R | _ => 1%R end.
Proof.
  intros Hd. rewrite entry_rows by (cbn; auto with arith).
  assert (R0 : local_row (H := double_arith) ex_tie one_kern no_rule 0 0 0 = 0%R) by reflexivity.
  assert (R1 : forall j, local_row (H := double_arith) ex_tie one_kern no_rule 0 1 j = 1%R).
  { intros j. change (local_row (H := double_arith) ex_tie one_kern no_rule 0 1 j) with (dbl (0 + dbl (dbl (1 * 1) * 1))). rewrite !Rmult_1_r, !dbl_1, Rplus_0_l. apply dbl_1. }
  cbn [seq o_nc ex_tie fold_left o_cdofs length map nth]. rewrite R0, !R1. unfold ent_step. cbn [fst snd].
  destruct d as [|[|[|[|d]]]]; [| | | |lia]; cbn [Nat.eqb andb]; cbn [aadd double_arith]; rewrite Rplus_0_l; [apply dbl_0|apply dbl_1..].
Qed.
Theorem C79_column_order_changes_bits_refuted : exists I K S phi cols cols', Permutation cols (seq 0 (o_nd I)) /\ Permutation cols' (seq 0 (o_nd I)) /\
  row_product (H := double_arith) I K S (fun _ => true) cols phi 0 = 1%R /\
  row_product (H := double_arith) I K S (fun _ => true) cols' phi 0 = (1 + bpow radix2 (-52))%R.
Proof.
  exists ex_tie, one_kern, no_rule, eps_vec, [0; 1; 2; 3], [0; 2; 3; 1]. split; [auto|]. split; [apply perm_skip; apply Permutation_sym; apply (Permutation_middle [2; 3] [] 1)|].
  unfold row_product. cbn [fold_left]. rewrite !ex_tie_entry by lia. cbn [eps_vec aadd amul double_arith].
  assert (Z : dbl (0 * 0) = 0%R) by (rewrite Rmult_0_l; apply dbl_0). rewrite Z, !Rmult_1_l, dbl_1, dbl_eps, !Rplus_0_l, dbl_0, !Rplus_0_l. split.
  - rewrite dbl_1, dbl_tie, dbl_tie. reflexivity.
  - rewrite dbl_eps, dbl_2eps. apply dbl_1_2eps.
Qed.
(** the hypotheses hold for binary64 and the example *)
Example C79_nonvacuous : rounds_within (bpow radix2 (-53)) (bpow radix2 (-1075)) double_arith /\ rules_within ex_tie one_kern no_rule 1 1 /\
  (forall d, d < o_nd ex_tie -> occurrences ex_tie d <= 1) /\ (forall d, d < o_nd ex_tie -> (Rabs (eps_vec d) <= 1)%R) /\
  direct_vmult (H := exact_arith) ex_tie one_kern no_rule (fun _ => true) eps_vec 0 <> 0%R.
Proof.
  split; [apply C73_double_arithmetic_rounds_within|]. split.
  { repeat split; cbn; intros; try lia; rewrite ?Rabs_R1, ?Rabs_R0; lra. }
  split; [intros d Hd; cbn in Hd; destruct d as [|[|[|[|d]]]]; [cbn; lia..|lia]|]. assert (B : (0 < bpow radix2 (-53) <= 1)%R) by (split; [apply bpow_gt_0|change 1%R with (bpow radix2 0); apply bpow_le; lia]). split.
  - intros d _. destruct d as [|[|d]]; cbn [eps_vec]; rewrite Rabs_pos_eq; lra.
  - assert (E : direct_vmult (H := exact_arith) ex_tie one_kern no_rule (fun _ => true) eps_vec 0 = (1 + bpow radix2 (-53) + bpow radix2 (-53))%R); [|lra].
    unfold direct_vmult. cbn [o_nd ex_tie seq fold_left eps_vec].
    assert (E0 : forall d, d <= 3 -> entry (H := exact_arith) (assemble_adds (H := exact_arith) ex_tie one_kern no_rule (fun _ => true)) 0 d = match d with 0 => 0%R | _ => 1%R end).
    { intros d Hd. rewrite entry_rows by (cbn; auto with arith).
      assert (R0 : local_row (H := exact_arith) ex_tie one_kern no_rule 0 0 0 = 0%R) by reflexivity.
      assert (R1 : forall j, local_row (H := exact_arith) ex_tie one_kern no_rule 0 1 j = 1%R).
      { intros j. change (local_row (H := exact_arith) ex_tie one_kern no_rule 0 1 j) with (0 + 1 * 1 * 1)%R. ring. }
      cbn [seq o_nc ex_tie fold_left o_cdofs length map nth]. rewrite R0, !R1. unfold ent_step. cbn [fst snd].
      destruct d as [|[|[|[|d]]]]; [| | | |lia]; cbn [Nat.eqb andb]; cbn [aadd exact_arith]; ring. }
    rewrite !E0 by lia. cbn [aadd amul exact_arith]. ring.
Qed.
