(** Rounding errors of the Direct method. *)
From Coq Require Import ZArith Reals List Arith Bool Permutation Lia Lra.
From Flocq Require Import Core.
From Verif Require Import ModelOctree ModelFmm LibSum SpecBit ProofsBit ProofsRnd ModelAssemble SpecRndDirect.
Import ListNotations.
Local Open Scope R_scope.

Section Direct.
  Variables u e : R.
  Variable A : arith.
  Hypothesis HA : rounds_within u e A.
  Let Hu : 0 <= u. Proof. apply HA. Qed.
  Let He : 0 <= e. Proof. destruct HA as (_ & Q & _). exact Q. Qed.
  Notation aP := (apx u).

  Lemma entry_par' kr cr i d lX lx lh : 0 <= cr -> par (fun X x xh => aP kr cr X x xh) lX lx lh ->
    aP (kr + adds_at lx i d) (INR (adds_at lx i d) * (cr + e)) (@entry exact_arith lX i d) (@entry exact_arith lx i d) (@entry A lh i d).
  Proof.
    intros Hc Hp.
    assert (G : forall j c X x xh, aP (kr + j) c X x xh -> aP (kr + j + adds_at lx i d) (c + INR (adds_at lx i d) * (cr + e))
       (fold_left (@ent_step exact_arith i d) lX X) (fold_left (@ent_step exact_arith i d) lx x) (fold_left (@ent_step A i d) lh xh)).
    { induction Hp as [|k x y z lx' ly lz Pz Hp IH]; intros j c X0 x0 xh0 Hx.
      - change (adds_at [] i d) with 0%nat. eapply (apx_weak u Hu); [| |apply Hx]; [lia|simpl; lra].
      - cbn [fold_left]. unfold ent_step at 2 4 6. unfold adds_at. cbn [filter fst snd]. destruct (Nat.eqb (fst k) i && Nat.eqb (snd k) d) eqn:Ek; cbn [length].
        + fold (adds_at ly i d). eapply (apx_weak u Hu); [| |apply (IH (S j) (c + cr + e))]; [lia|rewrite S_INR; lra|].
          replace (kr + S j)%nat with (S (kr + j)) by lia. apply (apx_add u e Hu He A HA); auto. eapply (apx_weak u Hu); [| |apply Pz]; [lia|lra].
        + apply IH. auto. }
    eapply (apx_weak u Hu); [| |apply (G 0%nat 0 0 0 0)]; [lia|lra|].
    eapply (apx_weak u Hu); [| |rewrite <- Rabs_R0 at 1; apply apx_exact]; [lia|lra].
  Qed.

  Variable I : oin.
  Variable K : kern.
  Variable S : singular_rule.
  Variable N : nat.
  Variable J : R.
  Hypothesis HR : rules_within I K S N J.
  Definition dcr : R := INR N * (e * J + e + e).
  Lemma dJ : 0 <= J. Proof. destruct HR as (_ & _ & Q & _). assert (X := Q 0%nat). assert (Y := Rabs_pos (jxw K 0)). lra. Qed.
  Lemma dcr_pos : 0 <= dcr.
  Proof. unfold dcr. apply Rmult_le_pos; [apply pos_INR|]. assert (Q := dJ). assert (0 <= e * J) by (apply Rmult_le_pos; auto). lra. Qed.
  Lemma prod3 a b c : Rabs c <= J -> aP 2 (e * J + e) (Rabs a * Rabs b * Rabs c) (a * b * c) (@amul A (@amul A a b) c).
  Proof.
    intros Hc. eapply apx_weak; [apply Hu| | |apply (apx_mul u e Hu He A HA)]; [apply Nat.le_refl| |].
    2:{ apply (apx_mul u e Hu He A HA). apply apx_exact. }
    cbv beta. assert (e * Rabs c <= e * J) by (apply Rmult_le_compat_l; auto). lra.
  Qed.
  Lemma sum3 (l : list nat) (a b c : nat -> R) : (length l <= N)%nat -> (forall q, Rabs (c q) <= J) ->
    aP (2 + N) dcr (fold_left (fun s q => s + Rabs (a q) * Rabs (b q) * Rabs (c q)) l 0) (fold_left (fun s q => s + a q * b q * c q) l 0) (fold_left (fun s q => @aadd A s (@amul A (@amul A (a q) (b q)) (c q))) l 0).
  Proof.
    intros L Hc. assert (U : 0 <= e * J + e + e) by (assert (Q := dJ); assert (0 <= e * J) by (apply Rmult_le_pos; auto); lra).
    eapply (apx_weak u Hu); [| |apply (apx_sum u e Hu He A HA l (fun q => a q * b q * c q) (fun q => @amul A (@amul A (a q) (b q)) (c q)) (fun q => Rabs (a q) * Rabs (b q) * Rabs (c q)) 2 (e * J + e) (fun q _ => prod3 (a q) (b q) (c q) (Hc q)) 0 0 0 0 0)].
    - lia.
    - unfold dcr. apply le_INR in L. assert (INR (length l) * (e * J + e + e) <= INR N * (e * J + e + e)) by (apply Rmult_le_compat_r; auto). lra.
    - eapply (apx_weak u Hu); [| |rewrite <- Rabs_R0 at 1; apply apx_exact]; [lia|lra].
  Qed.
  Lemma local_apx i c j : aP (2 + N) dcr (@local_row exact_arith I (abs_kern K) (abs_rule S) i c j) (@local_row exact_arith I K S i c j) (@local_row A I K S i c j).
  Proof.
    destruct HR as (H1 & H2 & H3 & H4). unfold local_row. destruct (singular_index I i c) as [idx|].
    - unfold singular_row. cbn [aadd amul exact_arith sr_n sr_kernel sr_shape sr_jxw abs_rule].
      apply (sum3 (seq 0 (sr_n S idx)) (fun q => sr_kernel S i c idx q) (fun q => sr_shape S idx q j) (fun q => sr_jxw S c idx q)); [rewrite seq_length; auto|auto].
    - cbn [aadd amul exact_arith kd shp jxw abs_kern].
      apply (sum3 (quads_of_cell I c) (fun q => kd K i q) (fun q => shp K q j) (fun q => jxw K q)); [unfold quads_of_cell; rewrite seq_length; auto|auto].
  Qed.
  Lemma assemble_par owned : par (fun X x xh => aP (2 + N) dcr X x xh) (@assemble_adds exact_arith I (abs_kern K) (abs_rule S) owned) (@assemble_adds exact_arith I K S owned) (@assemble_adds A I K S owned).
  Proof.
    unfold assemble_adds. apply par_flat. intros c _. apply par_flat. intros i _. destruct (owned i); [|constructor].
    induction (seq 0 (length (o_cdofs I c))) as [|j l IH]; cbn [map]; constructor; auto. apply local_apx.
  Qed.
  Lemma direct_product_apx owned i cols m phi P :
    (forall d, In d cols -> (adds_at (@assemble_adds exact_arith I K S owned) i d <= m)%nat) -> (forall d, In d cols -> Rabs (phi d) <= P) ->
    aP (3 + N + m + length cols) (INR (length cols) * (INR m * (dcr + e) * P + e + e))
      (@row_product exact_arith I (abs_kern K) (abs_rule S) owned cols (fun d => Rabs (phi d)) i)
      (@row_product exact_arith I K S owned cols phi i) (@row_product A I K S owned cols phi i).
  Proof.
    intros Hm HP. unfold row_product. cbn [aadd amul exact_arith].
    eapply (apx_weak u Hu); [| |apply (apx_sum u e Hu He A HA cols (fun d => @entry exact_arith (@assemble_adds exact_arith I K S owned) i d * phi d) (fun d => @amul A (@entry A (@assemble_adds A I K S owned) i d) (phi d))
      (fun d => @entry exact_arith (@assemble_adds exact_arith I (abs_kern K) (abs_rule S) owned) i d * Rabs (phi d)) (Datatypes.S (2 + N + m)) (INR m * (dcr + e) * P + e))].
    - instantiate (1 := 0%nat). lia.
    - instantiate (1 := 0). lra.
    - intros d Hd. assert (CP := dcr_pos). assert (Q := entry_par' _ _ i d _ _ _ CP (assemble_par owned)). specialize (Hm d Hd). specialize (HP d Hd).
      apply (apx_weak u Hu _ (2 + N + m) _ (INR m * (dcr + e))) in Q; [|lia|apply Rmult_le_compat_r; [lra|apply le_INR; auto]].
      eapply (apx_weak u Hu); [| |apply (apx_mul u e Hu He A HA _ _ _ _ _ (phi d) Q)]; [lia|]. apply Rplus_le_compat_r. apply Rmult_le_compat_l; auto. apply Rmult_le_pos; [apply pos_INR|lra].
    - eapply (apx_weak u Hu); [| |rewrite <- Rabs_R0 at 1; apply apx_exact]; [lia|lra].
  Qed.
End Direct.

(** how many values are added into an entry *)
Lemma adds_at_app a b i d : adds_at (a ++ b) i d = (adds_at a i d + adds_at b i d)%nat.
Proof. unfold adds_at. rewrite filter_app, app_length. reflexivity. Qed.
Lemma adds_at_none l i d : (forall x, In x l -> fst (fst x) <> i) -> adds_at l i d = 0%nat.
Proof.
  intros Hl. unfold adds_at. induction l as [|x l IH]; auto. cbn [filter]. assert (N : fst (fst x) <> i) by (apply Hl; left; auto). apply Nat.eqb_neq in N. rewrite N. cbn. apply IH. intros; apply Hl; right; auto.
Qed.
Lemma row_count (cd : list nat) i d (v : nat -> R) : adds_at (map (fun j => (i, nth j cd 0%nat, v j)) (seq 0 (length cd))) i d = count_occ Nat.eq_dec cd d.
Proof.
  assert (G : forall l k, adds_at (map (fun j => (i, nth (j - k) l 0%nat, v j)) (seq k (length l))) i d = count_occ Nat.eq_dec l d).
  { induction l as [|x l IH]; intros k; [reflexivity|]. cbn [length seq map]. rewrite Nat.sub_diag. change (nth 0 (x :: l) 0%nat) with x. cbn [count_occ].
    replace (map (fun j => (i, nth (j - k) (x :: l) 0%nat, v j)) (seq (S k) (length l))) with (map (fun j => (i, nth (j - S k) l 0%nat, v j)) (seq (S k) (length l))).
    2:{ apply map_ext_in. intros j Hj. apply in_seq in Hj. replace (j - k)%nat with (S (j - S k)) by lia. reflexivity. }
    specialize (IH (S k)). unfold adds_at in *. cbn [filter fst snd]. rewrite Nat.eqb_refl. cbn [andb]. destruct (Nat.eq_dec x d) as [->|N].
    - rewrite Nat.eqb_refl. cbn [length]. f_equal. exact IH.
    - apply Nat.eqb_neq in N. rewrite N. exact IH. }
  rewrite <- (G cd 0%nat). f_equal. apply map_ext. intros j. rewrite Nat.sub_0_r. reflexivity.
Qed.
Lemma adds_at_flat {T} (l : list T) (f : T -> list (nat * nat * R)) i d : adds_at (flat_map f l) i d = list_sum (map (fun t => adds_at (f t) i d) l).
Proof. induction l as [|t l IH]; [reflexivity|]. cbn [flat_map map]. rewrite adds_at_app, IH. reflexivity. Qed.
Lemma assemble_count (A : arith) I K S owned i d : (i < o_nd I)%nat -> owned i = true -> adds_at (@assemble_adds A I K S owned) i d = occurrences I d.
Proof.
  intros Hi Ho. unfold assemble_adds, occurrences. rewrite adds_at_flat. f_equal. apply map_ext. intros c. rewrite adds_at_flat.
  assert (G : forall n, (i < n)%nat -> list_sum (map (fun k => adds_at (if owned k then map (fun j => (k, nth j (o_cdofs I c) 0%nat, @local_row A I K S k c j)) (seq 0 (length (o_cdofs I c))) else []) i d) (seq 0 n)) = count_occ Nat.eq_dec (o_cdofs I c) d).
  { assert (Z : forall n k0, (forall k, In k (seq k0 n) -> k <> i) -> list_sum (map (fun k => adds_at (if owned k then map (fun j => (k, nth j (o_cdofs I c) 0%nat, @local_row A I K S k c j)) (seq 0 (length (o_cdofs I c))) else []) i d) (seq k0 n)) = 0%nat).
    { induction n as [|n IH]; intros k0 Hk; [reflexivity|]. cbn [seq map]. change (list_sum (?a :: ?b)) with (a + list_sum b)%nat. rewrite IH by (intros; apply Hk; right; auto).
      rewrite adds_at_none; [reflexivity|]. intros x Hx. assert (k0 <> i) by (apply Hk; left; auto). destruct (owned k0); [|destruct Hx]. apply in_map_iff in Hx. destruct Hx as (j & <- & _). auto. }
    intros n Hn. replace (seq 0 n) with (seq 0 i ++ i :: seq (Datatypes.S i) (n - Datatypes.S i)).
    2:{ change (i :: seq (Datatypes.S i) (n - Datatypes.S i)) with (seq i (Datatypes.S (n - Datatypes.S i))). rewrite <- seq_app. f_equal. lia. }
    rewrite map_app. cbn [map]. unfold list_sum. rewrite fold_right_app. cbn [fold_right]. fold (list_sum (map (fun k => adds_at (if owned k then map (fun j => (k, nth j (o_cdofs I c) 0%nat, @local_row A I K S k c j)) (seq 0 (length (o_cdofs I c))) else []) i d) (seq (Datatypes.S i) (n - Datatypes.S i)))).
    rewrite (Z (n - Datatypes.S i)%nat (Datatypes.S i)) by (intros k Hk; apply in_seq in Hk; lia). rewrite Ho, row_count, Nat.add_0_r.
    assert (Z0 := Z i 0%nat ltac:(intros k Hk; apply in_seq in Hk; lia)).
    revert Z0. generalize (map (fun k => adds_at (if owned k then map (fun j => (k, nth j (o_cdofs I c) 0%nat, @local_row A I K S k c j)) (seq 0 (length (o_cdofs I c))) else []) i d) (seq 0 i)).
    intros l. generalize (count_occ Nat.eq_dec (o_cdofs I c) d). induction l as [|a l IHl]; intros k Hl; auto. unfold list_sum in *. cbn [fold_right] in *. rewrite IHl; lia. }
  apply G. auto.
Qed.
(** the entries of an owned row do not depend on the other processes, in any arithmetic *)
Lemma entry_rows (A : arith) I K S owned i d : (i < o_nd I)%nat -> owned i = true ->
  @entry A (@assemble_adds A I K S owned) i d = fold_left (fun a c => fold_left (@ent_step A i d) (map (fun j => (i, nth j (o_cdofs I c) 0%nat, @local_row A I K S i c j)) (seq 0 (length (o_cdofs I c)))) a) (seq 0 (o_nc I)) 0.
Proof.
  intros Hi Ho. unfold entry. change (fun a x => if Nat.eqb (fst (fst x)) i && Nat.eqb (snd (fst x)) d then @aadd A a (snd x) else a) with (@ent_step A i d).
  unfold assemble_adds. generalize 0. induction (seq 0 (o_nc I)) as [|c l IH]; intros a; [reflexivity|]. cbn [flat_map fold_left]. rewrite fold_left_app, IH. f_equal. clear IH.
  replace (seq 0 (o_nd I)) with (seq 0 i ++ i :: seq (Datatypes.S i) (o_nd I - Datatypes.S i)).
  2:{ change (i :: seq (Datatypes.S i) (o_nd I - Datatypes.S i)) with (seq i (Datatypes.S (o_nd I - Datatypes.S i))). rewrite <- seq_app. f_equal. lia. }
  rewrite flat_map_app, fold_left_app. cbn [flat_map]. rewrite fold_left_app, Ho.
  assert (Z : forall k0 n a, (forall k, In k (seq k0 n) -> k <> i) -> fold_left (@ent_step A i d) (flat_map (fun k => if owned k then map (fun j => (k, nth j (o_cdofs I c) 0%nat, @local_row A I K S k c j)) (seq 0 (length (o_cdofs I c))) else []) (seq k0 n)) a = a).
  { intros k0 n b Hk. apply ent_idle. intros x Hx. apply in_flat_map in Hx. destruct Hx as (k & Ik & Hx). destruct (owned k); [|destruct Hx]. apply in_map_iff in Hx. destruct Hx as (j & <- & _). cbn. auto. }
  rewrite !Z; auto; intros k Hk; apply in_seq in Hk; lia.
Qed.
