(** Rounding errors of sums and products of the near field, in the standard model. *)
From Coq Require Import ZArith Reals List Arith Bool Permutation Lia Lra.
From Flocq Require Import Core Relative.
From Verif Require Import ModelOctree SpecOctree ModelFmm SpecFmm LibSum SpecBit ProofsOctLists ProofsFmmDirect ProofsBit.
Import ListNotations.
Local Open Scope R_scope.

Section Apx.
  Variables u e : R.
  Hypothesis Hu : 0 <= u.
  Hypothesis He : 0 <= e.
  Notation p k := ((1 + u) ^ k).
  Lemma p_ge1 k : 1 <= p k. Proof. apply pow_R1_Rle. lra. Qed.
  Lemma p_mono k l : (k <= l)%nat -> p k <= p l. Proof. intros. apply Rle_pow; auto. lra. Qed.
  (** [x^] approximates [x], of size at most [X], after at most [k] roundings and an underflow budget [c] *)
  Definition apx (k : nat) (c X x xh : R) : Prop := 0 <= c /\ Rabs x <= X /\ Rabs (xh - x) <= (p k - 1) * X + p k * c.
  Lemma apx_weak k l c d X x xh : (k <= l)%nat -> c <= d -> apx k c X x xh -> apx l d X x xh.
  Proof.
    intros Hk Hc (A & B & C). split; [lra|]. split; auto. assert (M := p_mono k l Hk). assert (G := p_ge1 k). assert (0 <= X) by (assert (Q := Rabs_pos x); lra).
    eapply Rle_trans; [apply C|]. apply Rplus_le_compat; [apply Rmult_le_compat_r; lra|]. apply Rmult_le_compat; lra.
  Qed.
  Lemma apx_exact x : apx 0 0 (Rabs x) x x.
  Proof. split; [lra|]. split; [lra|]. unfold Rminus. rewrite Rplus_opp_r, Rabs_R0. simpl. lra. Qed.
  Lemma apx_size k c X x xh : apx k c X x xh -> Rabs xh <= p k * X + p k * c.
  Proof. intros (A & B & C). replace xh with ((xh - x) + x) by ring. eapply Rle_trans; [apply Rabs_triang|]. lra. Qed.
  Variable A : arith.
  Hypothesis HA : rounds_within u e A.
  Lemma apx_add k c d X Y x y xh yh : apx k c X x xh -> apx k d Y y yh -> apx (S k) (c + d + e) (X + Y) (x + y) (aadd xh yh).
  Proof.
    intros Hx Hy. destruct HA as (_ & _ & HA1 & _). assert (Sx := apx_size _ _ _ _ _ Hx). assert (Sy := apx_size _ _ _ _ _ Hy). destruct Hx as (A1 & A2 & A3), Hy as (B1 & B2 & B3). split; [lra|].
    split; [eapply Rle_trans; [apply Rabs_triang|]; lra|].
    replace (aadd xh yh - (x + y)) with ((aadd xh yh - (xh + yh)) + ((xh - x) + (yh - y))) by ring.
    eapply Rle_trans; [apply Rabs_triang|]. eapply Rle_trans; [apply Rplus_le_compat; [apply HA1|apply Rabs_triang]|].
    assert (T : u * Rabs (xh + yh) <= u * (p k * X + p k * c + (p k * Y + p k * d))) by (apply Rmult_le_compat_l; auto; eapply Rle_trans; [apply Rabs_triang|]; lra).
    assert (G := p_ge1 (S k)). assert (Q : e <= p (S k) * e) by (rewrite <- (Rmult_1_l e) at 1; apply Rmult_le_compat_r; lra). simpl pow in *. revert G Q. set (q := p k) in *. intros G Q.
    replace (((1 + u) * q - 1) * (X + Y) + (1 + u) * q * (c + d + e)) with ((q - 1) * X + q * c + ((q - 1) * Y + q * d) + u * (q * X + q * c + (q * Y + q * d)) + (1 + u) * q * e) by ring. lra.
  Qed.
  Lemma apx_mul k c X x xh w : apx k c X x xh -> apx (S k) (c * Rabs w + e) (X * Rabs w) (x * w) (amul xh w).
  Proof.
    intros Hx. destruct HA as (_ & _ & _ & HA1). assert (Sx := apx_size _ _ _ _ _ Hx). destruct Hx as (A1 & A2 & A3). assert (W := Rabs_pos w). split; [apply Rplus_le_le_0_compat; auto; apply Rmult_le_pos; auto|].
    split; [rewrite Rabs_mult; apply Rmult_le_compat_r; auto|].
    replace (amul xh w - x * w) with ((amul xh w - xh * w) + (xh - x) * w) by ring.
    eapply Rle_trans; [apply Rabs_triang|]. eapply Rle_trans; [apply Rplus_le_compat; [apply HA1|rewrite Rabs_mult; apply Rmult_le_compat_r; [auto|apply A3]]|].
    assert (T : u * Rabs (xh * w) <= u * ((p k * X + p k * c) * Rabs w)) by (apply Rmult_le_compat_l; auto; rewrite Rabs_mult; apply Rmult_le_compat_r; auto).
    assert (G := p_ge1 (S k)). assert (Q : e <= p (S k) * e) by (rewrite <- (Rmult_1_l e) at 1; apply Rmult_le_compat_r; lra). simpl pow in *. revert G Q. set (q := p k) in *. intros G Q.
    replace (((1 + u) * q - 1) * (X * Rabs w) + (1 + u) * q * (c * Rabs w + e)) with (((q - 1) * X + q * c) * Rabs w + u * ((q * X + q * c) * Rabs w) + (1 + u) * q * e) by ring. lra.
  Qed.
  (** sums of approximated terms *)
  Lemma apx_sum {T} (l : list T) (f fh F : T -> R) k c : (forall t, In t l -> apx k c (F t) (f t) (fh t)) -> forall j cj a ah Aa, apx (k + j) cj Aa a ah ->
    apx (k + j + length l) (cj + INR (length l) * (c + e)) (fold_left (fun s t => s + F t) l Aa) (fold_left (fun s t => s + f t) l a) (fold_left (fun s t => aadd s (fh t)) l ah).
  Proof.
    induction l as [|t l IH]; intros Hl j cj a ah Aa Ha; cbn [fold_left length].
    - eapply apx_weak; [| |apply Ha]; [lia|]. simpl. lra.
    - eapply apx_weak; [| |apply (IH (fun z Hz => Hl z (or_intror Hz)) (S j) (cj + c + e))].
      + lia.
      + rewrite S_INR. lra.
      + replace (k + S j)%nat with (S (k + j)) by lia. apply apx_add; auto. eapply apx_weak; [| |apply Hl; left; auto]; [lia|lra].
  Qed.
End Apx.

(** three parallel lists of adds *)
Inductive par (P : R -> R -> R -> Prop) : list (nat * nat * R) -> list (nat * nat * R) -> list (nat * nat * R) -> Prop :=
| par_nil : par P [] [] []
| par_cons k x y z lx ly lz : P x y z -> par P lx ly lz -> par P ((k, x) :: lx) ((k, y) :: ly) ((k, z) :: lz).
Lemma par_app P a b c a' b' c' : par P a b c -> par P a' b' c' -> par P (a ++ a') (b ++ b') (c ++ c').
Proof. induction 1; cbn [app]; auto. intros. constructor; auto. Qed.
Lemma par_flat P {T} (l : list T) f g h : (forall t, In t l -> par P (f t) (g t) (h t)) -> par P (flat_map f l) (flat_map g l) (flat_map h l).
Proof. induction l as [|t l IH]; intros Hl; cbn [flat_map]; [constructor|]. apply par_app; [apply Hl; left; auto|apply IH; intros; apply Hl; right; auto]. Qed.

Section Near.
  Variables u e : R.
  Variable A : arith.
  Hypothesis HA : rounds_within u e A.
  Variable I : oin.
  Variable K : kern.
  Variable owned : nat -> bool.
  Variable J : R.
  Hypothesis Wq : (0 < o_nqc I)%nat.
  Hypothesis HJ : forall q, Rabs (jxw K q) <= J.
  Notation st := (octree I).
  Notation nq := (o_nqc I).
  Let Hu : 0 <= u. Proof. apply HA. Qed.
  Let He : 0 <= e. Proof. destruct HA as (_ & Q & _). exact Q. Qed.
  Notation aP := (apx u).

  Lemma term_apx i q j : aP 2 (e * J + e) (kd (abs_kern K) i q * shp (abs_kern K) q j * jxw (abs_kern K) q) (kd K i q * shp K q j * jxw K q) (@amul A (@amul A (kd K i q) (shp K q j)) (jxw K q)).
  Proof.
    cbn [kd shp jxw abs_kern]. eapply apx_weak; [apply Hu| | |apply (apx_mul u e Hu He A HA)]; [apply Nat.le_refl| |].
    2:{ apply (apx_mul u e Hu He A HA). apply apx_exact. }
    cbv beta. assert (Q := HJ q). assert (e * Rabs (jxw K q) <= e * J) by (apply Rmult_le_compat_l; auto). lra.
  Qed.
  Lemma cell_quads_len qs c : NoDup qs -> (length (cell_quads I qs c) <= nq)%nat.
  Proof.
    intros ND. unfold cell_quads. assert (Z : nq <> 0%nat) by lia.
    rewrite <- (seq_length nq (c * nq)). apply NoDup_incl_length; [apply NoDup_filter; auto|]. intros q Hq. apply filter_In in Hq. destruct Hq as (_ & Hq). apply Nat.eqb_eq in Hq. unfold cell_of in Hq. apply in_seq. subst c. assert (D := Nat.div_mod q nq Z). assert (M := Nat.mod_upper_bound q nq Z). rewrite Nat.mul_comm. lia.
  Qed.
  Definition kr : nat := (2 + nq)%nat.
  Definition cr : R := INR nq * (e * J + e + e).
  Lemma J_pos : 0 <= J. Proof. assert (Q := HJ 0%nat). assert (Q' := Rabs_pos (jxw K 0)). lra. Qed.
  Lemma unit_pos : 0 <= e * J + e + e. Proof. assert (Q := J_pos). assert (0 <= e * J) by (apply Rmult_le_pos; auto). lra. Qed.
  Lemma row_apx i c qs j : NoDup qs -> aP kr cr (@regular_row exact_arith I (abs_kern K) i c qs j) (@regular_row exact_arith I K i c qs j) (@regular_row A I K i c qs j).
  Proof.
    intros ND. unfold regular_row, kr, cr. cbn [aadd amul exact_arith]. assert (L := cell_quads_len qs c ND). assert (UP := unit_pos).
    eapply (apx_weak u Hu); [| |apply (apx_sum u e Hu He A HA (cell_quads I qs c) (fun q => kd K i q * shp K q j * jxw K q) (fun q => @amul A (@amul A (kd K i q) (shp K q j)) (jxw K q)) (fun q => kd (abs_kern K) i q * shp (abs_kern K) q j * jxw (abs_kern K) q) 2 (e * J + e) (fun q _ => term_apx i q j) 0 0 0 0 0)].
    - lia.
    - apply le_INR in L. assert (INR (length (cell_quads I qs c)) * (e * J + e + e) <= INR nq * (e * J + e + e)) by (apply Rmult_le_compat_r; auto). lra.
    - eapply (apx_weak u Hu); [| |rewrite <- Rabs_R0 at 1; apply apx_exact]; [lia|lra].
  Qed.
  Lemma cr_pos : 0 <= cr. Proof. unfold cr. apply Rmult_le_pos; [apply pos_INR|apply unit_pos]. Qed.
  Lemma near_row_apx i c qs j : NoDup qs -> aP kr cr (@near_row exact_arith I (abs_kern K) i c qs j) (@near_row exact_arith I K i c qs j) (@near_row A I K i c qs j).
  Proof.
    intros ND. unfold near_row. destruct (is_singular I i c); [|apply row_apx; auto]. cbn [sing abs_kern]. eapply (apx_weak u Hu); [| |apply apx_exact]; [lia|apply cr_pos].
  Qed.
  Notation RP := (fun X x xh => aP kr cr X x xh).
  Lemma rows_par i c F f fh : (forall j, aP kr cr (F j) (f j) (fh j)) -> par RP (row_adds I i (c, F)) (row_adds I i (c, f)) (row_adds I i (c, fh)).
  Proof. intros Hf. unfold row_adds. cbn [fst snd]. induction (dof_list I c) as [|jd l IH]; cbn [map]; constructor; auto. Qed.
  Lemma adds_par cl lv : par RP (@direct_adds exact_arith I st (abs_kern K) owned cl lv) (@direct_adds exact_arith I st K owned cl lv) (@direct_adds A I st K owned cl lv).
  Proof.
    unfold direct_adds. apply par_app.
    - apply par_flat. intros b _. rewrite !near_adds_bit. apply par_flat. intros i _. apply par_flat. intros c _. apply rows_par. intros j. apply near_row_apx. apply nub_nodup.
    - apply par_flat. intros l _. apply par_flat. intros b _. rewrite !big_adds_bit. apply par_flat. intros i _. destruct (owned i); [|constructor]. apply par_flat. intros c _. apply rows_par. intros j. apply row_apx. apply nub_nodup.
  Qed.
  Lemma entry_par i d lX lx lh : par RP lX lx lh -> adds_at lh i d = adds_at lx i d /\ aP (kr + adds_at lx i d) (INR (adds_at lx i d) * (cr + e)) (@entry exact_arith lX i d) (@entry exact_arith lx i d) (@entry A lh i d).
  Proof.
    intros Hp.
    assert (G : adds_at lh i d = adds_at lx i d /\ forall j c X x xh, aP (kr + j) c X x xh -> aP (kr + j + adds_at lx i d) (c + INR (adds_at lx i d) * (cr + e))
       (fold_left (@ent_step exact_arith i d) lX X) (fold_left (@ent_step exact_arith i d) lx x) (fold_left (@ent_step A i d) lh xh)).
    { induction Hp as [|k x y z lx' ly lz Pz Hp IH]; (split; [|intros j c X0 x0 xh0 Hx]).
      - reflexivity.
      - change (adds_at [] i d) with 0%nat. eapply (apx_weak u Hu); [| |apply Hx]; [lia|simpl; lra].
      - unfold adds_at. cbn [filter fst snd]. destruct (Nat.eqb (fst k) i && Nat.eqb (snd k) d); cbn [length]; [f_equal|]; apply IH.
      - destruct IH as (_ & IH). cbn [fold_left]. unfold ent_step at 2 4 6. unfold adds_at. cbn [filter fst snd]. destruct (Nat.eqb (fst k) i && Nat.eqb (snd k) d) eqn:Ek; cbn [length].
        + fold (adds_at ly i d). eapply (apx_weak u Hu); [| |apply (IH (S j) (c + cr + e))]; [lia|rewrite S_INR; lra|].
          replace (kr + S j)%nat with (S (kr + j)) by lia. apply (apx_add u e Hu He A HA); auto. eapply (apx_weak u Hu); [| |apply Pz]; [lia|lra].
        + apply IH. auto. }
    destruct G as (G1 & G2). split; auto. eapply (apx_weak u Hu); [| |apply (G2 0%nat 0 0 0 0)]; [lia|lra|].
    eapply (apx_weak u Hu); [| |rewrite <- Rabs_R0 at 1; apply apx_exact]; [lia|lra].
  Qed.
  Theorem entry_bound cl lv i d : let n := (2 + nq + adds_at (@direct_adds exact_arith I st K owned cl lv) i d)%nat in
    Rabs (@entry A (@direct_adds A I st K owned cl lv) i d - @entry exact_arith (@direct_adds exact_arith I st K owned cl lv) i d)
      <= ((1 + u) ^ n - 1) * @entry exact_arith (@direct_adds exact_arith I st (abs_kern K) owned cl lv) i d + (1 + u) ^ n * (INR (adds_at (@direct_adds exact_arith I st K owned cl lv) i d) * (INR nq * (e * J + e + e) + e)).
  Proof. destruct (entry_par i d _ _ _ (adds_par cl lv)) as (_ & (_ & _ & Q)). exact Q. Qed.
  Theorem product_bound cl lv n m phi P i : (forall d, (d < n)%nat -> (adds_at (@direct_adds exact_arith I st K owned cl lv) i d <= m)%nat) -> (forall d, (d < n)%nat -> Rabs (phi d) <= P) -> 0 <= P ->
    let k := (3 + nq + m + n)%nat in
    Rabs (@near_product A (@direct_adds A I st K owned cl lv) n phi i - @near_product exact_arith (@direct_adds exact_arith I st K owned cl lv) n phi i)
      <= ((1 + u) ^ k - 1) * @near_product exact_arith (@direct_adds exact_arith I st (abs_kern K) owned cl lv) n (fun d => Rabs (phi d)) i + (1 + u) ^ k * (INR n * (INR m * (INR nq * (e * J + e + e) + e) * P + e + e)).
  Proof.
    intros Hm HP P0 k. unfold near_product.
    assert (Q : aP (S (kr + m) + 0 + length (seq 0 n)) (0 + INR (length (seq 0 n)) * ((INR m * (cr + e) * P + e) + e))
       (fold_left (fun s d => s + @entry exact_arith (@direct_adds exact_arith I st (abs_kern K) owned cl lv) i d * Rabs (phi d)) (seq 0 n) 0)
       (fold_left (fun s d => s + @entry exact_arith (@direct_adds exact_arith I st K owned cl lv) i d * phi d) (seq 0 n) 0)
       (fold_left (fun s d => @aadd A s (@amul A (@entry A (@direct_adds A I st K owned cl lv) i d) (phi d))) (seq 0 n) 0)).
    { apply (apx_sum u e Hu He A HA (seq 0 n) (fun d => @entry exact_arith (@direct_adds exact_arith I st K owned cl lv) i d * phi d) (fun d => @amul A (@entry A (@direct_adds A I st K owned cl lv) i d) (phi d))).
      - intros d Hd. apply in_seq in Hd. destruct (entry_par i d _ _ _ (adds_par cl lv)) as (_ & Q). specialize (Hm d ltac:(lia)). specialize (HP d ltac:(lia)). assert (CP := cr_pos).
        apply (apx_weak u Hu _ (kr + m) _ (INR m * (cr + e))) in Q; [|lia|apply Rmult_le_compat_r; [lra|apply le_INR; auto]].
        eapply (apx_weak u Hu); [| |apply (apx_mul u e Hu He A HA _ _ _ _ _ (phi d) Q)]; [lia|]. apply Rplus_le_compat_r. apply Rmult_le_compat_l; auto. apply Rmult_le_pos; [apply pos_INR|lra].
      - eapply (apx_weak u Hu); [| |rewrite <- Rabs_R0 at 1; apply apx_exact]; [lia|lra]. }
    destruct Q as (_ & _ & Q). rewrite seq_length in Q. unfold kr in Q. replace (S (2 + nq + m) + 0 + n)%nat with k in Q by (unfold k; lia). rewrite Rplus_0_l in Q. rewrite Rplus_assoc. rewrite <- (Rplus_assoc _ e e). exact Q.
  Qed.
End Near.

(** ** binary64 *)
Lemma dbl_error x : Rabs (dbl x - x) <= / 2 * bpow radix2 (-52) * Rabs x + / 2 * bpow radix2 (-1074).
Proof.
  unfold dbl. destruct (error_N_FLT radix2 (-1074) 53 ltac:(reflexivity) (fun x => negb (Z.even x)) x) as (eps & eta & H1 & H2 & _ & ->).
  replace (x * (1 + eps) + eta - x) with (eps * x + eta) by ring. eapply Rle_trans; [apply Rabs_triang|]. rewrite Rabs_mult. apply Rplus_le_compat; auto. apply Rmult_le_compat_r; auto. apply Rabs_pos.
Qed.
Lemma double_rounds : rounds_within (/ 2 * bpow radix2 (-52)) (/ 2 * bpow radix2 (-1074)) double_arith.
Proof.
  assert (P1 := bpow_gt_0 radix2 (-52)). assert (P2 := bpow_gt_0 radix2 (-1074)). split; [lra|]. split; [lra|]. split; intros x y; apply dbl_error.
Qed.
