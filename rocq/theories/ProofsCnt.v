(** Number of values added into one entry of the near-field matrix. *)
From Coq Require Import ZArith Reals List Arith Bool Permutation Lia.
From Verif Require Import ModelOctree SpecOctree ModelFmm SpecFmm LibSum SpecBit ProofsOctTree ProofsOctLists ProofsOctLevels ProofsOctFacts ProofsOctMore ProofsFmmDirect ProofsFmmCover ProofsFmm ProofsWork3 ProofsBit.
Import ListNotations.
Local Open Scope nat_scope.

Section Count.
  Variables i d : nat.
  Notation t := (fun x : nat * nat * R => Nat.eqb (fst (fst x)) i && Nat.eqb (snd (fst x)) d).
  Lemma adds_flat {X} (f : X -> list (nat * nat * R)) l : adds_at (flat_map f l) i d = list_sum (map (fun x => adds_at (f x) i d) l).
  Proof. unfold adds_at. induction l as [|x l IH]; [reflexivity|]. cbn [flat_map map list_sum fold_right]. rewrite filter_app, app_length, IH. reflexivity. Qed.
  Lemma adds_none l : (forall x, In x l -> fst (fst x) <> i) -> adds_at l i d = 0.
  Proof.
    intros Hl. unfold adds_at. induction l as [|x l IH]; [reflexivity|]. cbn [filter]. assert (Q := Hl x (or_introl eq_refl)). destruct (Nat.eqb_spec (fst (fst x)) i); [contradiction|]. cbn [andb]. apply IH. intros; apply Hl; right; auto.
  Qed.
  Lemma sum_zero {X} (g : X -> nat) l : (forall x, In x l -> g x = 0) -> list_sum (map g l) = 0.
  Proof. induction l as [|x l IH]; intros Hl; [reflexivity|]. cbn [map list_sum fold_right]. rewrite Hl by (left; auto). apply IH. intros; apply Hl; right; auto. Qed.
  Lemma sum_one (g : nat -> nat) D l : NoDup l -> (forall x, In x l -> g x <= D) -> (forall x y, In x l -> In y l -> g x <> 0 -> g y <> 0 -> x = y) -> list_sum (map g l) <= D.
  Proof.
    induction l as [|x l IH]; intros ND Hb Hu; [cbn; lia|]. cbn [map]. change (list_sum (g x :: map g l)) with (g x + list_sum (map g l)). inversion ND; subst.
    destruct (Nat.eq_dec (g x) 0) as [Z|Z].
    - rewrite Z. apply IH; auto; [intros; apply Hb; right; auto|intros; apply Hu; auto; right; auto].
    - rewrite sum_zero; [assert (Q := Hb x (or_introl eq_refl)); lia|]. intros y Hy. destruct (Nat.eq_dec (g y) 0); auto. exfalso. assert (x = y) by (apply Hu; auto; [left|right]; auto). subst; contradiction.
  Qed.
  Lemma sum_incl (g : nat -> nat) l : NoDup l -> forall l', incl l l' -> list_sum (map g l) <= list_sum (map g l').
  Proof.
    induction l as [|x l IH]; intros ND l' Hi; [cbn; lia|]. inversion ND; subst. assert (Hx : In x l') by (apply Hi; left; auto). apply in_split in Hx. destruct Hx as (a & b & ->).
    rewrite map_app, list_sum_app. cbn [map]. change (list_sum (g x :: ?r)) with (g x + list_sum r).
    assert (Q : list_sum (map g l) <= list_sum (map g (a ++ b))).
    { apply IH; auto. intros y Hy. assert (Hy' := Hi y (or_intror Hy)). apply in_app_or in Hy'. apply in_or_app. destruct Hy' as [Hy'|[->|Hy']]; auto. contradiction. }
    rewrite map_app, list_sum_app in Q. lia.
  Qed.
  Lemma sum_bound {X} (g : X -> nat) D l : (forall x, In x l -> g x <= D) -> list_sum (map g l) <= length l * D.
  Proof. induction l as [|x l IH]; intros Hb; [cbn; lia|]. cbn [map length]. change (list_sum (g x :: map g l)) with (g x + list_sum (map g l)). assert (Q := Hb x (or_introl eq_refl)). assert (Q' := IH (fun y Hy => Hb y (or_intror Hy))). cbn. lia. Qed.

  Variable I : oin.
  Hypothesis W : wf_in I.
  Hypothesis Wq : 0 < o_nqc I.
  Variable AR : arith.
  Variable K : kern.
  Variable owned : nat -> bool.
  Notation st := (octree I).
  Notation bs := (st_blocks (octree I)).
  Notation B := (getb (st_blocks (octree I))).

  Lemma row_count k c f : adds_at (row_adds I k (c, f)) i d <= count_occ Nat.eq_dec (o_cdofs I c) d.
  Proof.
    unfold row_adds, dof_list. cbn [fst snd]. generalize 0 as s. induction (o_cdofs I c) as [|e l IH]; intros s; [cbn; lia|]. cbn [length seq combine map]. specialize (IH (S s)). unfold adds_at in *. cbn [filter fst snd count_occ].
    destruct (Nat.eq_dec e d) as [->|N].
    - rewrite Nat.eqb_refl. destruct (Nat.eqb k i); cbn [andb length]; lia.
    - destruct (Nat.eqb_spec e d); [contradiction|]. rewrite andb_false_r. exact IH.
  Qed.
  Lemma row_other k c f : k <> i -> adds_at (row_adds I k (c, f)) i d = 0.
  Proof. intros N. apply adds_none. intros x Hx. apply row_adds_in in Hx. destruct Hx as (-> & _). auto. Qed.
  Lemma cells_count k qs (f : nat -> nat -> R) : (forall q, In q qs -> q < o_nq I) -> adds_at (flat_map (fun c => row_adds I k (c, f c)) (cells_in I qs)) i d <= occurrences I d.
  Proof.
    intros Hq. rewrite adds_flat. unfold occurrences. eapply Nat.le_trans; [|apply (sum_incl _ (cells_in I qs)); [apply nub_nodup|]].
    - induction (cells_in I qs) as [|c l IH]; [cbn; lia|]. cbn [map]. change (list_sum (?a :: ?r)) with (a + list_sum r). assert (Q := row_count k c (f c)). lia.
    - intros c Hc. unfold cells_in in Hc. rewrite nub_in, in_map_iff in Hc. destruct Hc as (q & <- & Hc). apply in_seq. assert (Q := cell_bound I Wq q (Hq q Hc)). lia.
  Qed.
  Lemma cells_other k qs (f : nat -> nat -> R) : k <> i -> adds_at (flat_map (fun c => row_adds I k (c, f c)) (cells_in I qs)) i d = 0.
  Proof. intros N. rewrite adds_flat. apply sum_zero. intros c _. apply row_other; auto. Qed.

  Lemma near_count b : In b (st_childless st) -> adds_at (copier_adds I (near_worker I st K owned b)) i d <= occurrences I d.
  Proof.
    intros Hb. rewrite near_adds_bit, adds_flat. assert (Hbl := F_cl I W b Hb). apply sum_one.
    - apply NoDup_filter. apply (nodes_nodup I bs (F_tree I W)); auto.
    - intros k _. apply cells_count. intros q Hq. unfold near_quads, quads_of_blocks in Hq. rewrite nub_in, in_flat_map in Hq. destruct Hq as (z & Hz & Hq). apply (quad_bound I W z); auto.
      assert (Y0 := childless_pos I W b Hb). assert (NP := near_levels_pos I W b ltac:(lia)). apply (int_front I W b (near_levels I st b - 1)); auto; lia.
    - intros x y _ _ Nx Ny. destruct (Nat.eq_dec x i) as [->|Dx]; [|exfalso; apply Nx; apply cells_other; auto]. destruct (Nat.eq_dec y i) as [->|Dy]; [auto|exfalso; apply Ny; apply cells_other; auto].
  Qed.
  Lemma big_count l b : 1 <= l <= o_N I -> In b (nth l (st_dfill st) []) -> adds_at (copier_adds I (big_worker I st K owned l b)) i d <= occurrences I d.
  Proof.
    intros Hl Hb. rewrite big_adds_bit, adds_flat. apply (dfill_in I W) in Hb; auto. destruct Hb as (B1 & B2 & B3). apply sum_one.
    - apply (nodes_nodup I bs (F_tree I W)); auto.
    - intros k _. destruct (owned k); [|cbn; lia]. apply cells_count. intros q Hq. unfold big_quads, quads_of_blocks in Hq. rewrite nub_in, in_flat_map in Hq. destruct Hq as (z & Hz & Hq). apply (quad_bound I W z); auto.
      apply in_flat_map in Hz. destruct Hz as (s & Hs & Hz). apply in_seq in Hs. apply filter_In in Hz. destruct Hz as (Hz & _).
      apply (nonint_bound I W b s); auto; [|lia]. split; auto. destruct b; [|lia]. exfalso. assert (Z := proj2 (level_pos I bs (F_tree I W) 0 B1) eq_refl). lia.
    - intros x y _ _ Nx Ny. destruct (Nat.eq_dec x i) as [->|Dx]; [|exfalso; apply Nx; destruct (owned x); [apply cells_other; auto|reflexivity]]. destruct (Nat.eq_dec y i) as [->|Dy]; [auto|exfalso; apply Ny; destruct (owned y); [apply cells_other; auto|reflexivity]].
  Qed.
  Theorem adds_bound cl lv : Permutation cl (st_childless st) -> (forall l, 1 <= l <= o_N I -> Permutation (lv l) (nth l (st_dfill st) [])) ->
    adds_at (direct_adds I st K owned cl lv) i d <= S (o_N I) * occurrences I d.
  Proof.
    intros Hc Hv. unfold direct_adds. unfold adds_at at 1. rewrite filter_app, app_length. fold (adds_at (flat_map (fun b => copier_adds I (near_worker I st K owned b)) cl) i d).
    fold (adds_at (flat_map (fun level => flat_map (fun b => copier_adds I (big_worker I st K owned level b)) (lv level)) (seq 1 (o_N I))) i d). cbn [Nat.mul]. apply Nat.add_le_mono.
    - rewrite adds_flat. apply sum_one.
      + apply (Permutation_NoDup (Permutation_sym Hc)). apply F_cl_nodup; auto.
      + intros b Hb. apply near_count. apply (Permutation_in _ Hc); auto.
      + assert (Nz : forall x, adds_at (copier_adds I (near_worker I st K owned x)) i d <> 0 -> In i (b_nodes (B x))).
        { intros x Nx. destruct (in_dec Nat.eq_dec i (b_nodes (B x))); auto. exfalso. apply Nx. apply adds_none. intros z Hz E. apply (near_rows I K (fun _ => 0%R)) in Hz. subst. contradiction. }
        intros x y Hx Hy Nx Ny. apply (leaf_unique I W x y i); auto; apply (Permutation_in _ Hc); auto.
    - rewrite adds_flat. eapply Nat.le_trans; [apply (sum_bound _ (occurrences I d))|rewrite seq_length; auto]. intros l Hl. apply in_seq in Hl. assert (Hl' : 1 <= l <= o_N I) by lia. specialize (Hv l Hl'). rewrite adds_flat. apply sum_one.
      + apply (Permutation_NoDup (Permutation_sym Hv)). apply (dfill_nodup I W); lia.
      + intros b Hb. apply big_count; auto. apply (Permutation_in _ Hv); auto.
      + assert (Nz : forall x, adds_at (copier_adds I (big_worker I st K owned l x)) i d <> 0 -> In i (b_nodes (B x))).
        { intros x Nx. destruct (in_dec Nat.eq_dec i (b_nodes (B x))); auto. exfalso. apply Nx. apply adds_none. intros z Hz E. apply big_rows in Hz. subst. contradiction. }
        intros x y Hx Hy Nx Ny. apply (level_unique I W l x y i); auto; apply (Permutation_in _ Hv); auto.
  Qed.
End Count.
