(** Downward pass and the complete fast multipole product. *)
From Coq Require Import Reals List Lia Lra Arith Bool Permutation.
From Verif Require Import ModelOctree ModelFmm SpecFmm LibSum ProofsOctTree ProofsOctLevels ProofsOctFacts ProofsOctLists ProofsFmmCover ProofsFmmDirect ProofsFmmFar.
Import ListNotations.
Local Open Scope nat_scope.

Section Down.
  Variable I : oin.
  Hypothesis W : wf_in I.
  Notation st := (octree I).
  Notation bs := (st_blocks (octree I)).
  Notation B := (getb (st_blocks (octree I))).
  Notation N := (o_N I).
  Variable G : geo.
  Hypothesis HG : geo_lin G.
  Variable K : kern.
  Variable phi : nat -> R.
  Variable owned : nat -> bool.
  Notation E := (lin_eops G).
  Notation den := (density I K phi).

  Lemma level_of_id_ok k : k < length bs -> level_of_id I st k = b_level (B k).
  Proof.
    intros Hk. unfold level_of_id. assert (Hl := F_level_le I W k Hk).
    destruct (find _ (seq 0 (S N))) as [l|] eqn:F.
    - apply find_some in F. destruct F as (A & C). apply in_seq in A. apply andb_true_iff in C. destruct C as (C1 & C2).
      apply Nat.leb_le in C1. apply Nat.leb_le in C2. symmetry. apply (F_level_iff I W); auto; lia.
    - exfalso. assert (X := find_none _ _ F (b_level (B k)) ltac:(apply in_seq; lia)). cbv beta in X.
      destruct (F_level_range I W k Hk) as (A & C). apply andb_false_iff in X. rewrite !Nat.leb_gt in X. lia.
  Qed.

  Section Pass.
    Variable M : nat -> ME E.
    Hypothesis HM : forall x, x < length bs -> fst (M x) = x.

    Definition on (b : nat) : bool := existsb owned (b_nodes (B b)).
    Definition same_terms (b : nat) : list nat := flat_map (same_size I st (b_level (B b)) b) (seq 0 (near_levels I st b)).
    Definition small_terms (b : nat) : list nat := flat_map (smaller I st (b_level (B b)) b) (seq 0 (near_levels I st b)).

    Lemma fold_flat {A C T} (f : T -> C -> T) (g : A -> list C) (l : list A) (a : T) :
      fold_left (fun a x => fold_left f (g x) a) l a = fold_left f (flat_map g l) a.
    Proof. revert a; induction l; intros a0; simpl; auto. rewrite fold_left_app. auto. Qed.

    Lemma local_val (L : nat -> LE E) b : b < length bs -> 0 < b -> fst (L (b_parent (B b))) = b_parent (B b) ->
      fst (descend_local E I st M L b) = b /\
      forall k, snd (descend_local E I st M L b) k =
        (gLL G b (b_parent (B b)) (snd (L (b_parent (B b)))) k + suml (same_terms b) (fun c => gML G b (fst (M c)) (snd (M c)) k))%R.
    Proof.
      intros Hb Hb0 HL. unfold descend_local. rewrite level_of_id_ok by auto.
      rewrite (fold_flat (fun l c => laddm E l (M c))). fold (same_terms b).
      assert (X : forall l m, fst m = b -> fst (fold_left (fun l c => laddm E l (M c)) l m) = b /\
         forall k, snd (fold_left (fun l c => laddm E l (M c)) l m) k = (snd m k + suml l (fun c => gML G b (fst (M c)) (snd (M c)) k))%R).
      { induction l as [|c l IH]; intros m Hm; [split; auto; intros; simpl; lra|]. cbn [fold_left].
        destruct (IH (laddm E m (M c)) Hm) as (A & C). split; auto. intros k. rewrite C. cbn [laddm lin_eops snd]. rewrite Hm. simpl. lra. }
      destruct (X (same_terms b) (laddl E (lz E b) (L (b_parent (B b)))) eq_refl) as (A & C). split; auto. intros k. rewrite C.
      cbn [laddl lz lin_eops fst snd]. rewrite HL. destruct (parent_info I bs (F_tree I W) b ltac:(lia)) as (P & _).
      destruct (Nat.eqb_spec b (b_parent (B b))); [lia|]. lra.
    Qed.
    Lemma eval_val b i : b < length bs -> descend_eval E I st M b i = suml (small_terms b) (fun c => gEM G (fst (M c)) i (snd (M c))).
    Proof.
      intros Hb. unfold descend_eval. rewrite level_of_id_ok by auto.
      rewrite (fold_flat (fun a c => (a + evM E (M c) i)%R)). fold (small_terms b).
      rewrite (fold_left_plus (small_terms b) (fun c => evM E (M c) i)). rewrite Rplus_0_l. reflexivity.
    Qed.

    Lemma fold_nodes (f : nat -> R) l out i : NoDup l ->
      fold_left (fun o x => upd o x (o x + f x)%R) l out i = (out i + (if mem i l then f i else 0))%R.
    Proof.
      intros ND. rewrite (fold_upd (fun x v => (v + f x)%R)) by auto. destruct (mem i l); lra.
    Qed.

    Lemma dsc_fold l (s : (nat -> LE E) * (nat -> R)) :
      NoDup l -> (forall b, In b l -> 0 < b < length bs /\ ~ In (b_parent (B b)) l) ->
      (forall x, x < length bs -> fst (fst s x) = x) ->
      let s' := fold_left (descend1 E I st owned M) l s in
      (forall x, x < length bs -> fst (fst s' x) = x) /\
      (forall x, ~ In x l -> fst s' x = fst s x) /\
      (forall x, In x l -> on x = true -> forall k, snd (fst s' x) k =
         (snd (fst s x) k + (gLL G x (b_parent (B x)) (snd (fst s (b_parent (B x)))) k + suml (same_terms x) (fun c => gML G x (fst (M c)) (snd (M c)) k)))%R) /\
      (forall i, snd s' i = (snd s i + suml l (fun b => if mem i (b_nodes (B b)) then (if on b then suml (small_terms b) (fun c => gEM G (fst (M c)) i (snd (M c))) else 0) else 0))%R).
    Proof.
      revert s. induction l as [|a l IH]; intros s ND HP HL.
      - cbn. repeat split; auto. { intros x []. } intros; lra.
      - inversion ND as [|? ? Na ND']; subst. cbv zeta. cbn [fold_left].
        destruct (HP a (or_introl eq_refl)) as (Ha & Hpa).
        set (s1 := descend1 E I st owned M s a).
        assert (Pa := proj1 (parent_info I bs (F_tree I W) a Ha)).
        assert (F1 : forall x, fst s1 x = if Nat.eqb x a then laddl E (fst s a) (if on a then descend_local E I st M (fst s) a else lz E a) else fst s x).
        { intros x. unfold s1, descend1. destruct s as (L, out). reflexivity. }
        assert (O1 : forall i, snd s1 i = (snd s i + (if mem i (b_nodes (B a)) then (if on a then suml (small_terms a) (fun c => gEM G (fst (M c)) i (snd (M c))) else 0) else 0))%R).
        { intros i. unfold s1, descend1. destruct s as (L, out). cbn [snd].
          rewrite (fold_nodes (fun x => if existsb owned (b_nodes (B a)) then descend_eval E I st M a x else 0%R)) by (apply (nodes_nodup I bs (F_tree I W)); lia).
          fold (on a). destruct (mem i (b_nodes (B a))); auto. destruct (on a); auto. rewrite eval_val by lia. reflexivity. }
        destruct (local_val (fst s) a ltac:(lia) ltac:(lia) (HL (b_parent (B a)) ltac:(lia))) as (V1 & V2).
        assert (L1 : forall x, x < length bs -> fst (fst s1 x) = x).
        { intros x Hx. rewrite F1. destruct (Nat.eqb_spec x a) as [->|]; [|apply HL; auto]. cbn [laddl lin_eops fst]. apply HL; lia. }
        destruct (IH s1 ND' ltac:(intros b Hb; destruct (HP b (or_intror Hb)) as (X & Y); split; auto; intros Z; apply Y; right; auto) L1) as (R1 & R2 & R3 & R4).
        split; [exact R1|]. split; [|split].
        + intros x Hx. rewrite R2 by (intros Z; apply Hx; right; auto). rewrite F1. destruct (Nat.eqb_spec x a) as [->|]; auto. exfalso; apply Hx; left; auto.
        + intros x Hx Ho k. destruct Hx as [<-|Hx].
          * rewrite R2 by auto. rewrite F1, Nat.eqb_refl, Ho. cbn [laddl lin_eops fst snd].
            rewrite V1. rewrite (HL a) by lia. rewrite Nat.eqb_refl, V2. reflexivity.
          * rewrite R3 by auto. destruct (HP x (or_intror Hx)) as (X & Y).
            assert (Nx : x <> a) by (intros ->; auto). assert (Npx : b_parent (B x) <> a) by (intros Z; apply Y; rewrite Z; left; auto).
            rewrite !F1. destruct (Nat.eqb_spec x a); [contradiction|]. destruct (Nat.eqb_spec (b_parent (B x)) a); [contradiction|]. reflexivity.
        + intros i. rewrite R4, O1. change (suml (a :: l) ?f) with (f a + suml l f)%R. cbv beta. lra.
    Qed.

    (** ** one leaf *)
    Variable b i : nat.
    Hypothesis Hb : In b (st_childless st).
    Hypothesis Hi : In i (b_nodes (B b)).
    Hypothesis Ho : owned i = true.
    Let Hbl : b < length bs := F_cl I W b Hb.
    Notation P := (pathb I b).
    Let lL := b_level (B b).
    (** evaluation at node i of local coefficients attached to the ancestor of level l *)
    Definition Psi (l : nat) (u : coefs) : R := gEL G b i (carry_down G bs b (lL - l) u).

    Lemma carry_lin n F : lin F -> lin (fun u => F (carry_down G bs b n u)).
    Proof.
      revert F; induction n; intros F HF; [exact HF|]. cbn [carry_down].
      apply (lin_comp (fun u => F (carry_down G bs b n u))); [apply IHn; auto|]. apply HG.
    Qed.
    Lemma Psi_lin l : lin (Psi l).
    Proof. apply carry_lin. apply HG. Qed.
    Lemma Psi_step l u : l < lL -> Psi l u = Psi (S l) (gLL G (P (S l)) (P l) u).
    Proof.
      intros Hl. unfold Psi. replace (lL - l) with (S (lL - S l)) by lia. cbn [carry_down].
      rewrite !(anc_path I W) by (auto; unfold lL; lia). fold lL. replace (lL - (lL - S l)) with (S l) by lia. replace (lL - S (lL - S l)) with l by lia. reflexivity.
    Qed.
    Lemma on_path l : l <= lL -> on (P l) = true.
    Proof.
      intros Hl. unfold on. apply existsb_exists. exists i. split; auto. apply (path_facts I W b l); auto.
    Qed.

    Definition far_local (l : nat) : R := suml (same_terms (P l)) (fun c => Psi l (gML G (P l) (fst (M c)) (snd (M c)))).
    Definition far_eval (l : nat) : R := suml (small_terms (P l)) (fun c => gEM G (fst (M c)) i (snd (M c))).

    Lemma descend_inv down out : (forall l, 1 <= l <= N -> Permutation (down l) (nth l (st_dfill st) [])) ->
      forall n, n <= N ->
      let s := fold_left (fun s level => fold_left (descend1 E I st owned M) (down level) s) (seq 1 n) (lz E, out) in
      (forall x, x < length bs -> fst (fst s x) = x) /\
      (forall x, x < length bs -> n < b_level (B x) \/ x = 0 -> fst s x = lz E x) /\
      (forall l, l <= n -> l <= lL -> Psi l (snd (fst s (P l))) = suml (seq 1 l) far_local) /\
      snd s i = (out i + suml (seq 1 n) (fun l => if Nat.leb l lL then far_eval l else 0))%R.
    Proof.
      intros HD. induction n as [|n IH]; intros Hn.
      - cbv zeta. cbn. repeat split; auto.
        + intros l Hl Hl2. assert (l = 0) by lia. subst. cbn. apply lin_zero, Psi_lin.
        + lra.
      - cbv zeta. rewrite seq_S, fold_snoc. cbv zeta in IH.
        set (s := fold_left (fun s level => fold_left (descend1 E I st owned M) (down level) s) (seq 1 n) (lz E, out)) in *.
        destruct (IH ltac:(lia)) as (I1 & I2 & I3 & I4). change (1 + n) with (S n).
        assert (InD : forall x, In x (down (S n)) <-> x < length bs /\ b_level (B x) = S n /\ b_nodes (B x) <> []).
        { intros x. rewrite <- (dfill_in I W) by lia. split; apply Permutation_in; [|apply Permutation_sym]; apply HD; lia. }
        assert (ND : NoDup (down (S n))).
        { apply (Permutation_NoDup (Permutation_sym (HD (S n) ltac:(lia)))). apply (dfill_nodup I W); lia. }
        assert (Hpos : forall x, In x (down (S n)) -> 0 < x < length bs).
        { intros x Hx. apply InD in Hx. destruct Hx as (X1 & X2 & _). split; auto. destruct (Nat.eq_dec x 0) as [->|]; [|lia].
          assert (Y := proj2 (level_pos I bs (F_tree I W) 0 X1) eq_refl). lia. }
        destruct (dsc_fold (down (S n)) s ND) as (D1 & D2 & D3 & D4); auto.
        { intros x Hx. split; [apply Hpos; auto|]. intros Hp. assert (Y := parent_level I bs (F_tree I W) x (Hpos x Hx)).
          apply InD in Hx. apply InD in Hp. lia. }
        split; [exact D1|]. split; [|split].
        + intros x Hx HC. rewrite D2; [apply I2; auto; destruct HC; [left; lia|auto]|].
          intros Z. destruct HC as [HC|HC]; [apply InD in Z; lia|]. apply Hpos in Z. lia.
        + intros l Hl Hl2. destruct (path_facts I W b l Hbl Hl2) as (A1 & A2 & _ & A4 & _).
          destruct (Nat.eq_dec l (S n)) as [->|NE].
          * assert (Dx : In (P (S n)) (down (S n))).
            { apply InD. repeat split; auto. intros Z. apply A4 in Hi. rewrite Z in Hi. destruct Hi. }
            assert (Pp := path_parent I W b n Hbl ltac:(fold lL; lia)).
            rewrite (lin_sum1 (Psi (S n)) [0; 1] (fun t => if Nat.eqb t 0 then gLL G (P (S n)) (P n) (snd (fst s (P n))) else
                      fun k => suml (same_terms (P (S n))) (fun c => gML G (P (S n)) (fst (M c)) (snd (M c)) k)) _ (Psi_lin _)).
            2:{ intros k. rewrite (D3 _ Dx (on_path _ Hl2)). rewrite Pp. rewrite (I2 (P (S n))) by (auto; left; lia). simpl. lra. }
            unfold suml at 1. cbn [fold_right Nat.eqb].
            rewrite <- Psi_step by lia. rewrite (I3 n) by lia.
            rewrite (lin_sum1 (Psi (S n)) (same_terms (P (S n))) (fun c => gML G (P (S n)) (fst (M c)) (snd (M c))) _ (Psi_lin _)) by reflexivity.
            rewrite (seq_S n 1), suml_app. change (suml [1 + n] far_local) with (far_local (S n) + 0)%R. unfold far_local at 3. lra.
          * rewrite D2; [apply I3; lia|]. intros Z. apply InD in Z. lia.
        + rewrite D4, I4. rewrite suml_app.
          replace (suml [S n] (fun l => if Nat.leb l lL then far_eval l else 0%R)) with (if Nat.leb (S n) lL then far_eval (S n) else 0%R) by (simpl; lra).
          rewrite Rplus_assoc. f_equal. f_equal.
          destruct (Nat.leb_spec (S n) lL) as [L|L].
          * destruct (path_facts I W b (S n) Hbl L) as (A1 & A2 & _ & A4 & _).
            rewrite (suml_one _ (P (S n))).
            -- assert (mem i (b_nodes (B (P (S n)))) = true) as -> by (apply mem_in; auto). rewrite on_path by auto. reflexivity.
            -- auto.
            -- apply InD. repeat split; auto. intros Z. apply A4 in Hi. rewrite Z in Hi. destruct Hi.
            -- intros y Hy Ny. destruct (mem i (b_nodes (B y))) eqn:Em; auto. apply mem_in in Em. apply InD in Hy. destruct Hy as (Y1 & Y2 & _).
               apply (holds_node I W b) in Em; auto. destruct Em as (_ & Em). rewrite Y2 in Em. contradiction.
          * apply suml_zero. intros y Hy. destruct (mem i (b_nodes (B y))) eqn:Em; auto. apply mem_in in Em. apply InD in Hy. destruct Hy as (Y1 & Y2 & _).
            apply (holds_node I W b) in Em; auto. fold lL in Em. lia.
    Qed.

    Lemma evaluate_val (L : nat -> LE E) order out : Permutation order (st_childless st) ->
      evaluate E st owned L order out i = (out i + evL E (L b) i)%R.
    Proof.
      intros HP. assert (ND : NoDup order) by (apply (Permutation_NoDup (Permutation_sym HP)), (F_cl_nodup I W)).
      unfold evaluate.
      assert (In1 : forall x (l : list nat) o, NoDup l -> fold_left (fun o y => if owned y then upd o y (o y + evL E (L x) y)%R else o) l o i =
          (o i + (if mem i l then evL E (L x) i else 0))%R).
      { intros x. induction l as [|a l IH]; intros o NDl; [simpl; lra|]. inversion NDl as [|? ? Na NDl']; subst. cbn [fold_left]. rewrite IH by auto.
        unfold mem. cbn [existsb]. fold (mem i l). destruct (Nat.eqb_spec i a) as [<-|NE]; cbn [orb].
        - apply mem_false in Na. rewrite Na, Ho. unfold upd. rewrite Nat.eqb_refl. lra.
        - destruct (owned a); [unfold upd; destruct (Nat.eqb_spec i a); [contradiction|]|]; reflexivity. }
      assert (X : forall l o, (forall x, In x l -> x < length bs) ->
        fold_left (fun o b => fold_left (fun o y => if owned y then upd o y (o y + evL E (L b) y)%R else o) (b_nodes (B b)) o) l o i =
        (o i + suml l (fun x => if mem i (b_nodes (B x)) then evL E (L x) i else 0))%R).
      { induction l as [|a l IH]; intros o Hl; [simpl; lra|]. cbn [fold_left]. rewrite IH by (intros; apply Hl; right; auto).
        rewrite In1 by (apply (nodes_nodup I bs (F_tree I W)); apply Hl; left; auto). change (suml (a :: l) ?f) with (f a + suml l f)%R. cbv beta. lra. }
      rewrite X.
      - f_equal. rewrite (suml_one _ b); auto.
        + assert (mem i (b_nodes (B b)) = true) as -> by (apply mem_in; auto). reflexivity.
        + apply (Permutation_in _ (Permutation_sym HP)); auto.
        + intros y Hy NE. destruct (mem i (b_nodes (B y))) eqn:Em; auto. apply mem_in in Em. exfalso. apply NE.
          assert (Hyc : In y (st_childless st)) by (apply (Permutation_in _ HP); auto). assert (Hyl := F_cl I W y Hyc).
          assert (K1 := proj2 (F_leaf I W y Hyl) Hyc). assert (K2 := proj2 (F_leaf I W b Hbl) Hb).
          apply (nodes_leaf_unique I bs (F_tree I W) y b i); auto.
      - intros x Hx. apply (F_cl I W). apply (Permutation_in _ HP); auto.
    Qed.
  End Pass.
End Down.

Section Total.
  Variable I : oin.
  Hypothesis W : wf_in I.
  Hypothesis Wq : 0 < o_nqc I.
  Notation st := (octree I).
  Notation bs := (st_blocks (octree I)).
  Notation B := (getb (st_blocks (octree I))).
  Notation N := (o_N I).

  Lemma cell_bound q : q < o_nq I -> cell_of I q < o_nc I.
  Proof. intros H. unfold cell_of, o_nq in *. apply Nat.div_lt_upper_bound; lia. Qed.
  Lemma seq_cells : seq 0 (o_nq I) = flat_map (quads_of_cell I) (seq 0 (o_nc I)).
  Proof.
    unfold o_nq, quads_of_cell. generalize (o_nqc I) as m. intros m. induction (o_nc I) as [|n IH]; [reflexivity|].
    rewrite (seq_S n 0), flat_map_app. rewrite <- IH. replace (S n * m) with (n * m + m) by lia. rewrite seq_app. cbn [flat_map]. rewrite app_nil_r. reflexivity.
  Qed.
  Lemma quads_cell_of c q : c < o_nc I -> In q (quads_of_cell I c) -> cell_of I q = c /\ q < o_nq I.
  Proof. intros Hc H. apply (quads_of_cell_in I) in H; auto. tauto. Qed.

  (** singular cells are in the direct set (C38) *)
  Lemma singular_near b i q : In b (st_childless st) -> In i (b_nodes (B b)) -> q < o_nq I -> is_singular I i (cell_of I q) = true ->
    In q (near_quads I st b).
  Proof.
    intros Hb Hi Hq H. assert (Hb1 := childless_pos I W b Hb). assert (Hbl := F_cl I W b Hb).
    apply mem_in. rewrite (near_quads_iff I W b Hb Hb1 q Hq). unfold near_at. apply mem_in.
    assert (JG := J_ge I W b Hb Hb1). rewrite (SB_leaf I W b Hb Hb1) by exact JG. unfold SS.
    set (J := b_level (B b) + near_levels I st b - 1) in *.
    assert (NP := near_levels_pos I W b ltac:(lia)).
    replace J with (b_level (B b) + (J - b_level (B b))) at 1 by lia.
    apply (around_in_int I W); [lia|unfold J; lia|].
    unfold is_singular in H. apply existsb_exists in H. destruct H as (d & A & C). apply mem_in in C.
    exists i, d, (cell_of I q). repeat split; auto. apply cell_bound; auto.
  Qed.
  Lemma singular_ways b i q : In b (st_childless st) -> In i (b_nodes (B b)) -> q < o_nq I -> is_singular I i (cell_of I q) = true ->
    ways I st i q = [Near b].
  Proof.
    intros Hb Hi Hq H. assert (L := ways_one I W i q (node_bound I W b i (F_cl I W b Hb) Hi) Hq).
    assert (A := singular_near b i q Hb Hi Hq H). unfold ways in *.
    unfold near_ways in *. rewrite (childless_one I W _ _ b i Hb Hi) in *; try (intros c Hc; apply mem_false in Hc; rewrite Hc; auto).
    apply mem_in in A. apply mem_in in Hi. rewrite A, Hi in *. cbn [andb app] in *. destruct (flat_map _ (seq 1 N)); auto. simpl in L. lia.
  Qed.

  Variable G : geo.
  Hypothesis HG : geo_lin G.
  Variable K : kern.
  Variable phi : nat -> R.
  Variable owned : nat -> bool.
  Notation den := (density I K phi).
  Notation E := (lin_eops G).

  Section Node.
    Variable b i : nat.
    Hypothesis Hb : In b (st_childless st).
    Hypothesis Hi : In i (b_nodes (B b)).
    Hypothesis Ho : owned i = true.
    Let Hbl : b < length bs := F_cl I W b Hb.
    Notation P := (pathb I b).
    Notation lL := (b_level (B b)).
    Definition pk (q : nat) : R := suml (ways I st i q) (way_kernel G bs K b (leafq I q) i q).

    Definition lev_sum (q l : nat) : R := suml (big_ways I st l i q ++ far_ways I st l i q) (way_kernel G bs K b (leafq I q) i q).
    Lemma pk_split q : pk q = ((if mem q (near_quads I st b) then kd K i q else 0) + suml (seq 1 N) (lev_sum q))%R.
    Proof.
      unfold pk, ways. rewrite suml_app, suml_flat_map. f_equal.
      unfold near_ways. rewrite (childless_one I W _ _ b i Hb Hi) by (intros c Hc; apply mem_false in Hc; rewrite Hc; auto).
      assert (mem i (b_nodes (B b)) = true) as -> by (apply mem_in; auto). cbn [andb].
      destruct (mem q (near_quads I st b)); simpl; lra.
    Qed.
    Lemma lev_val q l : 1 <= l <= N -> lev_sum q l =
      if Nat.leb l lL then
        ((if mem q (big_quads I st l (P l)) then kd K i q else 0) +
         (suml (same_terms I (P l)) (fun c => if mem q (b_quads (B c)) then way_kernel G bs K b (leafq I q) i q (M2L (P l) c) else 0) +
          suml (small_terms I (P l)) (fun c => if mem q (b_quads (B c)) then way_kernel G bs K b (leafq I q) i q (MEval (P l) c) else 0)))%R
      else 0%R.
    Proof.
      intros Hl. unfold lev_sum, big_ways, far_ways. rewrite suml_app.
      rewrite (dfill_level I W _ _ b i l Hb Hi Hl) by (intros c Hc; apply mem_false in Hc; rewrite Hc; auto).
      rewrite (dfill_level I W _ _ b i l Hb Hi Hl) by (intros c Hc; apply mem_false in Hc; rewrite Hc; auto).
      destruct (Nat.leb_spec l lL) as [L|L]; [|simpl; lra].
      destruct (path_facts I W b l Hbl L) as (A1 & A2 & _ & A4 & _).
      assert (mem i (b_nodes (B (P l))) = true) as -> by (apply mem_in; auto). cbn [andb].
      f_equal; [destruct (mem q (big_quads I st l (P l))); simpl; lra|].
      unfold same_terms, small_terms. rewrite A2. rewrite !suml_flat_map, <- suml_plus. apply suml_ext. intros s _.
      rewrite suml_app, !suml_flat_map. f_equal; apply suml_ext; intros c _; destruct (mem q (b_quads (B c))); simpl; lra.
    Qed.

    (** summing a far term over all points *)
    Lemma far_swap (T : list nat) (f : nat -> nat -> R) : (forall c, In c T -> c < length bs) ->
      suml (seq 0 (o_nq I)) (fun q => den q * suml T (fun c => if mem q (b_quads (B c)) then f c q else 0))%R =
      suml T (fun c => suml (b_quads (B c)) (fun q => den q * f c q)%R).
    Proof.
      intros HT. rewrite (suml_ext _ _ (fun q => suml T (fun c => if mem q (b_quads (B c)) then den q * f c q else 0))%R).
      2:{ intros q _. rewrite <- suml_scal. apply suml_ext. intros c _. destruct (mem q (b_quads (B c))); lra. }
      rewrite suml_swap. apply suml_ext. intros c Hc. apply (suml_mem (o_nq I) (b_quads (B c)) (fun q => den q * f c q)%R).
      - apply (quads_nodup I bs (F_tree I W)); auto.
      - intros x Hx. apply (quad_bound I W c); auto.
    Qed.

    Lemma nonint_bound k s c : 0 < k < length bs -> s < near_levels I st k -> In c (nonint_list I st k s) -> c < length bs.
    Proof.
      intros Hk Hs Hc. destruct (Nat.eq_dec (b_level (B k)) 1) as [L|L]; [rewrite nonint_1 in Hc by auto; destruct Hc|].
      apply (nonint_front I W k s); auto.
    Qed.
    Lemma same_bound k c : 0 < k < length bs -> In c (same_terms I k) -> c < length bs.
    Proof.
      intros Hk Hc. unfold same_terms in Hc. apply in_flat_map in Hc. destruct Hc as (s & A & C). apply in_seq in A. apply filter_In in C.
      apply (nonint_bound k s); auto; [lia|tauto].
    Qed.
    Lemma small_bound k c : 0 < k < length bs -> In c (small_terms I k) -> c < length bs.
    Proof.
      intros Hk Hc. unfold small_terms in Hc. apply in_flat_map in Hc. destruct Hc as (s & A & C). apply in_seq in A. apply filter_In in C.
      apply (nonint_bound k s); auto; [lia|tauto].
    Qed.

    Variable s : sched.
    Hypothesis Hs : good_sched I st s.
    Let M := ascend E I st (s_up s) (leaves E I st K phi (s_leaves s)).

    Lemma M_ok x : x < length bs -> fst (M x) = x /\ forall k, snd (M x) k = src I G K phi x k.
    Proof. intros Hx. apply (M_final I W G HG K phi s x Hs Hx). Qed.

    Lemma far_eval_val l : 1 <= l <= lL -> far_eval I G M b i l =
      suml (seq 0 (o_nq I)) (fun q => den q * suml (small_terms I (P l)) (fun c => if mem q (b_quads (B c)) then way_kernel G bs K b (leafq I q) i q (MEval (P l) c) else 0))%R.
    Proof.
      intros Hl. assert (A0 := path_pos I W b l Hbl Hl). destruct (path_facts I W b l Hbl ltac:(lia)) as (A1 & A2 & _).
      rewrite far_swap by (intros c; apply small_bound; lia).
      unfold far_eval. apply suml_ext. intros c Hc. assert (Hcl := small_bound (P l) c ltac:(lia) Hc).
      destruct (M_ok c Hcl) as (M1 & M2). rewrite M1.
      rewrite (lin_sum (gEM G c i) (b_quads (B c)) (fun q => den q / 4 / PI)%R (fun q => momv I G c q)); [|apply HG|exact M2].
      apply suml_ext. intros q _. cbn [way_kernel]. unfold momv. unfold Rdiv. ring.
    Qed.
    Lemma far_local_val l : 1 <= l <= lL -> far_local I G M b i l =
      suml (seq 0 (o_nq I)) (fun q => den q * suml (same_terms I (P l)) (fun c => if mem q (b_quads (B c)) then way_kernel G bs K b (leafq I q) i q (M2L (P l) c) else 0))%R.
    Proof.
      intros Hl. assert (A0 := path_pos I W b l Hbl Hl). destruct (path_facts I W b l Hbl ltac:(lia)) as (A1 & A2 & _).
      rewrite far_swap by (intros c; apply same_bound; lia).
      unfold far_local. apply suml_ext. intros c Hc. assert (Hcl := same_bound (P l) c ltac:(lia) Hc).
      destruct (M_ok c Hcl) as (M1 & M2). rewrite M1.
      rewrite (lin_sum (fun u => Psi I G b i l (gML G (P l) c u)) (b_quads (B c)) (fun q => den q / 4 / PI)%R (fun q => momv I G c q)).
      - apply suml_ext. intros q _. cbn [way_kernel]. rewrite A2. unfold momv, Psi. unfold Rdiv. ring.
      - apply (lin_comp (Psi I G b i l)); [apply (Psi_lin I G HG)|apply HG].
      - exact M2.
    Qed.

    (** near-field matrix *)
    Definition adds := direct_adds I st K owned (s_direct s) (s_big s).
    Lemma adds_cols x : In x adds -> snd (fst x) < o_nd I.
    Proof.
      intros Hx. destruct Hs as (S1 & S2 & _). unfold adds in Hx.
      assert (X : In (fst x) (sparsity I st owned)).
      { apply (adds_in_sparsity I K owned st (s_direct s) (s_big s)); auto.
        - intros y Hy. apply (Permutation_in _ S1); auto.
        - intros l y Hl Hy. apply (Permutation_in _ (S2 l Hl)); auto. }
      assert (Dd : forall d L, (forall y, In y L -> y < length bs) -> In d (dofs_of_blocks I st L) -> d < o_nd I).
      { intros d L HL H. unfold dofs_of_blocks in H. rewrite nub_in, in_flat_map in H. destruct H as (y & A & C). apply in_flat_map in C. destruct C as (c & C & D).
        unfold cells_in in C. rewrite nub_in, in_map_iff in C. destruct C as (q & C1 & C2). assert (W4 := proj2 (proj2 (proj2 W))). apply (W4 c); auto. subst c. apply cell_bound.
        apply (quad_bound I W y); auto. }
      unfold sparsity in X. rewrite in_app_iff, !in_flat_map in X. destruct X as [(y & A & C)|(l & A & C)].
      - unfold near_pattern in C. apply in_flat_map in C. destruct C as (k & _ & C). apply in_map_iff in C. destruct C as (d & <- & C). cbn [snd].
        apply (Dd d (last_int I st y)); auto. intros z Hz. assert (Y := F_cl I W y A). assert (Y0 := childless_pos I W y A). assert (NP := near_levels_pos I W y ltac:(lia)).
        apply (int_front I W y (near_levels I st y - 1)); auto; lia.
      - apply in_seq in A. apply in_flat_map in C. destruct C as (y & C1 & C). unfold level_pattern in C. apply in_flat_map in C. destruct C as (t & C2 & C).
        apply in_flat_map in C. destruct C as (k & _ & C). apply in_map_iff in C. destruct C as (d & <- & C). cbn [snd].
        apply (Dd d (bigger I st l y t)); auto. intros z Hz. apply filter_In in Hz. destruct Hz as (Hz & _).
        apply (dfill_in I W) in C1; [|lia]. destruct C1 as (Y1 & Y2 & _). apply in_seq in C2.
        assert (y <> 0) by (intros ->; assert (Y := proj2 (level_pos I bs (F_tree I W) 0 Y1) eq_refl); lia).
        apply (nonint_bound y t); auto; lia.
    Qed.

    Definition sng (c : nat) : R := if is_singular I i c then sing_dot I K phi i c else 0%R.
    Lemma near_part : suml (copier_adds I (near_worker I st K owned b)) (hit phi i) =
      (suml (seq 0 (o_nc I)) sng + suml (near_quads I st b) (fun q => if is_singular I i (cell_of I q) then 0 else kd K i q * den q))%R.
    Proof.
      assert (Nb := nodes_nodup I bs (F_tree I W) b Hbl). rewrite near_hits by auto.
      assert (mem i (b_nodes (B b)) = true) as -> by (apply mem_in; auto).
      set (NQ := near_quads I st b).
      rewrite (suml_ext (cells_in I NQ) _ (fun c => sng c + suml (cell_quads I NQ c) (fun q => if is_singular I i (cell_of I q) then 0 else kd K i q * den q))%R).
      2:{ intros c _. unfold sng. destruct (is_singular I i c) eqn:Es.
          - rewrite (suml_zero (cell_quads I NQ c)); [lra|]. intros q Hq. apply filter_In in Hq. destruct Hq as (_ & Hq). apply Nat.eqb_eq in Hq. rewrite Hq, Es. auto.
          - rewrite Rplus_0_l. apply suml_ext. intros q Hq. apply filter_In in Hq. destruct Hq as (_ & Hq). apply Nat.eqb_eq in Hq. rewrite Hq, Es. auto. }
      rewrite suml_plus. f_equal.
      - rewrite <- (suml_mem (o_nc I) (cells_in I NQ) sng).
        + apply suml_ext. intros c Hc. apply in_seq in Hc. destruct (mem c (cells_in I NQ)) eqn:Em; auto.
          unfold sng. destruct (is_singular I i c) eqn:Es; auto. exfalso. apply mem_false in Em. apply Em.
          unfold cells_in. rewrite nub_in. apply in_map_iff. exists (c * o_nqc I).
          assert (Ec : cell_of I (c * o_nqc I) = c) by (unfold cell_of; apply Nat.div_mul; lia).
          split; auto. apply (singular_near b i); auto; [unfold o_nq; nia|]. rewrite Ec; auto.
        + apply nub_nodup.
        + intros c Hc. unfold cells_in in Hc. rewrite nub_in, in_map_iff in Hc. destruct Hc as (q & <- & Hq). apply cell_bound.
          assert (Hn := near_quads_iff I W b Hb (childless_pos I W b Hb)). clear Hn.
          unfold NQ, near_quads, quads_of_blocks in Hq. rewrite nub_in, in_flat_map in Hq. destruct Hq as (z & Hz & Hq). apply (quad_bound I W z); auto.
          assert (Y0 := childless_pos I W b Hb). assert (NP := near_levels_pos I W b ltac:(lia)).
          apply (int_front I W b (near_levels I st b - 1)); auto; lia.
      - unfold cells_in, cell_quads. apply suml_nub_part.
    Qed.

    Lemma near_quads_bound q : In q (near_quads I st b) -> q < o_nq I.
    Proof.
      intros Hq. unfold near_quads, quads_of_blocks in Hq. rewrite nub_in, in_flat_map in Hq. destruct Hq as (z & Hz & Hq). apply (quad_bound I W z); auto.
      assert (Y0 := childless_pos I W b Hb). assert (NP := near_levels_pos I W b ltac:(lia)).
      apply (int_front I W b (near_levels I st b - 1)); auto; lia.
    Qed.
    Lemma big_quads_bound l q : 1 <= l <= lL -> In q (big_quads I st l (P l)) -> q < o_nq I.
    Proof.
      intros Hl Hq. unfold big_quads, quads_of_blocks in Hq. rewrite nub_in, in_flat_map in Hq. destruct Hq as (z & Hz & Hq). apply (quad_bound I W z); auto.
      apply in_flat_map in Hz. destruct Hz as (t & Ht & Hz). apply in_seq in Ht. apply filter_In in Hz. destruct Hz as (Hz & _).
      assert (A0 := path_pos I W b l Hbl Hl). destruct (path_facts I W b l Hbl ltac:(lia)) as (A1 & A2 & _).
      apply (nonint_bound (P l) t); auto; lia.
    Qed.

    Lemma out0_val : fold_left (fun a d => (a + entry adds i d * phi d)%R) (seq 0 (o_nd I)) 0%R =
      (suml (seq 0 (o_nc I)) sng + suml (near_quads I st b) (fun q => if is_singular I i (cell_of I q) then 0 else kd K i q * den q) +
       suml (seq 1 N) (fun l => if Nat.leb l lL then suml (big_quads I st l (P l)) (fun q => kd K i q * den q) else 0))%R.
    Proof.
      rewrite product_hits by apply adds_cols. destruct Hs as (S1 & S2 & _). unfold adds, direct_adds. rewrite suml_app. f_equal.
      - rewrite <- near_part. rewrite suml_flat_map. rewrite (suml_perm _ _ _ S1). apply (suml_one _ b (fun x => suml (copier_adds I (near_worker I st K owned x)) (hit phi i))); auto.
        + apply (F_cl_nodup I W).
        + intros y Hy NE. rewrite near_hits; auto; [|apply (nodes_nodup I bs (F_tree I W)); apply (F_cl I W); auto].
          destruct (mem i (b_nodes (B y))) eqn:Em; auto. apply mem_in in Em. exfalso. apply NE. assert (Hyl := F_cl I W y Hy).
          assert (K1 := proj2 (F_leaf I W y Hyl) Hy). assert (K2 := proj2 (F_leaf I W b Hbl) Hb).
          apply (nodes_leaf_unique I bs (F_tree I W) y b i); auto.
      - rewrite suml_flat_map. apply suml_ext. intros l Hl. apply in_seq in Hl. rewrite suml_flat_map. rewrite (suml_perm _ _ _ (S2 l ltac:(lia))).
        assert (V : forall y, In y (nth l (st_dfill st) []) -> suml (copier_adds I (big_worker I st K owned l y)) (hit phi i) =
             if mem i (b_nodes (B y)) then suml (big_quads I st l y) (fun q => kd K i q * den q)%R else 0%R).
        { intros y Hy. apply big_hits; auto. apply (nodes_nodup I bs (F_tree I W)). apply (dfill_in I W) in Hy; [tauto|lia]. }
        destruct (Nat.leb_spec l lL) as [L|L].
        + destruct (path_facts I W b l Hbl L) as (A1 & A2 & _ & A4 & _).
          assert (Dp : In (P l) (nth l (st_dfill st) [])).
          { apply (dfill_in I W); [lia|]. repeat split; auto. intros Z. apply A4 in Hi. rewrite Z in Hi. destruct Hi. }
          rewrite (suml_one _ (P l) (fun y => suml (copier_adds I (big_worker I st K owned l y)) (hit phi i))); auto.
          * rewrite V by auto. assert (mem i (b_nodes (B (P l))) = true) as -> by (apply mem_in; auto). reflexivity.
          * apply (dfill_nodup I W); lia.
          * intros y Hy NE. rewrite V by auto. destruct (mem i (b_nodes (B y))) eqn:Em; auto. apply mem_in in Em.
            apply (dfill_in I W) in Hy; [|lia]. destruct Hy as (Y1 & Y2 & _). apply (holds_node I W b) in Em; auto. destruct Em as (_ & Em). rewrite Y2 in Em. contradiction.
        + apply suml_zero. intros y Hy. rewrite V by auto. destruct (mem i (b_nodes (B y))) eqn:Em; auto. apply mem_in in Em.
          apply (dfill_in I W) in Hy; [|lia]. destruct Hy as (Y1 & Y2 & _). apply (holds_node I W b) in Em; auto. lia.
    Qed.

    Lemma levels_zero q : q < o_nq I -> is_singular I i (cell_of I q) = true -> suml (seq 1 N) (lev_sum q) = 0%R.
    Proof.
      intros Hq Hsg. assert (A := singular_ways b i q Hb Hi Hq Hsg). assert (C := singular_near b i q Hb Hi Hq Hsg).
      assert (X := pk_split q). unfold pk in X. rewrite A in X. apply mem_in in C. rewrite C in X. simpl suml in X at 1. lra.
    Qed.

    Theorem product_total : fmm_product E I st K phi owned s i = direct_product I K phi pk i.
    Proof.
      unfold fmm_product. fold adds. fold M. cbn [aadd amul exact_arith].
      set (out0 := fun i => fold_left (fun a d => (a + entry adds i d * phi d)%R) (seq 0 (o_nd I)) 0%R).
      destruct (descend E I st owned M (s_down s) out0) as (L, out) eqn:D.
      destruct Hs as (S1 & S2 & S3 & S4 & S5 & S6).
      rewrite (evaluate_val I W G owned b i Hb Hi Ho L (s_eval s) out S6).
      assert (HM : forall x, x < length bs -> fst (M x) = x) by (intros x Hx; apply M_ok; auto).
      destruct (descend_inv I W G HG owned M b i Hb Hi Ho (s_down s) out0 S5 N ltac:(lia)) as (D1 & D2 & D3 & D4).
      unfold descend in D. rewrite D in D1, D2, D3, D4. cbn [fst snd] in D1, D2, D3, D4.
      rewrite D4. assert (LN := F_level_le I W b Hbl).
      specialize (D3 lL LN ltac:(lia)). rewrite (path_leaf I W b lL Hbl ltac:(lia)) in D3.
      assert (EL : evL E (L b) i = suml (seq 1 lL) (far_local I G M b i)).
      { rewrite <- D3. cbn [evL lin_eops]. rewrite D1 by auto. unfold Psi. rewrite Nat.sub_diag. reflexivity. }
      rewrite EL. unfold out0. rewrite out0_val.
      replace (suml (seq 1 lL) (far_local I G M b i)) with (suml (seq 1 N) (fun l => if Nat.leb l lL then far_local I G M b i l else 0%R)).
      2:{ replace N with (lL + (N - lL)) by lia. rewrite seq_app, suml_app. rewrite (suml_zero (seq (1 + lL) _)).
          - rewrite Rplus_0_r. apply suml_ext. intros l Hl. apply in_seq in Hl. destruct (Nat.leb_spec l lL); [auto|lia].
          - intros l Hl. apply in_seq in Hl. destruct (Nat.leb_spec l lL); [lia|auto]. }
      (* right-hand side *)
      assert (RHS : direct_product I K phi pk i = (suml (seq 0 (o_nc I)) sng + (suml (near_quads I st b) (fun q => if is_singular I i (cell_of I q) then 0 else kd K i q * den q)
           + suml (seq 0 (o_nq I)) (fun q => suml (seq 1 N) (fun l => den q * lev_sum q l))))%R).
      { unfold direct_product.
        rewrite (suml_ext (seq 0 (o_nc I)) _ (fun c => sng c + suml (quads_of_cell I c) (fun q => if is_singular I i (cell_of I q) then 0 else pk q * den q))%R).
        2:{ intros c Hc. apply in_seq in Hc. unfold sng. destruct (is_singular I i c) eqn:Es.
            - rewrite (suml_zero (quads_of_cell I c)); [unfold sing_dot; lra|]. intros q Hq. apply quads_cell_of in Hq; [|lia]. destruct Hq as (-> & _). rewrite Es. auto.
            - rewrite Rplus_0_l. apply suml_ext. intros q Hq. apply quads_cell_of in Hq; [|lia]. destruct Hq as (-> & _). rewrite Es. auto. }
        rewrite suml_plus, <- suml_flat_map, <- seq_cells.
        rewrite (suml_ext (seq 0 (o_nq I)) _ (fun q => (if mem q (near_quads I st b) then (if is_singular I i (cell_of I q) then 0 else kd K i q * den q) else 0) + den q * suml (seq 1 N) (lev_sum q))%R).
        2:{ intros q Hq. apply in_seq in Hq. destruct (is_singular I i (cell_of I q)) eqn:Es.
            - rewrite levels_zero by (auto; lia). destruct (mem q (near_quads I st b)); lra.
            - rewrite pk_split. destruct (mem q (near_quads I st b)); lra. }
        rewrite suml_plus. rewrite (suml_mem (o_nq I) (near_quads I st b) (fun q => if is_singular I i (cell_of I q) then 0 else kd K i q * den q)%R) by (try apply nub_nodup; apply near_quads_bound).
        rewrite (suml_ext (seq 0 (o_nq I)) (fun q => den q * suml (seq 1 N) (lev_sum q))%R (fun q => suml (seq 1 N) (fun l => den q * lev_sum q l)%R)) by (intros; rewrite suml_scal; auto).
        reflexivity. }
      rewrite RHS.
      rewrite suml_swap. rewrite !Rplus_assoc. f_equal. f_equal.
      rewrite <- !suml_plus. apply suml_ext. intros l Hl. apply in_seq in Hl.
      rewrite (suml_ext (seq 0 (o_nq I)) _ _ (fun q _ => f_equal (fun v => den q * v)%R (lev_val q l ltac:(lia)))).
      destruct (Nat.leb_spec l lL) as [Le|Le].
      - rewrite far_eval_val, far_local_val by lia.
        rewrite <- (suml_mem (o_nq I) (big_quads I st l (P l)) (fun q => kd K i q * den q)%R) by (try apply nub_nodup; intros x; apply big_quads_bound; lia).
        rewrite <- !suml_plus. apply suml_ext. intros q _. destruct (mem q (big_quads I st l (P l))); lra.
      - rewrite suml_zero by (intros; lra). lra.
    Qed.
  End Node.
End Total.
