(** * Lemmas on the free coefficients of the hypersingular equation. *)
From Coq Require Import Reals List Arith Bool Lia Lra Permutation.
From Verif Require Import LibSum ModelHyp SpecHyp.
Import ListNotations.
Local Open Scope R_scope.

Notation v0 := (V 0 0 0).
Lemma v3_ext a b : vx a = vx b -> vy a = vy b -> vz a = vz b -> a = b.
Proof. destruct a, b; cbn; intros; subst; auto. Qed.
Lemma dot_nonneg a : 0 <= dot a a. Proof. unfold dot. assert (X := Rle_0_sqr (vx a)). assert (Y := Rle_0_sqr (vy a)). assert (Z := Rle_0_sqr (vz a)). unfold Rsqr in *. lra. Qed.
Lemma nrm_sq a : nrm a * nrm a = dot a a. Proof. apply sqrt_sqrt, dot_nonneg. Qed.
Lemma nrm_zero a : nrm a = 0 -> a = v0.
Proof.
  intros Z. assert (D := nrm_sq a). rewrite Z, Rmult_0_l in D. unfold dot in D.
  assert (X := Rle_0_sqr (vx a)). assert (Y := Rle_0_sqr (vy a)). assert (W := Rle_0_sqr (vz a)). unfold Rsqr in *.
  apply v3_ext; cbn [vx vy vz]; apply Rsqr_0_uniq; unfold Rsqr; lra.
Qed.
Lemma nrm_v0 : nrm v0 = 0. Proof. unfold nrm. replace (dot v0 v0) with 0 by (unfold dot; cbn; ring). apply sqrt_0. Qed.
Lemma nrm_neg a b : nrm (cross a b) = nrm (cross b a).
Proof. unfold nrm. f_equal. unfold dot, cross. cbn. ring. Qed.
Lemma normalize_some a : a <> v0 -> normalize a = Some (smul (/ nrm a) a).
Proof. intros N. unfold normalize. destruct (Req_EM_T (nrm a) 0) as [E|E]; [destruct (N (nrm_zero a E))|]. f_equal. unfold smul, Rdiv. f_equal; ring. Qed.
Lemma normalize_none : normalize v0 = None.
Proof. unfold normalize. destruct (Req_EM_T (nrm v0) 0) as [E|E]; auto. destruct (E nrm_v0). Qed.
(** Cauchy-Schwarz through Lagrange *)
Lemma lagrange a b : dot (cross a b) (cross a b) = dot a a * dot b b - dot a b * dot a b.
Proof. unfold dot, cross. cbn. ring. Qed.
Lemma unit_dot_bound a b : unit_vec a -> unit_vec b -> -1 <= dot a b <= 1.
Proof.
  intros A B. assert (P := dot_nonneg (cross a b)). rewrite lagrange, A, B in P. set (c := dot a b) in *.
  split; [destruct (Rle_dec (-1) c) as [|N]; auto|destruct (Rle_dec c 1) as [|N]; auto]; exfalso; apply Rnot_le_lt in N.
  - assert (0 < (-c - 1) * (-c + 1)) by (apply Rmult_lt_0_compat; lra). lra.
  - assert (0 < (c - 1) * (c + 1)) by (apply Rmult_lt_0_compat; lra). lra.
Qed.
Lemma facos_unit a b : unit_vec a -> unit_vec b -> facos (dot a b) = Some (acos (dot a b)).
Proof. intros A B. destruct (unit_dot_bound a b A B) as (X & Y). unfold facos. destruct (Rle_dec (-1) _); [|lra]. destruct (Rle_dec _ 1); [auto|lra]. Qed.
Lemma dot_sym a b : dot a b = dot b a. Proof. unfold dot. ring. Qed.

(** ** sums over the edges *)
Definition path (F : v3 * v3 -> R) (l : list v3) : R := suml (pairs l) F.
Lemma path_cons F a b l : path F (a :: b :: l) = F (a, b) + path F (b :: l). Proof. reflexivity. Qed.
Lemma path_app F a l b m : path F (a :: l ++ b :: m) = path F (a :: l ++ [b]) + path F (b :: m).
Proof.
  revert a. induction l as [|c l IH]; intros a; cbn [app].
  - rewrite path_cons. unfold path at 2. cbn [pairs]. unfold suml at 1. cbn. ring.
  - rewrite !path_cons, IH. ring.
Qed.
Lemma edges_rot F l m : suml (edges (l ++ m)) F = suml (edges (m ++ l)) F.
Proof.
  destruct l as [|a l]; [rewrite app_nil_r; reflexivity|]. destruct m as [|b m]; [rewrite app_nil_r; reflexivity|]. cbn [app edges].
  change (path F (a :: (l ++ b :: m) ++ [a]) = path F (b :: (m ++ a :: l) ++ [b])). rewrite <- !app_assoc. cbn [app]. rewrite (path_app F a l b (m ++ [a])), (path_app F b m a (l ++ [b])). ring.
Qed.
Lemma path_nth F l : path F l = sumn (length l - 1) (fun k => F (nth k l v0, nth (S k) l v0)).
Proof.
  induction l as [|a l IH]; [reflexivity|]. destruct l as [|b l]; [reflexivity|]. rewrite path_cons, IH.
  replace (length (a :: b :: l) - 1)%nat with (S (length (b :: l) - 1)) by (cbn [length]; lia). rewrite <- !suml_seq. rewrite <- cons_seq, <- seq_shift.
  change (suml (0%nat :: map S (seq 0 (length (b :: l) - 1))) (fun k => F (nth k (a :: b :: l) v0, nth (S k) (a :: b :: l) v0)))
    with (F (a, b) + suml (map S (seq 0 (length (b :: l) - 1))) (fun k => F (nth k (a :: b :: l) v0, nth (S k) (a :: b :: l) v0))).
  rewrite suml_map. reflexivity.
Qed.
(** the k-th corner, counting cyclically once around *)
Definition cyc (l : list v3) (k : nat) : v3 := if Nat.eqb k (length l) then nth 0 l v0 else nth k l v0.
Lemma edges_nth F l : suml (edges l) F = sumn (length l) (fun k => F (cyc l k, cyc l (S k))).
Proof.
  destruct l as [|a l]; [reflexivity|]. cbn [edges]. change (path F (a :: l ++ [a]) = sumn (length (a :: l)) (fun k => F (cyc (a :: l) k, cyc (a :: l) (S k)))). rewrite path_nth.
  replace (length (a :: l ++ [a]) - 1)%nat with (length (a :: l)) by (cbn [length]; rewrite app_length; cbn; lia).
  apply sumn_ext. intros k Hk.
  assert (E : forall k, (k <= length (a :: l))%nat -> nth k (a :: l ++ [a]) v0 = cyc (a :: l) k).
  { intros j Hj. unfold cyc. change (a :: l ++ [a]) with ((a :: l) ++ [a]). destruct (Nat.eqb_spec j (length (a :: l))) as [->|N].
    - rewrite app_nth2, Nat.sub_diag by lia. reflexivity.
    - rewrite app_nth1 by lia. reflexivity. }
  rewrite !E by lia. reflexivity.
Qed.
Lemma in_edges_nth l k : (k < length l)%nat -> In (cyc l k, cyc l (S k)) (edges l).
Proof.
  assert (P : forall m j, (S j < length m)%nat -> In (nth j m v0, nth (S j) m v0) (pairs m)).
  { induction m as [|a [|b m] IH]; intros j Hj; [cbn in Hj; lia|cbn in Hj; lia|]. destruct j as [|j]; [left; reflexivity|]. right. apply (IH j). cbn [length] in *. lia. }
  intros Hk. destruct l as [|a l]; [cbn in Hk; lia|]. cbn [edges]. assert (E : forall k, (k <= length (a :: l))%nat -> nth k (a :: l ++ [a]) v0 = cyc (a :: l) k).
  { intros j Hj. unfold cyc. change (a :: l ++ [a]) with ((a :: l) ++ [a]). destruct (Nat.eqb_spec j (length (a :: l))) as [->|N].
    - rewrite app_nth2, Nat.sub_diag by lia. reflexivity.
    - rewrite app_nth1 by lia. reflexivity. }
  rewrite <- (E k), <- (E (S k)) by lia. apply P. cbn [length]. rewrite app_length. cbn [length] in *. lia.
Qed.
Lemma cyc_len l : cyc l (length l) = nth 0 l v0. Proof. unfold cyc. rewrite Nat.eqb_refl. reflexivity. Qed.
Lemma cyc_in l k : (k <= length l)%nat -> l <> [] -> In (cyc l k) l.
Proof. intros Hk N. unfold cyc. destruct (Nat.eqb_spec k (length l)); apply nth_In; [destruct l; [congruence|cbn; lia]|lia]. Qed.

Section Corner.
  Variable l : list v3.
  Hypothesis U : forall a, In a l -> unit_vec a.
  Hypothesis N2 : (2 <= length l)%nat.
  Let n j := nth j l v0.
  Lemma l_nonnil : l <> []. Proof. intros E. rewrite E in N2. cbn in N2. lia. Qed.
  Lemma unit_cyc k : (k <= length l)%nat -> unit_vec (cyc l k).
  Proof. intros Hk. apply U, cyc_in; auto. apply l_nonnil. Qed.
  Lemma alpha_formula : geom_alpha l = Some (corner_alpha l).
  Proof.
    unfold geom_alpha. replace (Nat.ltb 1 (length l)) with true by (symmetry; apply Nat.ltb_lt; lia).
    assert (F : forall ks a, (forall k, In k ks -> (1 <= k < length l)%nat) ->
      fold_left (fun a k => osub a (facos (dot (nth k l v0) (nth (k - 1) l v0)))) ks (Some a) = Some (a - suml ks (fun k => acos (dot (nth k l v0) (nth (k - 1) l v0))))).
    { induction ks as [|k ks IH]; intros a Hk; [cbn; f_equal; unfold suml; cbn; ring|]. cbn [fold_left].
      assert (K := Hk k (or_introl eq_refl)). rewrite facos_unit by (apply U, nth_In; lia). cbn [osub]. rewrite IH by (intros; apply Hk; right; auto). f_equal.
      change (suml (k :: ks) (fun k => acos (dot (nth k l v0) (nth (k - 1) l v0)))) with (acos (dot (nth k l v0) (nth (k - 1) l v0)) + suml ks (fun k => acos (dot (nth k l v0) (nth (k - 1) l v0)))). ring. }
    rewrite F by (intros k Hk; apply in_seq in Hk; lia). rewrite facos_unit by (apply U, nth_In; lia). cbn [osub]. f_equal. unfold corner_alpha. rewrite edges_nth.
    replace (sumn (length l) (fun k => edge_angle (cyc l k, cyc l (S k)))) with (suml (seq 1 (length l - 1)) (fun k => acos (dot (nth k l v0) (nth (k - 1) l v0))) + acos (dot (nth (length l - 1) l v0) (nth 0 l v0))).
    - assert (Z := PI_RGT_0). field. lra.
    - replace (length l) with (S (length l - 1)) at 3 by lia. rewrite <- suml_seq. rewrite seq_S, suml_app, <- seq_shift, suml_map. f_equal.
      + apply suml_ext. intros k Hk. apply in_seq in Hk. unfold edge_angle, cyc. cbn [fst snd]. replace (Nat.eqb k (length l)) with false by (symmetry; apply Nat.eqb_neq; lia). replace (Nat.eqb (S k) (length l)) with false by (symmetry; apply Nat.eqb_neq; lia).
        rewrite dot_sym. replace (S k - 1)%nat with k by lia. reflexivity.
      + unfold suml. cbn [fold_right Nat.add]. unfold edge_angle, cyc. cbn [fst snd]. replace (Nat.eqb (length l - 1) (length l)) with false by (symmetry; apply Nat.eqb_neq; lia).
        replace (S (length l - 1)) with (length l) by lia. rewrite Nat.eqb_refl. ring.
  Qed.
  Hypothesis K : forall e, In e (edges l) -> skew e.
  Lemma tangent_cyc k : (k < length l)%nat -> tangent l (k + 1) = Some (smul (/ nrm (cross (cyc l k) (cyc l (S k)))) (cross (cyc l (S k)) (cyc l k))).
  Proof.
    intros Hk. assert (S1 := K _ (in_edges_nth l k Hk)). unfold skew in S1. cbn [fst snd] in S1.
    assert (S2 : cross (cyc l (S k)) (cyc l k) <> v0).
    { intros E. apply S1. apply nrm_zero. rewrite nrm_neg, E. apply nrm_v0. }
    rewrite (nrm_neg (cyc l k)). rewrite <- (normalize_some _ S2). unfold tangent. f_equal. unfold cyc.
    replace (Nat.eqb (k + 1) 0) with false by (symmetry; apply Nat.eqb_neq; lia). replace (k + 1)%nat with (S k) by lia. cbn [orb]. replace (Nat.eqb k (length l)) with false by (symmetry; apply Nat.eqb_neq; lia).
    destruct (Nat.eqb_spec (S k) (length l)); [replace (length l - 1)%nat with k by lia; reflexivity|]. replace (S k - 1)%nat with k by lia. reflexivity.
  Qed.
  Lemma tangent_0 : tangent l 0 = tangent l (length l).
  Proof. unfold tangent. rewrite !Nat.eqb_refl, orb_true_r. reflexivity. Qed.
  (** t_k as a total function *)
  Definition tan (k : nat) : v3 := match tangent l k with Some t => t | None => v0 end.
  Lemma tangent_some k : (k <= length l)%nat -> tangent l k = Some (tan k).
  Proof.
    intros Hk. unfold tan. destruct (Nat.eq_dec k 0) as [->|Nz].
    - rewrite tangent_0. replace (length l) with (length l - 1 + 1)%nat by lia. rewrite tangent_cyc by lia. reflexivity.
    - replace k with (k - 1 + 1)%nat by lia. rewrite tangent_cyc by lia. reflexivity.
  Qed.
  Lemma C_formula i j : C_entry l i j = Some (corner_C l i j).
  Proof.
    unfold C_entry. rewrite alpha_formula. replace (Nat.ltb 1 (length l)) with true by (symmetry; apply Nat.ltb_lt; lia).
    set (f := fun (t m : v3) => comp (cross t m) i * comp m j).
    assert (F : forall ks c, (forall k, In k ks -> (k < length l)%nat) ->
      fold_left (fun c k => match c, tangent l (k + 1), tangent l k with
                            | Some c, Some t', Some t => let n := nth k l v0 in Some (c - 1 / 4 / PI * (comp (cross (vsub t' t) n) i * comp n j))
                            | _, _, _ => None end) ks (Some c) = Some (c - 1 / 4 / PI * suml ks (fun k => f (tan (k + 1)) (nth k l v0) - f (tan k) (nth k l v0)))).
    { induction ks as [|k ks IH]; intros c Hk; [cbn; f_equal; unfold suml; cbn; ring|]. cbn [fold_left]. assert (Kl := Hk k (or_introl eq_refl)).
      rewrite !tangent_some by lia. cbv zeta. rewrite IH by (intros; apply Hk; right; auto). f_equal.
      change (suml (k :: ks) (fun k => f (tan (k + 1)) (nth k l v0) - f (tan k) (nth k l v0))) with (f (tan (k + 1)) (nth k l v0) - f (tan k) (nth k l v0) + suml ks (fun k => f (tan (k + 1)) (nth k l v0) - f (tan k) (nth k l v0))).
      assert (L : comp (cross (vsub (tan (k + 1)) (tan k)) (nth k l v0)) i * comp (nth k l v0) j = f (tan (k + 1)) (nth k l v0) - f (tan k) (nth k l v0)).
      { unfold f. rewrite <- Rmult_minus_distr_r. f_equal. destruct i as [|[|i']]; cbn; ring. }
      rewrite L. ring. }
    rewrite F by (intros k Hk; apply in_seq in Hk; lia). f_equal. unfold corner_C. rewrite edges_nth.
    assert (E : suml (seq 0 (length l)) (fun k => f (tan (k + 1)) (nth k l v0) - f (tan k) (nth k l v0)) = sumn (length l) (fun k => edge_matrix i j (cyc l k, cyc l (S k)))).
    { rewrite suml_seq. rewrite sumn_minus.
      assert (Sh : sumn (length l) (fun k => f (tan k) (nth k l v0)) = sumn (length l) (fun k => f (tan (S k)) (cyc l (S k)))).
      { replace (length l) with (S (length l - 1)) at 1 2 by lia. rewrite <- !suml_seq. rewrite <- cons_seq at 1. rewrite <- seq_shift, (seq_S (length l - 1)), suml_app.
        change (suml (0%nat :: map S (seq 0 (length l - 1))) (fun k => f (tan k) (nth k l v0))) with (f (tan 0) (nth 0 l v0) + suml (map S (seq 0 (length l - 1))) (fun k => f (tan k) (nth k l v0))).
        rewrite suml_map. rewrite (suml_ext (seq 0 (length l - 1)) (fun x => f (tan (S x)) (nth (S x) l v0)) (fun k => f (tan (S k)) (cyc l (S k)))).
        - unfold suml at 3. cbn [fold_right Nat.add]. replace (S (length l - 1)) with (length l) by lia. rewrite cyc_len. replace (tan 0) with (tan (length l)) by (unfold tan; rewrite tangent_0; reflexivity). ring.
        - intros k Hk. apply in_seq in Hk. unfold cyc. replace (Nat.eqb (S k) (length l)) with false by (symmetry; apply Nat.eqb_neq; lia). reflexivity. }
      rewrite Sh, <- sumn_minus. apply sumn_ext. intros k Hk.
      replace (nth k l v0) with (cyc l k) by (unfold cyc; replace (Nat.eqb k (length l)) with false by (symmetry; apply Nat.eqb_neq; lia); reflexivity).
      replace (S k) with (k + 1)%nat at 1 by lia. unfold tan. rewrite tangent_cyc by lia.
      assert (Ua := unit_cyc k ltac:(lia)). assert (Ub := unit_cyc (S k) ltac:(lia)). set (a := cyc l k) in *. set (b := cyc l (S k)) in *. unfold edge_matrix, f.
      assert (T1 : cross (smul (/ nrm (cross a b)) (cross b a)) a = smul (/ nrm (cross a b)) (vsub (smul (dot a b) a) b)).
      { unfold unit_vec, dot in Ua. apply v3_ext; unfold cross, smul, vsub, dot; cbn [vx vy vz]; rewrite Rmult_assoc || idtac.
        - transitivity (/ nrm (cross a b) * ((vx a * vx b + vy a * vy b + vz a * vz b) * vx a - (vx a * vx a + vy a * vy a + vz a * vz a) * vx b)); [unfold cross; cbn [vx vy vz]; ring|rewrite Ua; unfold cross; cbn [vx vy vz]; ring].
        - transitivity (/ nrm (cross a b) * ((vx a * vx b + vy a * vy b + vz a * vz b) * vy a - (vx a * vx a + vy a * vy a + vz a * vz a) * vy b)); [unfold cross; cbn [vx vy vz]; ring|rewrite Ua; unfold cross; cbn [vx vy vz]; ring].
        - transitivity (/ nrm (cross a b) * ((vx a * vx b + vy a * vy b + vz a * vz b) * vz a - (vx a * vx a + vy a * vy a + vz a * vz a) * vz b)); [unfold cross; cbn [vx vy vz]; ring|rewrite Ua; unfold cross; cbn [vx vy vz]; ring]. }
      assert (T2 : cross (smul (/ nrm (cross a b)) (cross b a)) b = smul (/ nrm (cross a b)) (vsub a (smul (dot a b) b))).
      { unfold unit_vec, dot in Ub. apply v3_ext; unfold cross, smul, vsub, dot; cbn [vx vy vz].
        - transitivity (/ nrm (cross a b) * ((vx b * vx b + vy b * vy b + vz b * vz b) * vx a - (vx a * vx b + vy a * vy b + vz a * vz b) * vx b)); [unfold cross; cbn [vx vy vz]; ring|rewrite Ub; unfold cross; cbn [vx vy vz]; ring].
        - transitivity (/ nrm (cross a b) * ((vx b * vx b + vy b * vy b + vz b * vz b) * vy a - (vx a * vx b + vy a * vy b + vz a * vz b) * vy b)); [unfold cross; cbn [vx vy vz]; ring|rewrite Ub; unfold cross; cbn [vx vy vz]; ring].
        - transitivity (/ nrm (cross a b) * ((vx b * vx b + vy b * vy b + vz b * vz b) * vz a - (vx a * vx b + vy a * vy b + vz a * vz b) * vz b)); [unfold cross; cbn [vx vy vz]; ring|rewrite Ub; unfold cross; cbn [vx vy vz]; ring]. }
      rewrite T1, T2. unfold Rdiv. set (s := / nrm (cross a b)). clearbody s.
      assert (G : forall w k', comp (smul s w) k' = s * comp w k') by (intros w [|[|k']]; reflexivity).
      assert (G2 : forall w w' k', comp (vsub w w') k' = comp w k' - comp w' k') by (intros w w' [|[|k']]; reflexivity).
      assert (G3 : forall c w k', comp (smul c w) k' = c * comp w k') by (intros c w [|[|k']]; reflexivity).
      rewrite !G, !G2, !G3. ring. }
    rewrite E. assert (Z := PI_RGT_0). destruct (Nat.eqb i j); field; lra.
  Qed.
End Corner.
