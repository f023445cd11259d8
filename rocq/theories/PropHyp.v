(** * C62: free coefficients of the hypersingular equation (hyp_alpha and C_ij). *)
From Coq Require Import Reals List Arith Bool Lia Lra Permutation.
From Verif Require Import LibSum ModelHyp SpecHyp ProofsHyp ProofsHyp2 ProofsHyp3.
Import ListNotations.
Local Open Scope R_scope.

(** the normals used at node i are those of the cells that hold a node of its group *)
Theorem C62_normals_of_a_node M i n : In n (gather M i) <->
  exists c il, (c < h_cells M)%nat /\ (il < length (h_dofs M c))%nat /\ In i (h_double M (nth il (h_dofs M c) 0%nat)) /\ n = h_normal M c il.
Proof.
  unfold gather. rewrite in_flat_map. split.
  - intros (c & Hc & X). apply in_flat_map in X as (il & Hl & X). apply in_flat_map in X as (d & Hd & X). apply in_seq in Hc, Hl. destruct (Nat.eqb_spec d i) as [->|]; [|destruct X]. destruct X as [<-|[]]. exists c, il. repeat split; auto; lia.
  - intros (c & il & Hc & Hl & Hd & ->). exists c. split; [apply in_seq; lia|]. apply in_flat_map. exists il. split; [apply in_seq; lia|]. apply in_flat_map. exists i. split; auto. rewrite Nat.eqb_refl. left. reflexivity.
Qed.
(** coincident nodes get the same coefficients *)
Theorem C62_double_nodes_agree M i i' : (forall d, NoDup (h_double M d)) -> (forall d, In i (h_double M d) <-> In i' (h_double M d)) ->
  hyp_alpha M i = hyp_alpha M i' /\ forall di dj, hyp_C M i di dj = hyp_C M i' di dj.
Proof.
  intros Nd S. assert (G : gather M i = gather M i').
  { unfold gather. apply flat_map_ext. intros c. apply flat_map_ext. intros il. set (d := nth il (h_dofs M c) 0%nat). set (n := h_normal M c il).
    assert (One : forall j l, NoDup l -> flat_map (fun d => if Nat.eqb d j then [n] else []) l = if in_dec Nat.eq_dec j l then [n] else []).
    { clear. intros j l. induction l as [|x l IH]; intros Nd; [reflexivity|]. inversion Nd as [|? ? N1 N2]; subst. cbn [flat_map]. rewrite IH by auto. destruct (Nat.eqb_spec x j) as [->|Ne].
      - destruct (in_dec Nat.eq_dec j l); [contradiction|]. destruct (in_dec Nat.eq_dec j (j :: l)) as [|N]; [reflexivity|]. destruct N. left. auto.
      - cbn [app]. destruct (in_dec Nat.eq_dec j l) as [Y|N]; destruct (in_dec Nat.eq_dec j (x :: l)) as [Y'|N']; auto; [destruct N'; right; auto|]. destruct Y' as [|]; [contradiction|contradiction]. }
    rewrite !One by auto. specialize (S d). destruct (in_dec Nat.eq_dec i (h_double M d)), (in_dec Nat.eq_dec i' (h_double M d)); tauto. }
  unfold hyp_alpha, hyp_C. rewrite G. auto.
Qed.
(** the distinct normals: taken from the cells, pairwise at least 1e-5 apart, and every normal of a cell within 1e-5 of one *)
Theorem C62_distinct_normals l :
  (forall a, In a (unique l) -> In a l) /\
  (forall a, In a l -> exists b, In b (unique l) /\ nrm (vsub a b) < 1 / 100000) /\
  (forall p q d, (p < q < length (unique l))%nat -> 1 / 100000 <= nrm (vsub (nth q (unique l) d) (nth p (unique l) d))).
Proof.
  destruct (unique_inv l [] ltac:(auto)) as (v & E & A & B & C). cbn [app] in *. fold (unique l) in E. rewrite E. split; [exact A|]. split.
  - intros a Ha. destruct (B a Ha) as (b & Hb & [->|R]); exists b; split; auto; [replace (vsub b b) with v0 by (apply v3_ext; unfold vsub; cbn; ring); rewrite nrm_v0; lra|]. unfold near in R. destruct (Rlt_dec _ _); [auto|discriminate].
  - intros p q d Hpq. specialize (C ltac:(constructor)). clear - C Hpq. revert p q Hpq. induction C as [|x v F C IH]; intros p q Hpq; [cbn in Hpq; lia|]. destruct q as [|q]; [lia|]. destruct p as [|p].
    + cbn [nth]. rewrite Forall_forall in F. cbn [length] in Hpq. assert (Nf := F (nth q v d) ltac:(apply nth_In; lia)). unfold near in Nf. destruct (Rlt_dec _ _); [discriminate|lra].
    + cbn [nth]. apply IH. cbn [length] in Hpq. lia.
Qed.
(** smooth node: all normals within 1e-5 of the first *)
Theorem C62_smooth_node M i n l : gather M i = n :: l -> (forall a, In a l -> nrm (vsub a n) < 1 / 100000) ->
  hyp_alpha M i = Some (Some (1 / 2)) /\ forall di dj, hyp_C M i di dj = Some (Some (if Nat.eqb di dj then 1 / 2 else 0)).
Proof.
  intros G A. assert (U : unique (gather M i) = [n]) by (rewrite G; apply unique_all_near; intros a Ha; unfold near; destruct (Rlt_dec _ _) as [|N]; auto; destruct (N (A a Ha))).
  assert (Al : geom_alpha [n] = Some (1 / 2)) by (unfold geom_alpha; cbn; f_equal; assert (Z := PI_RGT_0); field; lra).
  unfold hyp_alpha, hyp_C. rewrite U. cbn [ordered length order map option_map]. split; [rewrite Al; reflexivity|]. intros di dj. unfold C_entry. rewrite Al. cbn [length Nat.ltb Nat.leb]. destruct (Nat.eqb di dj); do 2 f_equal; lra.
Qed.
(** the reordering loses and invents nothing, and starts from the first normal *)
Theorem C62_ordering_is_a_permutation u : u <> [] -> exists l, ordered u = Some l /\ Permutation l u /\ hd (V 0 0 0) l = hd (V 0 0 0) u.
Proof. exact (ordered_perm u). Qed.
(** it is counterclockwise around the average normal, whatever the order in which the normals were found *)
Theorem C62_ordered_counterclockwise l avg : average l = Some avg -> (forall u, In u l -> projected (Some avg) u <> None) -> NoDup (map (projected (Some avg)) l) ->
  (exists a b, In a l /\ In b l /\ dot avg (cross a b) <> 0) ->
  exists e1 e2 L, frame e1 e2 avg /\ counterclockwise e1 e2 avg L /\ Permutation (map fst L) l /\
    forall us, Permutation us l -> exists A B, map fst L = A ++ B /\ ordered us = Some (B ++ A).
Proof.
  intros Av Nn Nd Tr. destruct (ccw_exists l avg Av Nn Nd Tr) as (e1 & e2 & L & Fr & Cc & P). exists e1, e2, L. repeat split; auto; try apply Fr; try apply Cc.
  intros us Pu. destruct (ccw_ordered e1 e2 avg L us Fr Cc) as (A & B & E & _ & O); [rewrite (average_perm us l Pu); exact Av|eapply Permutation_trans; [exact Pu|apply Permutation_sym, P]|]. exists A, B. auto.
Qed.

(** values: angles and edge matrices of the consecutive pairs of normals *)
Theorem C62_alpha_of_a_corner l : (2 <= length l)%nat -> (forall a, In a l -> unit_vec a) -> geom_alpha l = Some (corner_alpha l).
Proof. intros N U. exact (alpha_formula l U N). Qed.
Theorem C62_C_of_a_corner l : (2 <= length l)%nat -> (forall a, In a l -> unit_vec a) -> (forall e, In e (edges l) -> skew e) ->
  forall i j, C_entry l i j = Some (corner_C l i j).
Proof. intros N U K i j. exact (C_formula l U N K i j). Qed.
Theorem C62_C_is_symmetric l i j : corner_C l i j = corner_C l j i.
Proof.
  unfold corner_C. rewrite (Nat.eqb_sym j i). f_equal. f_equal. apply suml_ext. intros (a & b) _. unfold edge_matrix. f_equal. ring.
Qed.
Theorem C62_trace_of_C l : (forall a, In a l -> unit_vec a) -> corner_C l 0 0 + corner_C l 1 1 + corner_C l 2 2 = 3 * corner_alpha l.
Proof.
  intros U. unfold corner_C. cbn [Nat.eqb]. assert (Z : suml (edges l) (edge_matrix 0 0) + suml (edges l) (edge_matrix 1 1) + suml (edges l) (edge_matrix 2 2) = 0).
  { rewrite <- !suml_plus. apply suml_zero. intros (a & b) Hab. unfold edge_matrix, comp.
    assert (Ue : unit_vec a /\ unit_vec b).
    { assert (P : forall m, In (a, b) (pairs m) -> In a m /\ In b m). { induction m as [|x [|y m] IH]; intros Hin; [destruct Hin|destruct Hin|]. destruct Hin as [E|Hin]; [inversion E; subst; split; [left|right; left]; auto|]. destruct (IH Hin). split; right; auto. }
      destruct l as [|x l']; [destruct Hab|]. cbn [edges] in Hab. apply P in Hab as (Ia & Ib). change (x :: l' ++ [x]) with ((x :: l') ++ [x]) in *. apply in_app_or in Ia. apply in_app_or in Ib. split; apply U; [destruct Ia as [|[<-|[]]]|destruct Ib as [|[<-|[]]]]; auto; left; auto. }
    destruct Ue as (Ua & Ub). unfold unit_vec in *.
    transitivity ((dot a b * (dot a a + dot b b) - 2 * dot a b) / nrm (cross a b)); [unfold dot, Rdiv; ring|]. rewrite Ua, Ub. unfold Rdiv. ring. }
  assert (Pz := PI_RGT_0). transitivity (3 * corner_alpha l - (suml (edges l) (edge_matrix 0 0) + suml (edges l) (edge_matrix 1 1) + suml (edges l) (edge_matrix 2 2)) / (4 * PI)); [field; lra|rewrite Z; field; lra].
Qed.
(** hence the coefficients do not depend on the order in which the cells are visited *)
Theorem C62_order_independent l avg : (forall a, In a l -> unit_vec a) -> NoDup l -> (forall a b, In a l -> In b l -> a <> b -> cross a b <> V 0 0 0) ->
  average l = Some avg -> (forall u, In u l -> projected (Some avg) u <> None) -> NoDup (map (projected (Some avg)) l) ->
  (exists a b, In a l /\ In b l /\ dot avg (cross a b) <> 0) ->
  exists alpha C, forall us, Permutation us l -> exists o, ordered us = Some o /\ geom_alpha o = Some alpha /\ forall i j, C_entry o i j = Some (C i j).
Proof.
  intros U Ndl Sk Av Nn Nd Tr. destruct (C62_ordered_counterclockwise l avg Av Nn Nd Tr) as (e1 & e2 & L & _ & _ & P & O).
  set (l0 := map fst L) in *. exists (corner_alpha l0), (corner_C l0). intros us Pu. destruct (O us Pu) as (A & B & E & Eo). exists (B ++ A). split; auto.
  assert (PB : Permutation (B ++ A) l) by (eapply Permutation_trans; [apply Permutation_app_comm|]; rewrite <- E; exact P).
  assert (N2 : (2 <= length (B ++ A))%nat).
  { rewrite (Permutation_length PB). destruct Tr as (a & b & Ha & Hb & Nt). destruct l as [|x [|y l']]; [destruct Ha| |cbn; lia]. exfalso. destruct Ha as [<-|[]]. destruct Hb as [<-|[]]. apply Nt. unfold dot, cross. cbn. ring. }
  assert (UB : forall a, In a (B ++ A) -> unit_vec a) by (intros a Ha; apply U, (Permutation_in _ PB Ha)).
  assert (NB : NoDup (B ++ A)) by (apply (Permutation_NoDup (Permutation_sym PB) Ndl)).
  assert (KB : forall e, In e (edges (B ++ A)) -> skew e).
  { intros (a & b) He. unfold skew. cbn [fst snd]. revert He N2 NB PB. generalize (B ++ A). clear - Sk. intros m He N2 NB PB.
    assert (Pm : forall m, NoDup m -> In (a, b) (pairs m) -> In a m /\ In b m /\ a <> b).
    { induction m0 as [|x [|y m0] IH]; intros Nm Hin; [destruct Hin|destruct Hin|]. inversion Nm as [|? ? N1 N3]; subst. destruct Hin as [E|Hin]; [inversion E; subst; split; [left; auto|split; [right; left; auto|]]; intros ->; apply N1; left; auto|]. destruct (IH N3 Hin) as (I1 & I2 & I3). split; [right; auto|split; [right; auto|auto]]. }
    assert (Q : In a m /\ In b m /\ a <> b).
    { destruct m as [|x m']; [cbn in N2; lia|]. cbn [edges] in He.
      assert (Pa : forall m y z, In (a, b) (pairs (y :: m ++ [z])) -> In (a, b) (pairs (y :: m)) \/ (a = last m y /\ b = z)).
      { clear. induction m as [|w m IH]; intros y z Hin; cbn [app] in Hin; [cbn in Hin; destruct Hin as [E|[]]; inversion E; right; auto|]. destruct Hin as [E|Hin]; [left; left; auto|]. destruct (IH w z Hin) as [I|(I1 & I2)]; [left; right; auto|]. right. rewrite last_cons. auto. }
      destruct (Pa m' x x He) as [I|(Ea & Eb)]; [apply Pm; auto|]. subst a b. assert (La := last_in m' x). split; auto. split; [left; auto|]. intros Ex. destruct m' as [|w m']; [cbn in N2; lia|]. rewrite last_cons in Ex. assert (Lw := last_in m' w). rewrite Ex in Lw. inversion NB; contradiction. }
    destruct Q as (Ia & Ib & Iab). apply Sk; auto; apply (Permutation_in _ PB); auto. }
  assert (Rot : forall F, suml (edges (B ++ A)) F = suml (edges l0) F) by (intros F; rewrite E; apply edges_rot).
  split.
  - rewrite (alpha_formula _ UB N2). f_equal. unfold corner_alpha. rewrite Rot. reflexivity.
  - intros i j. rewrite (C_formula _ UB N2 KB). f_equal. unfold corner_C, corner_alpha. rewrite !Rot. reflexivity.
Qed.

(** straight edge between two faces: same values from both orders *)
Definition edge_alpha (a b : v3) : R := (PI - acos (dot a b)) / (2 * PI).
Definition edge_C (a b : v3) (i j : nat) : R := (if Nat.eqb i j then edge_alpha a b else 0) - edge_matrix i j (a, b) / (2 * PI).
Theorem C62_edge M i a b : unit_vec a -> unit_vec b -> cross a b <> V 0 0 0 ->
  unique (gather M i) = [a; b] \/ unique (gather M i) = [b; a] ->
  hyp_alpha M i = Some (Some (edge_alpha a b)) /\ forall di dj, hyp_C M i di dj = Some (Some (edge_C a b di dj)).
Proof.
  intros Ua Ub K G. assert (Pz := PI_RGT_0).
  assert (W : forall x y, unit_vec x -> unit_vec y -> cross x y <> V 0 0 0 -> option_map geom_alpha (ordered [x; y]) = Some (Some (edge_alpha x y)) /\ forall di dj, option_map (fun l => C_entry l di dj) (ordered [x; y]) = Some (Some (edge_C x y di dj))).
  { intros x y Ux Uy Kx. assert (O : ordered [x; y] = Some [x; y]).
    { destruct (ordered_perm [x; y] ltac:(discriminate)) as (l & E & P & Hh). rewrite E. f_equal. destruct l as [|x' l]; [apply Permutation_nil in P; discriminate|]. cbn in Hh. subst x'. apply Permutation_cons_inv in P. f_equal. apply Permutation_length_1_inv, Permutation_sym, P. }
    rewrite O. cbn [option_map].
    assert (Us : forall z, In z [x; y] -> unit_vec z) by (intros z [<-|[<-|[]]]; auto).
    assert (Ks : forall e, In e (edges [x; y]) -> skew e). { intros e [<-|[<-|[]]]; unfold skew; cbn [fst snd]; auto. intros Z. apply Kx. apply nrm_zero. rewrite nrm_neg, Z. apply nrm_v0. }
    assert (Sa : corner_alpha [x; y] = edge_alpha x y). { unfold corner_alpha, edge_alpha, suml. cbn. unfold edge_angle. cbn. rewrite (dot_sym y x). field. lra. }
    split; [rewrite (alpha_formula [x; y] Us ltac:(cbn; lia)), Sa; reflexivity|]. intros di dj. rewrite (C_formula [x; y] Us ltac:(cbn; lia) Ks). f_equal. f_equal. unfold corner_C, edge_C. rewrite Sa. f_equal.
    unfold suml. cbn [edges app pairs fold_right]. replace (edge_matrix di dj (y, x)) with (edge_matrix di dj (x, y)); [field; lra|]. unfold edge_matrix. rewrite (nrm_neg y x), (dot_sym y x). f_equal. ring. }
  unfold hyp_alpha, hyp_C. destruct G as [-> | ->]; [apply W; auto|].
  assert (Kb : cross b a <> V 0 0 0) by (intros Z; apply K; apply nrm_zero; rewrite nrm_neg, Z; apply nrm_v0). destruct (W b a Ub Ua Kb) as (W1 & W2).
  assert (Ea : edge_alpha b a = edge_alpha a b) by (unfold edge_alpha; rewrite (dot_sym b a); reflexivity). split; [rewrite W1, Ea; reflexivity|]. intros di dj. rewrite W2. f_equal. f_equal. unfold edge_C. rewrite Ea. f_equal. f_equal.
  unfold edge_matrix. rewrite (nrm_neg b a), (dot_sym b a). f_equal. ring.
Qed.
(** C is invertible on every edge: x . C x > 0 *)
Theorem C62_edge_C_positive_definite a b x : unit_vec a -> unit_vec b -> cross a b <> V 0 0 0 -> x <> V 0 0 0 ->
  0 < suml (seq 0 3) (fun i => suml (seq 0 3) (fun j => comp x i * edge_C a b i j * comp x j)).
Proof.
  intros Ua Ub K Nx. assert (Pz := PI_RGT_0). unfold unit_vec in *.
  set (s := nrm (cross a b)). assert (S2 : s * s = 1 - dot a b * dot a b) by (unfold s; rewrite nrm_sq, lagrange, Ua, Ub; ring).
  assert (Sp : 0 < s). { assert (Q := sqrt_pos (dot (cross a b) (cross a b))). fold (nrm (cross a b)) in Q. fold s in Q. destruct (Req_dec s 0) as [Z|]; [destruct (K (nrm_zero _ Z))|lra]. }
  set (c := dot a b) in *. set (th := acos c).
  assert (Bc : -1 <= c <= 1) by (apply (unit_dot_bound a b); auto). assert (Bt := acos_bound c). fold th in Bt. assert (Ct : cos th = c) by (apply cos_acos; auto).
  assert (St : sin th = s). { unfold th. rewrite sin_acos by auto. apply Rsqr_inj; [apply sqrt_pos|lra|]. rewrite Rsqr_sqrt; unfold Rsqr; [lra|]. assert (Q := Rle_0_sqr s). unfold Rsqr in Q. lra. }
  assert (Tl : th < PI). { destruct (Req_dec th PI) as [E|]; [rewrite E, sin_PI in St; lra|lra]. }
  assert (Lt : sin (PI - th) < PI - th) by (apply sin_lt_x; lra). rewrite sin_PI_x, St in Lt.
  set (al := edge_alpha a b). assert (Ale : al = (PI - th) / (2 * PI)) by reflexivity.
  (* the three components of x along a+b, a-b, a x b *)
  set (p := dot a x). set (q := dot b x).
  assert (Q : suml (seq 0 3) (fun i => suml (seq 0 3) (fun j => comp x i * edge_C a b i j * comp x j)) = al * dot x x - (c * (p * p + q * q) - 2 * (p * q)) / s / (2 * PI)).
  { unfold suml, edge_C, edge_matrix. cbn [seq fold_right Nat.eqb comp]. fold al s c. unfold p, q, dot. field. split; lra. }
  rewrite Q.
  (* decomposition of |x|^2 *)
  set (w := dot (cross a b) x).
  assert (D : s * s * dot x x = p * p + q * q - 2 * c * p * q + w * w).
  { (* Gram determinant of a, b, x *)
    assert (Gram : w * w = dot a a * dot b b * dot x x + 2 * (dot a b * dot b x * dot a x) - dot a a * (dot b x * dot b x) - dot b b * (dot a x * dot a x) - dot x x * (dot a b * dot a b)) by (unfold w, dot, cross; cbn; ring).
    rewrite Ua, Ub in Gram. fold c p q in Gram. rewrite S2, Gram. ring. }
  assert (Pos : 0 < al - s / (2 * PI)). { rewrite Ale. replace ((PI - th) / (2 * PI) - s / (2 * PI)) with ((PI - th - s) * / (2 * PI)) by (field; lra). apply Rmult_lt_0_compat; [lra|]. apply Rinv_0_lt_compat. lra. }
  assert (Xp : 0 < dot x x). { assert (P := dot_nonneg x). destruct (Req_dec (dot x x) 0) as [Z|]; [|lra]. exfalso. apply Nx, nrm_zero. unfold nrm. rewrite Z. apply sqrt_0. }
  (* c (p^2+q^2) - 2pq <= s^2 |x|^2 *)
  assert (Bd : c * (p * p + q * q) - 2 * (p * q) <= s * s * dot x x).
  { rewrite D. assert (W2 := Rle_0_sqr w). unfold Rsqr in W2. assert (E : 0 <= (1 - c) * ((p + q) * (p + q))) by (apply Rmult_le_pos; [lra|apply Rle_0_sqr]).
    replace ((1 - c) * ((p + q) * (p + q))) with (p * p + q * q - 2 * c * p * q - (c * (p * p + q * q) - 2 * (p * q))) in E by ring. lra. }
  assert (F : (c * (p * p + q * q) - 2 * (p * q)) / s / (2 * PI) <= s / (2 * PI) * dot x x).
  { replace (s / (2 * PI) * dot x x) with (s * s * dot x x / s / (2 * PI)) by (field; lra). unfold Rdiv. apply Rmult_le_compat_r; [left; apply Rinv_0_lt_compat; lra|]. apply Rmult_le_compat_r; [left; apply Rinv_0_lt_compat; lra|exact Bd]. }
  assert (0 < (al - s / (2 * PI)) * dot x x) by (apply Rmult_lt_0_compat; auto). lra.
Qed.
(** two faces back to back: the angle is 0 and C is undefined *)
Theorem C62_opposite_faces a : unit_vec a -> geom_alpha [a; smul (-1) a] = Some 0 /\ forall i j, C_entry [a; smul (-1) a] i j = None.
Proof.
  intros Ua. assert (Un : unit_vec (smul (-1) a)) by (unfold unit_vec in *; rewrite <- Ua; unfold dot, smul; cbn; ring). assert (Pz := PI_RGT_0).
  assert (Us : forall z, In z [a; smul (-1) a] -> unit_vec z) by (intros z [<-|[<-|[]]]; auto).
  assert (Al : geom_alpha [a; smul (-1) a] = Some 0).
  { rewrite (alpha_formula _ Us ltac:(cbn; lia)). f_equal. unfold corner_alpha, suml. cbn. unfold edge_angle. cbn [fst snd]. unfold unit_vec in Ua.
    replace (dot a (smul (-1) a)) with (-1) by (transitivity (- dot a a); [rewrite Ua; ring|unfold dot, smul; cbn; ring]). replace (dot (smul (-1) a) a) with (-1) by (transitivity (- dot a a); [rewrite Ua; ring|unfold dot, smul; cbn; ring]).
    assert (A1 : acos (-1) = PI) by (replace (-1) with (Ropp 1) by ring; rewrite acos_opp, acos_1; ring). rewrite A1. field. lra. }
  split; auto. intros i j. unfold C_entry. rewrite Al. cbn [length Nat.ltb Nat.leb seq fold_left].
  assert (T : tangent [a; smul (-1) a] (0 + 1) = None). { unfold tangent. cbn. replace (cross (smul (-1) a) a) with v0 by (apply v3_ext; unfold cross, smul; cbn; ring). apply normalize_none. }
  rewrite T. reflexivity.
Qed.
(** finding: never above 1/2, so a re-entrant edge or corner (interior angle above a half space) gets the value of a convex one *)
Theorem C62_reentrant_refuted M i x : (forall c il, unit_vec (h_normal M c il)) -> hyp_alpha M i = Some (Some x) -> x <= 1 / 2.
Proof.
  intros U E. unfold hyp_alpha in E. destruct (unique (gather M i)) as [|n0 u] eqn:G; [discriminate|].
  destruct (ordered_perm (n0 :: u) ltac:(discriminate)) as (l & Eo & P & _). rewrite Eo in E. cbn [option_map] in E. assert (Pz := PI_RGT_0).
  assert (Us : forall z, In z l -> unit_vec z).
  { intros z Hz. apply (Permutation_in _ P) in Hz. rewrite <- G in Hz. apply (proj1 (C62_distinct_normals (gather M i))) in Hz. apply C62_normals_of_a_node in Hz as (c & il & _ & _ & _ & ->). apply U. }
  destruct l as [|a [|b l]]; [apply Permutation_nil in P; discriminate| |].
  - unfold geom_alpha in E. cbn in E. injection E as E. rewrite <- E. right. field. lra.
  - rewrite (alpha_formula _ Us ltac:(cbn; lia)) in E. injection E as E. rewrite <- E. unfold corner_alpha.
    assert (S : forall m : list (v3 * v3), 0 <= suml m edge_angle). { induction m as [|e m IH]; [unfold suml; cbn; lra|]. change (suml (e :: m) edge_angle) with (edge_angle e + suml m edge_angle). unfold edge_angle at 1. assert (B := acos_bound (dot (fst e) (snd e))). lra. }
    specialize (S (edges (a :: b :: l))). assert (0 <= suml (edges (a :: b :: l)) edge_angle / (4 * PI)); [|lra]. unfold Rdiv. apply Rmult_le_pos; auto. left. apply Rinv_0_lt_compat. lra.
Qed.
(** three mutually orthogonal faces (box corner): one eighth, in every order and for every orientation *)
Theorem C62_box_corner M i a b c : unit_vec a -> unit_vec b -> unit_vec c -> dot a b = 0 -> dot b c = 0 -> dot a c = 0 ->
  Permutation (unique (gather M i)) [a; b; c] -> hyp_alpha M i = Some (Some (1 / 8)).
Proof.
  intros Ua Ub Uc Ab Bc Ac P. unfold hyp_alpha. assert (Ne : unique (gather M i) <> []) by (intros E; rewrite E in P; apply Permutation_nil in P; discriminate).
  destruct (ordered_perm _ Ne) as (l & Eo & Pl & _). rewrite Eo. cbn [option_map]. f_equal. assert (Q : Permutation l [a; b; c]) by (eapply Permutation_trans; eauto).
  assert (Pz := PI_RGT_0). assert (L := Permutation_length Q). destruct l as [|x [|y [|z [|w l]]]]; try discriminate. clear L.
  assert (Us : forall v, In v [x; y; z] -> unit_vec v) by (intros v Hv; apply (Permutation_in _ Q) in Hv; destruct Hv as [<-|[<-|[<-|[]]]]; auto).
  rewrite (alpha_formula _ Us ltac:(cbn; lia)). f_equal.
  assert (Nd : NoDup [a; b; c]).
  { assert (Ne2 : forall u v, unit_vec u -> dot u v = 0 -> u <> v) by (intros u v Uu D <-; unfold unit_vec in Uu; lra). repeat constructor; cbn; intros F; repeat destruct F as [F|F]; try (symmetry in F; revert F; apply Ne2; auto; fail); auto; exact F. }
  assert (Nx : NoDup [x; y; z]) by (apply (Permutation_NoDup (Permutation_sym Q) Nd)).
  assert (O : forall u v, In u [x; y; z] -> In v [x; y; z] -> u <> v -> dot u v = 0).
  { intros u v Hu Hv Nv. apply (Permutation_in _ Q) in Hu, Hv. destruct Hu as [<-|[<-|[<-|[]]]], Hv as [<-|[<-|[<-|[]]]]; auto; try congruence; rewrite dot_sym; auto. }
  inversion Nx as [|? ? N1 N2]; subst. inversion N2 as [|? ? N3 N4]; subst. cbn in N1, N3.
  unfold corner_alpha, suml. cbn. unfold edge_angle. cbn [fst snd].
  rewrite (O x y), (O y z), (O z x); try (cbn; tauto); try (intros Q'; subst; tauto). rewrite acos_0. field. lra.
Qed.
(** in two dimensions the correction of C is multiplied by the integer quotient 1 / 2 = 0: C is alpha I whatever the corner *)
Theorem C62_two_dimensional_C_refuted alpha tn i j : C_entry_2d alpha tn i j = if Nat.eqb i j then alpha else 0.
Proof.
  unfold C_entry_2d. replace (INR (1 / 2)) with 0 by reflexivity. assert (G : forall c, fold_left (fun c x => c - 0 / PI * ((match i with 0%nat => fst (fst x) | S _ => snd (fst x) end) * (match j with 0%nat => fst (snd x) | S _ => snd (snd x) end))) tn c = c).
  { induction tn as [|x tn IH]; intros c; cbn [fold_left]; auto. rewrite IH. unfold Rdiv. ring. }
  etransitivity; [apply G|]. destruct (Nat.eqb i j); ring.
Qed.

(** non-vacuity: node where three cells of a box meet *)
Definition ex_hmesh : hmesh := {|
  h_cells := 3; h_dofs := fun c => [c; (3 + c)%nat]; h_normal := fun c _ => match c with O => V 1 0 0 | 1%nat => V 0 1 0 | _ => V 0 0 1 end;
  h_double := fun d => if Nat.ltb d 3 then [0; 1; 2]%nat else [d]; h_b := fun _ _ => V 1 2 3 |}.
Lemma ex_norm_ge v : 1 <= dot v v -> 1 / 100000 <= nrm v.
Proof. intros D. unfold nrm. rewrite <- (sqrt_square (1 / 100000)) by lra. apply sqrt_le_1_alt. lra. Qed.
Example C62_nonvacuous : gather ex_hmesh 0 = [V 1 0 0; V 0 1 0; V 0 0 1] /\ hyp_alpha ex_hmesh 1 = Some (Some (1 / 8)) /\ hyp_alpha ex_hmesh 4 = Some (Some (1 / 2)).
Proof.
  split; [reflexivity|]. split.
  - apply (C62_box_corner ex_hmesh 1 (V 1 0 0) (V 0 1 0) (V 0 0 1)); try (unfold unit_vec, dot; cbn; ring).
    replace (gather ex_hmesh 1) with [V 1 0 0; V 0 1 0; V 0 0 1] by reflexivity. rewrite unique_distinct; [apply Permutation_refl|].
    assert (F : forall a b, 1 <= dot (vsub a b) (vsub a b) -> near a b = false) by (intros a b D; unfold near; destruct (Rlt_dec _ _) as [L|]; auto; assert (Q := ex_norm_ge _ D); lra).
    repeat constructor; apply F; unfold dot, vsub; cbn; lra.
  - apply (C62_smooth_node ex_hmesh 4 (V 0 1 0) []); [reflexivity|intros ? []].
Qed.
(** the ordering theorem applies to the box corner *)
Example C62_order_nonvacuous : exists avg, let l := [V 1 0 0; V 0 1 0; V 0 0 1] in average l = Some avg /\ (forall u, In u l -> projected (Some avg) u <> None) /\
  NoDup (map (projected (Some avg)) l) /\ (exists a b, In a l /\ In b l /\ dot avg (cross a b) <> 0) /\ (forall a b, In a l -> In b l -> a <> b -> cross a b <> V 0 0 0).
Proof.
  set (r := sqrt (1 / 3)). assert (R2 : r * r = 1 / 3) by (apply sqrt_sqrt; lra). assert (Rp : 0 < r) by (apply sqrt_lt_R0; lra).
  assert (Av : average [V 1 0 0; V 0 1 0; V 0 0 1] = Some (V r r r)).
  { unfold average. rewrite vsum_fold. assert (E : vadd v0 (V (suml [V 1 0 0; V 0 1 0; V 0 0 1] (fun n => 1 / INR (length [V 1 0 0; V 0 1 0; V 0 0 1]) * vx n)) (suml [V 1 0 0; V 0 1 0; V 0 0 1] (fun n => 1 / INR (length [V 1 0 0; V 0 1 0; V 0 0 1]) * vy n)) (suml [V 1 0 0; V 0 1 0; V 0 0 1] (fun n => 1 / INR (length [V 1 0 0; V 0 1 0; V 0 0 1]) * vz n))) = V (1/3) (1/3) (1/3)).
    { apply v3_ext; unfold vadd, suml; cbn; field. }
    rewrite E. assert (Nr : nrm (V (1/3) (1/3) (1/3)) = r). { unfold nrm, r. f_equal. unfold dot. cbn. field. }
    unfold normalize. rewrite Nr. destruct (Req_EM_T r 0); [lra|]. f_equal. apply v3_ext; cbn; (apply (Rmult_eq_reg_l r); [|lra]; rewrite R2; field; lra). }
  exists (V r r r). cbv zeta. split; auto.
  assert (Pj : forall u, In u [V 1 0 0; V 0 1 0; V 0 0 1] -> project (V r r r) u = V (vx u - 1/3) (vy u - 1/3) (vz u - 1/3)).
  { intros u Hu. destruct Hu as [<-|[<-|[<-|[]]]]; apply v3_ext; unfold project, vsub, smul, dot; cbn; lra. }
  assert (Nz : forall u, In u [V 1 0 0; V 0 1 0; V 0 0 1] -> project (V r r r) u <> v0) by (intros u Hu; rewrite (Pj u Hu); destruct Hu as [<-|[<-|[<-|[]]]]; cbn; intros Z; inversion Z; lra).
  split; [|split; [|split]].
  - intros u Hu. cbn [projected]. rewrite (normalize_some _ (Nz u Hu)). discriminate.
  - cbn [map projected]. assert (D : forall u v, In u [V 1 0 0; V 0 1 0; V 0 0 1] -> In v [V 1 0 0; V 0 1 0; V 0 0 1] -> u <> v -> normalize (project (V r r r) u) <> normalize (project (V r r r) v)).
    { intros u v Hu Hv Nuv E. rewrite (normalize_some _ (Nz u Hu)), (normalize_some _ (Nz v Hv)) in E.
      assert (E' : smul (/ nrm (project (V r r r) u)) (project (V r r r) u) = smul (/ nrm (project (V r r r) v)) (project (V r r r) v)) by congruence. clear E.
      assert (Nq : forall w, In w [V 1 0 0; V 0 1 0; V 0 0 1] -> nrm (project (V r r r) w) = sqrt (2/3)). { intros w Hw. rewrite (Pj w Hw). unfold nrm. f_equal. destruct Hw as [<-|[<-|[<-|[]]]]; unfold dot; cbn; field. }
      rewrite (Nq u Hu), (Nq v Hv), (Pj u Hu), (Pj v Hv) in E'. assert (E1 := f_equal vx E'). assert (E2 := f_equal vy E'). assert (E3 := f_equal vz E'). cbn [vx vy vz smul] in E1, E2, E3. assert (Sp : 0 < / sqrt (2/3)) by (apply Rinv_0_lt_compat, sqrt_lt_R0; lra). apply Rmult_eq_reg_l in E1; [|lra]. apply Rmult_eq_reg_l in E2; [|lra]. apply Rmult_eq_reg_l in E3; [|lra].
      apply Nuv. apply v3_ext; lra. }
    assert (N01 : V 1 0 0 <> V 0 1 0) by (intros Z; inversion Z; lra). assert (N02 : V 1 0 0 <> V 0 0 1) by (intros Z; inversion Z; lra). assert (N12 : V 0 1 0 <> V 0 0 1) by (intros Z; inversion Z; lra).
    constructor; [|constructor; [|constructor; [intros []|constructor]]].
    + intros [Z|[Z|[]]]; symmetry in Z; revert Z; apply D; cbn; auto.
    + intros [Z|[]]. symmetry in Z. revert Z. apply D; cbn; auto.
  - exists (V 1 0 0), (V 0 1 0). split; [cbn; auto|]. split; [cbn; auto|]. unfold dot, cross. cbn. lra.
  - intros a b Ha Hb Nab Z. destruct Ha as [<-|[<-|[<-|[]]]], Hb as [<-|[<-|[<-|[]]]]; try congruence; unfold cross in Z; cbn in Z; inversion Z; lra.
Qed.
