(** * The normals of a corner have one counterclockwise order, which the search finds from every starting point. *)
From Coq Require Import Reals List Arith Bool Lia Lra Permutation Sorted.
From Verif Require Import LibSum ModelHyp SpecHyp ProofsHyp ProofsHyp2.
Import ListNotations.
Local Open Scope R_scope.

Definition turn (x : v3 * R) : v3 * R := (fst x, snd x + 2 * PI).
Lemma last_indep {A} (l : list A) d d' : l <> [] -> last l d = last l d'.
Proof. induction l as [|x l IH]; intros N; [congruence|]. destruct l as [|y l]; [reflexivity|]. apply IH. discriminate. Qed.
Lemma last_cons {A} (x : A) l d : last (x :: l) d = last l x.
Proof. destruct l as [|y l]; [reflexivity|]. change (last (x :: y :: l) d) with (last (y :: l) d). apply last_indep. discriminate. Qed.
Lemma last_in {A} (l : list A) d : In (last l d) (d :: l).
Proof. revert d. induction l as [|x l IH]; intros d; [left; auto|]. rewrite last_cons. right. apply IH. Qed.
Lemma last_app_cons {A} (l m : list A) x d : last (l ++ x :: m) d = last m x.
Proof. revert d. induction l as [|y l IH]; intros d; [apply last_cons|]. cbn [app]. rewrite last_cons. apply IH. Qed.
Lemma steps_app t S T : steps t (S ++ T) <-> steps t S /\ steps (last (map snd S) t) T.
Proof. revert t. induction S as [|x S IH]; intros t; cbn [app steps map]; [cbn; tauto|]. rewrite IH, last_cons. tauto. Qed.
Lemma last_map_snd (S : list (v3 * R)) x : last (map snd S) (snd x) = snd (last S x).
Proof. induction S as [|y S IH]; auto. destruct S; auto. Qed.
Lemma steps_turn t S : steps t S -> steps (t + 2 * PI) (map turn S).
Proof. revert t. induction S as [|x S IH]; intros t H1; cbn; auto. destruct H1 as (H1 & H2). split; [lra|]. apply (IH _ H2). Qed.
Lemma turn_az e1 e2 e3 x : azimuth e1 e2 e3 (fst x) (snd x) -> azimuth e1 e2 e3 (fst (turn x)) (snd (turn x)).
Proof. intros (r & P & E). exists r. split; auto. cbn. rewrite dir_period. exact E. Qed.
Lemma steps_le_last t S x : steps t S -> In x S -> snd x <= last (map snd S) t.
Proof.
  revert t x. induction S as [|y S IH]; intros t x H1 Hx; [destruct Hx|]. destruct H1 as (H1 & H2).
  assert (E : last (map snd (y :: S)) t = last (map snd S) (snd y)).
  { cbn [map]. apply last_cons. }
  rewrite E. destruct Hx as [<-|Hx]; [|apply IH; auto]. destruct S as [|z S]; [cbn; lra|].
  assert (L := IH _ z H2 (or_introl eq_refl)). destruct H2 as (H2 & _). lra.
Qed.

Lemma ccw_ordered e1 e2 e3 L us : frame e1 e2 e3 -> counterclockwise e1 e2 e3 L -> average us = Some e3 -> Permutation us (map fst L) ->
  exists A B, map fst L = A ++ B /\ B <> [] /\ ordered us = Some (B ++ A).
Proof.
  intros Fr (Az & Cc) Av P. destruct us as [|u0 rest]; [destruct L; [destruct Cc|apply Permutation_nil in P; discriminate]|].
  assert (Hin : In u0 (map fst L)) by (apply (Permutation_in _ P); left; auto). apply in_map_iff in Hin as (x & Ex & Hx). apply in_split in Hx as (L1 & L2 & EL).
  exists (map fst L1), (map fst (x :: L2)). split; [rewrite EL, map_app; reflexivity|]. split; [discriminate|].
  set (S := L2 ++ map turn L1).
  assert (St : steps (snd x) S /\ forall z, In z S -> snd z - snd x < 2 * PI).
  { rewrite EL in Cc. destruct L1 as [|f L1].
    - cbn [app] in Cc. destruct Cc as (C1 & C2). unfold S. cbn [map]. rewrite app_nil_r. split; auto. intros z Hz. assert (M := steps_le_last _ _ z C1 Hz). rewrite last_map_snd in M. lra.
    - cbn [app] in Cc. destruct Cc as (C1 & C2). apply steps_app in C1 as (C1 & C3). cbn [steps] in C3. destruct C3 as (C3 & C4).
      assert (El : snd (last (L1 ++ x :: L2) f) = last (map snd L2) (snd x)).
      { rewrite last_app_cons, last_map_snd. reflexivity. }
      rewrite El in C2. split.
      + unfold S. apply steps_app. split; auto. cbn [map steps]. split; [cbn; lra|]. exact (steps_turn _ _ C1).
      + intros z Hz. unfold S in Hz. apply in_app_or in Hz as [Hz|Hz].
        * assert (M := steps_le_last _ _ z C4 Hz). assert (M2 : snd f <= last (map snd L1) (snd f)).
          { destruct L1 as [|y L1]; [cbn; lra|]. assert (Q := steps_le_last _ _ y C1 (or_introl eq_refl)). destruct C1 as (C1 & _). lra. }
          lra.
        * apply in_map_iff in Hz as (w & <- & Hw). unfold turn. cbn [snd]. assert (Lw : snd w < snd x); [|lra]. destruct Hw as [<-|Hw].
          -- destruct L1 as [|y L1]; [cbn in C3; lra|]. assert (Q := steps_le_last _ _ y C1 (or_introl eq_refl)). destruct C1 as (C1 & _). lra.
          -- assert (Q := steps_le_last _ _ w C1 Hw). lra. }
  destruct St as (St & Sb).
  assert (PS : Permutation rest (map fst S)).
  { apply (Permutation_cons_inv (a := u0)). eapply Permutation_trans; [exact P|]. rewrite EL, map_app. cbn [map]. rewrite Ex. unfold S. rewrite map_app, map_map. cbn. change (map (fun x0 : v3 * R => fst x0) L1) with (map fst L1).
    eapply Permutation_trans; [apply Permutation_app_comm|]. reflexivity. }
  apply Permutation_map_inv in PS as (Rs & Er & PS).
  assert (Azr : forall z, In z Rs -> projected (Some e3) (fst z) = Some (dir e1 e2 (snd z))).
  { intros z Hz. apply (projected_az e1 e2 e3 Fr). apply (Permutation_in _ (Permutation_sym PS)) in Hz. unfold S in Hz. apply in_app_or in Hz as [Hz|Hz]; [apply Az; rewrite EL; apply in_or_app; right; right; auto|].
    apply in_map_iff in Hz as (w & <- & Hw). apply turn_az, Az. rewrite EL. apply in_or_app. left. auto. }
  cbn [ordered]. rewrite Av. f_equal. cbn [map app]. rewrite Ex. f_equal.
  rewrite <- Ex at 1. rewrite (projected_az e1 e2 e3 Fr (fst x) (snd x)) by (apply Az; rewrite EL; apply in_or_app; right; left; auto).
  rewrite Er. rewrite map_map. rewrite (map_ext_in _ (fun z => Some (dir e1 e2 (snd z)))) by (intros z Hz; apply Azr, Hz).
  rewrite map_length. rewrite (Permutation_length (Permutation_sym PS)). change (map (fun z : v3 * R => Some (dir e1 e2 (snd z))) Rs) with (qs_of e1 e2 Rs).
  rewrite (order_steps e1 e2 e3 Fr S (snd x) Rs (Permutation_sym PS) St Sb). unfold S. rewrite map_app, map_map. reflexivity.
Qed.

(** ** existence of the counterclockwise list *)
Lemma angle_exists a b : a * a + b * b = 1 -> exists t, 0 <= t < 2 * PI /\ cos t = a /\ sin t = b.
Proof.
  intros E. assert (Ba : -1 <= a <= 1).
  { assert (Q := Rle_0_sqr b). unfold Rsqr in Q. split; [destruct (Rle_dec (-1) a) as [|N]; auto|destruct (Rle_dec a 1) as [|N]; auto]; exfalso; apply Rnot_le_lt in N.
    - assert (0 < (-a - 1) * (-a + 1)) by (apply Rmult_lt_0_compat; lra). lra.
    - assert (0 < (a - 1) * (a + 1)) by (apply Rmult_lt_0_compat; lra). lra. }
  assert (A := acos_bound a). assert (Cs := cos_acos a Ba). assert (Sn := sin_acos a Ba). assert (P0 := PI_RGT_0).
  assert (Sq : sqrt (1 - a²) = Rabs b). { replace (1 - a²) with (b²) by (unfold Rsqr; lra). apply sqrt_Rsqr_abs. }
  rewrite Sq in Sn. destruct (Rle_dec 0 b) as [Pb|Nb].
  - exists (acos a). rewrite (Rabs_right b) in Sn by lra. repeat split; auto; lra.
  - apply Rnot_le_lt in Nb. rewrite (Rabs_left b) in Sn by lra. exists (2 * PI - acos a). split.
    + split; [lra|]. destruct (Req_dec (acos a) 0) as [Z|Nz]; [|lra]. rewrite Z, sin_0 in Sn. lra.
    + rewrite cos_minus, sin_minus, cos_2PI, sin_2PI, Cs, Sn. split; ring.
Qed.
Lemma sort_exists (l : list (v3 * R)) : NoDup (map snd l) -> exists l', Permutation l l' /\ StronglySorted (fun x y => snd x < snd y) l'.
Proof.
  assert (Ins : forall x l, StronglySorted (fun x y => snd x < snd y) l -> ~ In (snd x) (map snd l) -> exists l', Permutation (x :: l) l' /\ StronglySorted (fun x y : v3 * R => snd x < snd y) l').
  { intros x m. induction m as [|y m IH]; intros S N; [exists [x]; split; auto; constructor; [constructor|constructor]|]. inversion S as [|? ? S1 S2]; subst.
    destruct (Rlt_dec (snd x) (snd y)) as [L|L].
    - exists (x :: y :: m). split; auto. constructor; auto. constructor; auto. rewrite Forall_forall in *. intros z Hz. specialize (S2 z Hz). lra.
    - destruct IH as (m' & P & S'); auto; [intros Hin; apply N; right; auto|]. exists (y :: m'). split; [eapply Permutation_trans; [apply perm_swap|]; apply perm_skip, P|].
      constructor; auto. rewrite Forall_forall in *. intros z Hz. apply (Permutation_in _ (Permutation_sym P)) in Hz. destruct Hz as [<-|Hz]; [|auto]. destruct (Req_dec (snd x) (snd y)) as [E|E]; [exfalso; apply N; left; auto|lra]. }
  induction l as [|x l IH]; intros N; [exists []; split; constructor|]. cbn [map] in N. inversion N as [|? ? N1 N2]; subst. destruct (IH N2) as (l' & P & S).
  destruct (Ins x l' S) as (l'' & P' & S'').
  - intros Hin. apply N1. apply (Permutation_in _ (Permutation_map snd (Permutation_sym P)) Hin).
  - exists l''. split; auto. eapply Permutation_trans; [apply perm_skip, P|exact P'].
Qed.

Section Existence.
  Variable l : list v3.
  Variable e3 : v3.
  Hypothesis Av : average l = Some e3.
  Hypothesis Nn : forall u, In u l -> projected (Some e3) u <> None.
  Hypothesis Nd : NoDup (map (projected (Some e3)) l).
  Hypothesis Tr : exists a b, In a l /\ In b l /\ dot e3 (cross a b) <> 0.

  Lemma e3_unit : unit_vec e3.
  Proof.
    unfold average, normalize in Av. set (w := fold_left _ _ _) in Av. destruct (Req_EM_T (nrm w) 0) as [E|E]; [discriminate|]. inversion Av as [Ew]. unfold unit_vec, dot. cbn.
    transitivity (dot w w / (nrm w * nrm w)); [unfold dot; field; auto|]. rewrite nrm_sq. field. rewrite <- nrm_sq. intros Z. apply Rmult_integral in Z. tauto.
  Qed.
  (** the projections add up to zero *)
  Lemma e3_sum : exists m, m <> 0 /\ suml l vx = m * vx e3 /\ suml l vy = m * vy e3 /\ suml l vz = m * vz e3.
  Proof.
    unfold average in Av. rewrite vsum_fold in Av. rewrite !suml_scal in Av. set (w := vadd _ _) in Av.
    assert (Nw : w <> v0) by (intros Z; rewrite Z, normalize_none in Av; discriminate). rewrite (normalize_some w Nw) in Av. inversion Av as [Ew]. clear Av.
    assert (N : nrm w <> 0) by (intros Z; apply Nw, nrm_zero, Z).
    assert (Nl : INR (length l) <> 0). { intros Z. apply Nw. unfold w. replace (1 / INR (length l)) with 0; [apply v3_ext; unfold vadd; cbn; ring|]. rewrite Z. unfold Rdiv. rewrite Rinv_0. ring. }
    exists (INR (length l) * nrm w). split; [apply Rmult_integral_contrapositive; auto|]. unfold smul, w, vadd. cbn [vx vy vz]. fold w.
    repeat split; field; auto.
  Qed.
  Lemma proj_sum_dot c : suml l (fun u => dot c (project e3 u)) = 0.
  Proof.
    destruct e3_sum as (m & _ & X & Y & Z). assert (U := e3_unit). unfold unit_vec in U.
    rewrite (suml_ext l _ (fun u => (vx c - dot c e3 * vx e3) * vx u + (vy c - dot c e3 * vy e3) * vy u + (vz c - dot c e3 * vz e3) * vz u)) by (intros; unfold dot, project, vsub, smul, dot; cbn; ring).
    rewrite !suml_plus, !suml_scal. replace (suml l vx) with (m * vx e3) by auto. replace (suml l vy) with (m * vy e3) by auto. replace (suml l vz) with (m * vz e3) by auto.
    transitivity (m * dot c e3 * (1 - dot e3 e3)); [unfold dot; ring|]. rewrite U. ring.
  Qed.
  Lemma frame_exists : exists e1 e2, frame e1 e2 e3.
  Proof.
    destruct Tr as (a & _ & Ha & _). assert (N := Nn a Ha). cbn [projected] in N. assert (Np : project e3 a <> v0) by (intros E; rewrite E, normalize_none in N; congruence).
    assert (Nz : nrm (project e3 a) <> 0) by (intros Z; apply Np, nrm_zero, Z). set (p := project e3 a) in *.
    assert (U := e3_unit). unfold unit_vec in U. set (e1 := smul (/ nrm p) p).
    assert (U1 : dot e1 e1 = 1). { unfold e1. transitivity (dot p p / (nrm p * nrm p)); [unfold dot, smul; cbn; field; auto|]. rewrite nrm_sq. field. rewrite <- nrm_sq. intros Z. apply Rmult_integral in Z. tauto. }
    assert (O : dot e3 e1 = 0). { unfold e1. transitivity (/ nrm p * (dot e3 a * (1 - dot e3 e3))); [unfold p, project, dot, smul, vsub, dot; cbn; ring|]. rewrite U. ring. }
    exists e1, (cross e3 e1). repeat split; auto.
    - unfold unit_vec. rewrite lagrange, U, U1, O. ring.
    - unfold dot, cross. cbn. ring.
    - (* e1 x (e3 x e1) = e3 (e1.e1) - e1 (e1.e3) *)
      assert (T : cross e1 (cross e3 e1) = vsub (smul (dot e1 e1) e3) (smul (dot e3 e1) e1)) by (apply v3_ext; unfold cross, vsub, smul, dot; cbn; ring).
      rewrite T, U1, O. apply v3_ext; unfold vsub, smul; cbn; ring.
  Qed.
  Section F.
    Variables e1 e2 : v3.
    Hypothesis Fr : frame e1 e2 e3.
    Lemma frame_dots : dot e1 e1 = 1 /\ dot e2 e2 = 1 /\ dot e1 e2 = 0 /\ dot e1 e3 = 0 /\ dot e2 e3 = 0.
    Proof. destruct Fr as (A & B & C & D). repeat split; auto; rewrite <- D; unfold dot, cross; cbn; ring. Qed.
    Lemma in_plane p : dot e3 p = 0 -> p = vadd (smul (dot e1 p) e1) (smul (dot e2 p) e2).
    Proof.
      intros O. destruct frame_dots as (A & B & C & D & E). assert (U := e3_unit). unfold unit_vec in U.
      (* the difference has zero norm *)
      set (q := vsub p (vadd (smul (dot e1 p) e1) (smul (dot e2 p) e2))).
      assert (Q1 : dot e1 q = 0). { transitivity (dot e1 p * (1 - dot e1 e1) - dot e2 p * dot e1 e2); [unfold q, dot, vsub, vadd, smul, dot; cbn; ring|rewrite A, C; ring]. }
      assert (Q2 : dot e2 q = 0). { transitivity (dot e2 p * (1 - dot e2 e2) - dot e1 p * dot e1 e2); [unfold q, dot, vsub, vadd, smul, dot; cbn; ring|rewrite B, C; ring]. }
      assert (Q3 : dot e3 q = 0). { transitivity (dot e3 p - dot e1 p * dot e1 e3 - dot e2 p * dot e2 e3); [unfold q, dot, vsub, vadd, smul, dot; cbn; ring|rewrite O, D, E; ring]. }
      (* q x e3 = 0 because q is orthogonal to e1 and e2 and e3 = e1 x e2; with q.e3 = 0 it vanishes *)
      assert (Z : cross q e3 = v0).
      { destruct Fr as (_ & _ & _ & F4). rewrite <- F4. assert (T : cross q (cross e1 e2) = vsub (smul (dot e2 q) e1) (smul (dot e1 q) e2)) by (apply v3_ext; unfold cross, vsub, smul, dot; cbn; ring).
        rewrite T, Q1, Q2. apply v3_ext; unfold vsub, smul; cbn; ring. }
      assert (G := lagrange q e3). rewrite Z, U, (dot_sym q e3), Q3 in G. assert (Zq : dot q q = 0) by (unfold dot at 1 in G; cbn in G; lra).
      assert (Nq : q = v0). { apply nrm_zero. unfold nrm. rewrite Zq. apply sqrt_0. }
      apply v3_ext; [assert (X := f_equal vx Nq)|assert (X := f_equal vy Nq)|assert (X := f_equal vz Nq)]; unfold q, vsub in X; cbn in X; cbn; lra.
    Qed.
    Lemma project_orth u : dot e3 (project e3 u) = 0.
    Proof. assert (U := e3_unit). unfold unit_vec in U. transitivity (dot e3 u * (1 - dot e3 e3)); [unfold project, dot, vsub, smul, dot; cbn; ring|rewrite U; ring]. Qed.
    Lemma azimuth_exists u : In u l -> exists t, 0 <= t < 2 * PI /\ azimuth e1 e2 e3 u t.
    Proof.
      intros Hu. assert (N := Nn u Hu). cbn [projected] in N. assert (Np : project e3 u <> v0) by (intros E; rewrite E, normalize_none in N; congruence).
      set (p := project e3 u) in *. assert (Nz : nrm p <> 0) by (intros Z; apply Np, nrm_zero, Z). assert (Pz : 0 < nrm p) by (assert (Q := sqrt_pos (dot p p)); unfold nrm in *; lra).
      assert (Ip := in_plane p (project_orth u)). destruct frame_dots as (A & B & C & _ & _).
      assert (Sq : dot p p = dot e1 p * dot e1 p + dot e2 p * dot e2 p).
      { rewrite Ip at 1 2. transitivity (dot e1 p * dot e1 p * dot e1 e1 + dot e2 p * dot e2 p * dot e2 e2 + 2 * (dot e1 p * dot e2 p) * dot e1 e2); [unfold dot at 1, vadd, smul; cbn; unfold dot; ring|rewrite A, B, C; ring]. }
      destruct (angle_exists (dot e1 p / nrm p) (dot e2 p / nrm p)) as (t & Bt & Ct & St).
      { transitivity ((dot e1 p * dot e1 p + dot e2 p * dot e2 p) / (nrm p * nrm p)); [field; auto|]. rewrite <- Sq, nrm_sq. field. rewrite <- nrm_sq. intros Z. apply Rmult_integral in Z. tauto. }
      exists t. split; auto. exists (nrm p). split; auto. fold p. unfold dir. rewrite Ct, St. rewrite Ip at 1. apply v3_ext; unfold vadd, smul; cbn; field; auto.
    Qed.
    Lemma angles_exist : exists L, map fst L = l /\ (forall x, In x L -> 0 <= snd x < 2 * PI /\ azimuth e1 e2 e3 (fst x) (snd x)).
    Proof.
      assert (G : forall m, (forall u, In u m -> In u l) -> exists L, map fst L = m /\ (forall x, In x L -> 0 <= snd x < 2 * PI /\ azimuth e1 e2 e3 (fst x) (snd x))).
      { induction m as [|u m IH]; intros S; [exists []; split; auto; intros ? []|]. destruct IH as (L & E & A); [intros; apply S; right; auto|]. destruct (azimuth_exists u (S u (or_introl eq_refl))) as (t & Bt & At).
        exists ((u, t) :: L). split; [cbn; rewrite E; auto|]. intros x [<-|Hx]; auto. }
      apply G. auto.
    Qed.
    (** no half turn without a normal *)
    Lemma no_half_turn L t sg : Permutation (map fst L) l -> (forall x, In x L -> azimuth e1 e2 e3 (fst x) (snd x)) ->
      (sg = 1 \/ sg = -1) -> ~ (forall x, In x L -> 0 <= sg * sin (snd x - t)).
    Proof.
      intros P Az Sg Pos.
      set (c := vadd (smul (- sin t) e1) (smul (cos t) e2)).
      assert (D : forall x, In x L -> exists r, 0 < r /\ dot c (project e3 (fst x)) = r * sin (snd x - t)).
      { intros x Hx. destruct (Az x Hx) as (r & Pr & Er). exists r. split; auto. rewrite Er. destruct frame_dots as (A & B & C & _ & _).
        transitivity (r * (- sin t * cos (snd x) * dot e1 e1 + cos t * sin (snd x) * dot e2 e2 + (cos t * cos (snd x) - sin t * sin (snd x)) * dot e1 e2)); [unfold c, dot, dir, vadd, smul, dot; cbn; ring|].
        rewrite A, B, C, sin_minus. ring. }
      assert (Sum : suml L (fun x => sg * dot c (project e3 (fst x))) = 0).
      { rewrite suml_scal. rewrite <- (suml_map fst L (fun u => dot c (project e3 u))). rewrite (suml_perm _ _ _ P), proj_sum_dot. ring. }
      assert (Z : forall x, In x L -> sg * dot c (project e3 (fst x)) = 0).
      { assert (NNeg : forall x, In x L -> 0 <= sg * dot c (project e3 (fst x))).
        { intros x Hx. destruct (D x Hx) as (r & Pr & ->). assert (Q := Pos x Hx). replace (sg * (r * sin (snd x - t))) with (r * (sg * sin (snd x - t))) by ring. apply Rmult_le_pos; lra. }
        clear - Sum NNeg. induction L as [|y L IH]; intros x Hx; [destruct Hx|]. change (suml (y :: L) (fun x => sg * dot c (project e3 (fst x)))) with (sg * dot c (project e3 (fst y)) + suml L (fun x => sg * dot c (project e3 (fst x)))) in Sum.
        assert (Q := NNeg y (or_introl eq_refl)). assert (Q2 : 0 <= suml L (fun x => sg * dot c (project e3 (fst x)))).
        { clear - NNeg. induction L as [|z L IH]; [unfold suml; cbn; lra|]. change (suml (z :: L) (fun x => sg * dot c (project e3 (fst x)))) with (sg * dot c (project e3 (fst z)) + suml L (fun x => sg * dot c (project e3 (fst x)))).
          assert (Q := NNeg z (or_intror (or_introl eq_refl))). assert (Q2 := IH ltac:(intros x [Hx|Hx]; [apply NNeg; left; auto|apply NNeg; right; right; auto])). lra. }
        destruct Hx as [<-|Hx]; [lra|]. apply IH; auto; [lra|]. intros; apply NNeg; right; auto. }
      assert (Zc : forall u, In u l -> dot c (project e3 u) = 0).
      { intros u Hu. apply (Permutation_in _ (Permutation_sym P)) in Hu. apply in_map_iff in Hu as (x & <- & Hx). specialize (Z x Hx). destruct Sg as [-> | ->]; lra. }
      destruct Tr as (a & b & Ha & Hb & Nt). apply Nt.
      (* the projections of a and b are multiples of one direction *)
      assert (Pa := in_plane _ (project_orth a)). assert (Pb := in_plane _ (project_orth b)). assert (Ca := Zc a Ha). assert (Cb := Zc b Hb).
      assert (T : dot e3 (cross a b) = dot e3 (cross (project e3 a) (project e3 b))).
      { unfold project, dot, cross, vsub, smul, dot; cbn; ring. }
      rewrite T, Pa, Pb. set (a1 := dot e1 (project e3 a)) in *. set (a2 := dot e2 (project e3 a)) in *. set (b1 := dot e1 (project e3 b)) in *. set (b2 := dot e2 (project e3 b)) in *.
      transitivity ((a1 * b2 - a2 * b1) * dot e3 (cross e1 e2)); [unfold dot, cross, vadd, smul; cbn; ring|].
      assert (Ca' : - sin t * a1 + cos t * a2 = 0). { rewrite <- Ca. unfold c, a1, a2, dot, vadd, smul; cbn; ring. }
      assert (Cb' : - sin t * b1 + cos t * b2 = 0). { rewrite <- Cb. unfold c, b1, b2, dot, vadd, smul; cbn; ring. }
      assert (Dz : a1 * b2 - a2 * b1 = 0).
      { assert (S2 := sin2_cos2 t). unfold Rsqr in S2.
        assert (X1 : sin t * (a1 * b2 - a2 * b1) = 0). { transitivity ((sin t * a1) * b2 - a2 * (sin t * b1)); [ring|]. replace (sin t * a1) with (cos t * a2) by lra. replace (sin t * b1) with (cos t * b2) by lra. ring. }
        assert (X2 : cos t * (a1 * b2 - a2 * b1) = 0). { transitivity (a1 * (cos t * b2) - (cos t * a2) * b1); [ring|]. replace (cos t * b2) with (sin t * b1) by lra. replace (cos t * a2) with (sin t * a1) by lra. ring. }
        apply Rmult_integral in X1. apply Rmult_integral in X2. destruct X1 as [X1|X1]; auto. destruct X2 as [X2|X2]; auto. rewrite X1, X2 in S2. lra. }
      rewrite Dz. ring.
    Qed.
  End F.
  Lemma ccw_exists : exists e1 e2 L, frame e1 e2 e3 /\ counterclockwise e1 e2 e3 L /\ Permutation (map fst L) l.
  Proof.
    destruct frame_exists as (e1 & e2 & Fr). destruct (angles_exist e1 e2 Fr) as (L0 & E0 & A0).
    assert (Nd0 : NoDup (map snd L0)).
    { rewrite <- E0 in Nd. rewrite map_map in Nd. rewrite (map_ext_in _ (fun x => Some (dir e1 e2 (snd x)))) in Nd by (intros x Hx; apply (projected_az e1 e2 e3 Fr), (proj2 (A0 x Hx))).
      rewrite <- (map_map snd (fun t => Some (dir e1 e2 t))) in Nd. exact (NoDup_map_inv _ _ Nd). }
    destruct (sort_exists L0 Nd0) as (L & P & S). exists e1, e2, L. split; auto.
    assert (PL : Permutation (map fst L) l) by (rewrite <- E0; apply Permutation_map, Permutation_sym, P). split; auto.
    assert (A : forall x, In x L -> 0 <= snd x < 2 * PI /\ azimuth e1 e2 e3 (fst x) (snd x)) by (intros x Hx; apply A0, (Permutation_in _ (Permutation_sym P) Hx)).
    assert (NH := fun t sg => no_half_turn e1 e2 Fr L t sg PL (fun x Hx => proj2 (A x Hx))). assert (P0 := PI_RGT_0).
    split; [intros x Hx; apply A, Hx|].
    (* inner gaps *)
    assert (Gap : forall B' A' x, L = A' ++ x :: B' -> steps (snd x) B').
    { induction B' as [|y B' IH]; intros A' x E; [exact I|]. cbn [steps]. split; [|apply (IH (A' ++ [x])); rewrite <- app_assoc; exact E].
      assert (Sx : snd x < snd y /\ (forall z, In z A' -> snd z < snd x) /\ (forall z, In z B' -> snd y < snd z)).
      { clear - S E. rewrite E in S. clear E. induction A' as [|w A' IH]; cbn [app] in S; inversion S as [|? ? S1 S2]; subst.
        - inversion S1 as [|? ? S3 S4]; subst. rewrite Forall_forall in *. split; [apply S2; left; auto|]. split; [intros ? []|auto].
        - destruct (IH S1) as (I1 & I2 & I3). split; auto. split; auto. intros z [<-|Hz]; auto. rewrite Forall_forall in S2. apply S2. apply in_or_app. right. left. auto. }
      destruct Sx as (S1 & S2 & S3). split; [lra|]. destruct (Rlt_dec (snd y - snd x) PI) as [|Ge]; auto. exfalso. apply (NH (snd x) (-1)); [auto|].
      assert (Bx := proj1 (A x ltac:(rewrite E; apply in_or_app; right; left; auto))). assert (By := proj1 (A y ltac:(rewrite E; apply in_or_app; right; right; left; auto))).
      assert (Up : forall z : v3 * R, snd y <= snd z < 2 * PI -> 0 <= -1 * sin (snd z - snd x)).
      { intros z Bz. destruct (Req_dec (snd z - snd x) PI) as [->|Ne]; [rewrite sin_PI; lra|]. assert (Q : sin (snd z - snd x) < 0) by (apply sin_lt_0; lra). lra. }
      intros z Hz. assert (Bz := proj1 (A z Hz)). rewrite E in Hz. apply in_app_or in Hz as [Hz|[<-|[<-|Hz]]].
      - specialize (S2 z Hz). replace (snd z - snd x) with (- (snd x - snd z)) by ring. rewrite sin_neg. assert (Q : 0 < sin (snd x - snd z)) by (apply sin_gt_0; lra). lra.
      - replace (snd x - snd x) with 0 by ring. rewrite sin_0. lra.
      - apply Up. lra.
      - apply Up. specialize (S3 z Hz). lra. }
    destruct L as [|f L']; [destruct Tr as (a & _ & Ha & _); apply Permutation_nil in PL; rewrite PL in Ha; destruct Ha|].
    split; [apply (Gap L' [] f eq_refl)|].
    assert (Bf := proj1 (A f (or_introl eq_refl))).
    assert (Last := last_in L' f). assert (Bl := proj1 (A _ Last)). split; [lra|].
    destruct (Rlt_dec (snd f + 2 * PI - snd (last L' f)) PI) as [|Ge]; auto. exfalso. apply (NH (snd f) 1); [auto|].
    assert (St : steps (snd f) L') by (apply (Gap L' [] f eq_refl)).
    intros z Hz. rewrite Rmult_1_l. destruct Hz as [<-|Hz]; [replace (snd f - snd f) with 0 by ring; rewrite sin_0; lra|].
    assert (M := steps_le_last _ _ z St Hz). rewrite last_map_snd in M. assert (M2 := steps_lt _ _ St z Hz). apply sin_ge_0; lra.
  Qed.
End Existence.
