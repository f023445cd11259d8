(** Accuracy of translations and evaluations of expansions (C94). *)
From Coq Require Import ZArith Reals List Lia Lra Bool Arith.
From Verif Require Import ModelLegendre ModelLegTable ModelLegApi ModelExp SpecExp LibSum ModelFmm ModelFloat SpecFloat ProofsFloat ModelFloatExp ModelFloatExp2 SpecFloatTrans.
Import ListNotations.
Local Open Scope R_scope.
Notation lbind := ModelLegendre.bind.

Section Ap.
  Variable u : R.
  Variable M : fmath.
  Variable pow_i : Z -> R.
  Hypothesis HR : relative_math u M pow_i.
  Notation A := (@f_arith (fm_ops M)).
  Lemma HF : relative u (fm_ops M). Proof. apply HR. Qed.
  Notation near := (near u).
  Lemma u01 : 0 <= u < 1. Proof. apply HF. Qed.
  Definition G (k : nat) : R := (/ (1 - u)) ^ k.
  Lemma G1 : 1 <= / (1 - u). Proof. assert (Q := u01). rewrite <- Rinv_1. apply Rinv_le_contravar; lra. Qed.
  Lemma G_ge k : 1 <= G k. Proof. apply pow_R1_Rle, G1. Qed.
  Lemma G_le k l : (k <= l)%nat -> G k <= G l. Proof. intros L. apply Rle_pow; [apply G1|exact L]. Qed.
  Lemma G_u : 1 + u <= / (1 - u).
  Proof. assert (Q := u01). apply Rmult_le_reg_r with (1 - u); [lra|]. rewrite Rinv_l by lra. assert (0 <= u * u) by (apply Rmult_le_pos; lra). lra. Qed.
  (** [xh] is [x] up to k roundings of [X] *)
  Definition ap (k : nat) (X x xh : R) : Prop := Rabs x <= X /\ Rabs (xh - x) <= (G k - 1) * X.
  Lemma ap_weak k l X x xh : (k <= l)%nat -> ap k X x xh -> ap l X x xh.
  Proof. intros L (P & Q). split; [exact P|]. eapply Rle_trans; [exact Q|]. apply Rmult_le_compat_r; [eapply Rle_trans; [apply Rabs_pos|exact P]|]. assert (W := G_le k l L). lra. Qed.
  Lemma ap_exact x : ap 0 (Rabs x) x x.
  Proof. split; [apply Rle_refl|]. unfold G. simpl. rewrite Rminus_diag_eq, Rabs_R0 by reflexivity. lra. Qed.
  Lemma ap_zero : ap 0 0 0 0. Proof. assert (Q := ap_exact 0). rewrite Rabs_R0 in Q. exact Q. Qed.
  Lemma ap_near k x xh : near k x xh -> ap k (Rabs x) x xh.
  Proof.
    intros N. destruct (near_apx u (fm_ops M) HF k x xh N) as (_ & P & Q). split; [exact P|]. rewrite Rmult_0_r, Rplus_0_r in Q.
    unfold v in Q. replace (1 + (/ (1 - u) - 1)) with (/ (1 - u)) in Q by ring. exact Q.
  Qed.
  Lemma ap_round k X x z y : Rabs x <= X -> Rabs (z - x) <= (G k - 1) * X -> Rabs (y - z) <= u * Rabs z -> ap (S k) X x y.
  Proof.
    intros P Q D. split; [exact P|]. assert (U := u01). assert (Z1 : Rabs z <= G k * X).
    { replace z with (x + (z - x)) by ring. eapply Rle_trans; [apply Rabs_triang|]. lra. }
    replace (y - x) with ((y - z) + (z - x)) by ring. eapply Rle_trans; [apply Rabs_triang|].
    assert (D1 : u * Rabs z <= u * (G k * X)) by (apply Rmult_le_compat_l; lra).
    assert (X0 : 0 <= X) by (eapply Rle_trans; [apply Rabs_pos|exact P]). assert (K := G_ge k).
    assert (E : (1 + u) * (G k * X) <= / (1 - u) * (G k * X)) by (apply Rmult_le_compat_r; [apply Rmult_le_pos; lra|apply G_u]).
    change (G (S k)) with (/ (1 - u) * G k). lra.
  Qed.
  Lemma ap_mul k l X x xh Y y yh : ap k X x xh -> ap l Y y yh -> ap (S (k + l)) (X * Y) (x * y) (@amul A xh yh).
  Proof.
    intros (P & Q) (P' & Q'). apply ap_round with (xh * yh).
    - rewrite Rabs_mult. apply Rmult_le_compat; auto; apply Rabs_pos.
    - unfold G. rewrite pow_add. fold (G k) (G l). assert (X0 : 0 <= X) by (eapply Rle_trans; [apply Rabs_pos|exact P]). assert (Y0 : 0 <= Y) by (eapply Rle_trans; [apply Rabs_pos|exact P']).
      replace (xh * yh - x * y) with (x * (yh - y) + (xh - x) * y + (xh - x) * (yh - y)) by ring.
      assert (A1 : Rabs (x * (yh - y)) <= X * ((G l - 1) * Y)) by (rewrite Rabs_mult; apply Rmult_le_compat; auto; apply Rabs_pos).
      assert (A2 : Rabs ((xh - x) * y) <= ((G k - 1) * X) * Y) by (rewrite Rabs_mult; apply Rmult_le_compat; auto; apply Rabs_pos).
      assert (A3 : Rabs ((xh - x) * (yh - y)) <= ((G k - 1) * X) * ((G l - 1) * Y)) by (rewrite Rabs_mult; apply Rmult_le_compat; auto; apply Rabs_pos).
      eapply Rle_trans; [apply Rabs_triang|]. eapply Rle_trans; [apply Rplus_le_compat_r, Rabs_triang|].
      replace ((G k * G l - 1) * (X * Y)) with (X * ((G l - 1) * Y) + ((G k - 1) * X) * Y + ((G k - 1) * X) * ((G l - 1) * Y)) by ring. lra.
    - apply HF.
  Qed.
  Lemma ap_plus k X x xh Y y yh : ap k X x xh -> ap k Y y yh -> Rabs (x + y) <= X + Y /\ Rabs (xh + yh - (x + y)) <= (G k - 1) * (X + Y).
  Proof.
    intros (P & Q) (P' & Q'). split; [eapply Rle_trans; [apply Rabs_triang|]; lra|]. replace (xh + yh - (x + y)) with ((xh - x) + (yh - y)) by ring. eapply Rle_trans; [apply Rabs_triang|]. lra.
  Qed.
  Lemma ap_add k X x xh Y y yh : ap k X x xh -> ap k Y y yh -> ap (S k) (X + Y) (x + y) (@aadd A xh yh).
  Proof. intros P Q. destruct (ap_plus _ _ _ _ _ _ _ P Q) as (R1 & R2). eapply ap_round; [exact R1|exact R2|]. apply HF. Qed.
  Lemma ap_opp k X x xh : ap k X x xh -> ap k X (- x) (- xh).
  Proof. intros (P & Q). split; [rewrite Rabs_Ropp; exact P|]. replace (- xh - - x) with (- (xh - x)) by ring. rewrite Rabs_Ropp. exact Q. Qed.
  Lemma ap_sub k X x xh Y y yh : ap k X x xh -> ap k Y y yh -> ap (S k) (X + Y) (x - y) (@fsub (fm_ops M) xh yh).
  Proof.
    intros P Q. destruct (ap_plus _ _ _ _ _ _ _ P (ap_opp _ _ _ _ Q)) as (R1 & R2). eapply ap_round; [exact R1|exact R2|].
    replace (xh + - yh) with (xh - yh) by ring. apply HF.
  Qed.
  (** ** Complex numbers *)
  Definition ap2 (k : nat) (X x xh : R * R) : Prop := ap k (fst X) (fst x) (fst xh) /\ ap k (snd X) (snd x) (snd xh).
  Lemma ap2_weak k l X x xh : (k <= l)%nat -> ap2 k X x xh -> ap2 l X x xh.
  Proof. intros L (P & Q). split; eapply ap_weak; eauto. Qed.
  Lemma ap2_within k X x xh : ap2 k X x xh -> within u k x X xh.
  Proof. intros ((_ & P) & (_ & Q)). split; [exact P|exact Q]. Qed.
  Lemma ap2_add k X x xh Y y yh : ap2 k X x xh -> ap2 k Y y yh -> ap2 (S k) (rplus2 X Y) (rplus2 x y) (fcadd M xh yh).
  Proof. intros (P & Q) (P' & Q'). split; apply ap_add; auto. Qed.
  (** a product of complex numbers (factors up to k and l roundings), times a real number *)
  Lemma ap2_mul k a ah w : (near k (fst a) (fst ah) /\ near k (snd a) (snd ah)) ->
    ap2 (k + 2) (Rabs (fst a * fst w) + Rabs (snd a * snd w), Rabs (fst a * snd w) + Rabs (snd a * fst w)) (fst a * fst w - snd a * snd w, fst a * snd w + snd a * fst w) (fcmul M ah w).
  Proof.
    intros (P & Q). assert (T : forall x xh y, near k x xh -> ap (k + 1) (Rabs (x * y)) (x * y) (@amul A xh y)).
    { intros x xh y N. rewrite Rabs_mult. replace (k + 1)%nat with (S (k + 0)) by lia. apply ap_mul; [apply ap_near; exact N|apply ap_exact]. }
    unfold fcmul. replace (k + 2)%nat with (S (k + 1)) by lia. split; cbn [fst snd]; [apply ap_sub|apply ap_add]; apply T; auto.
  Qed.
  Lemma ap2_scale k l X x xh r rh : ap2 k X x xh -> near l r rh -> ap2 (S (k + l)) (fst X * Rabs r, snd X * Rabs r) (fst x * r, snd x * r) (fcmulr M xh rh).
  Proof. intros (P & Q) N. split; cbn [fst snd fcmulr]; apply ap_mul; auto; apply ap_near; exact N. Qed.
  Lemma near_mul k l x y xh yh : near k x xh -> near l y yh -> near (S (k + l)) (x * y) (@amul A xh yh).
  Proof. apply (n_mul u (fm_ops M) HF). Qed.
  Lemma near_div k l x y xh yh : y <> 0 -> near k x xh -> near l y yh -> near (S (k + l)) (x / y) (@adiv A xh yh).
  Proof. apply (n_div u (fm_ops M) HF). Qed.
  Lemma near_sq k x xh : 0 <= x -> near k x xh -> near (S k) (sqrt x) (@fsqrt (fm_ops M) xh).
  Proof. apply (n_sqrt u (fm_ops M) HF). Qed.
  Lemma near_0 x : near 0 x x. Proof. exact (near_exact u (fm_ops M) HF x). Qed.
  Lemma near_up k l x xh : (k <= l)%nat -> near k x xh -> near l x xh. Proof. exact (near_weak u (fm_ops M) HF k l x xh). Qed.
  Lemma near_neq k x xh : near k x xh -> x <> 0 -> xh <> 0. Proof. exact (near_nz u (fm_ops M) HF k x xh). Qed.
  Lemma near_pos k x xh : near k x xh -> 0 <= x -> 0 <= xh.
  Proof. intros (t & -> & P & _) L. apply Rmult_le_pos; [|exact L]. eapply Rle_trans; [|exact P]. left. apply pow_lt. assert (Q := u01). lra. Qed.
  (** ** Tables *)
  Lemma fdown_near k : forall j f fh, near j f fh -> near (j + k) (down_product f k) (fdown M fh k).
  Proof.
    induction k as [|k IH]; intros j f fh N; cbn [fdown down_product]; [rewrite Nat.add_0_r; exact N|]. replace (j + S k)%nat with (S j + k)%nat by lia. apply IH.
    replace (S j) with (S (j + 0)) by lia. apply near_mul; [exact N|apply near_0].
  Qed.
  Lemma down_gt k : forall f, 0 < f -> 0 < down_product f k.
  Proof. induction k as [|k IH]; intros f F; [exact F|]. cbn [down_product]. apply IH, Rmult_lt_0_compat; [exact F|]. rewrite S_INR. assert (W := pos_INR k). lra. Qed.
  Definition Aval (n m : nat) : R := (-1) ^ n / sqrt (down_product 1 (n - m) * down_product 1 (n + m)).
  Lemma A_exact n m : (m <= n <= 20)%nat -> A_n_m n m = Some (Aval n m) /\ Aval n m <> 0.
  Proof.
    intros L. unfold A_n_m. rewrite (proj2 (Nat.ltb_lt n 21)), (proj2 (Nat.ltb_lt m 21)), (proj2 (Nat.leb_le m n)) by lia. split; [reflexivity|]. unfold Aval.
    assert (P : 0 < down_product 1 (n - m) * down_product 1 (n + m)) by (apply Rmult_lt_0_compat; apply down_gt; lra). apply sqrt_lt_R0 in P.
    unfold Rdiv. apply Rmult_integral_contrapositive_currified; [apply pow_nonzero; lra|apply Rinv_neq_0_compat; lra].
  Qed.
  Lemma fdiv_nz a b : b <> 0 -> fdiv M a b = Some (@adiv A a b). Proof. intros N. unfold fdiv. destruct (Req_EM_T b 0); [contradiction|reflexivity]. Qed.
  Lemma A_near n m : (m <= n <= 20)%nat -> exists a, fA_n_m M n m = Some a /\ near (2 * n + 3) (Aval n m) a.
  Proof.
    intros L. unfold fA_n_m. rewrite (proj2 (Nat.ltb_lt n 21)), (proj2 (Nat.ltb_lt m 21)), (proj2 (Nat.leb_le m n)) by lia. cbn [andb].
    assert (P : 0 < down_product 1 (n - m) * down_product 1 (n + m)) by (apply Rmult_lt_0_compat; apply down_gt; lra).
    assert (N : near (S ((0 + (n - m)) + (0 + (n + m)))) (down_product 1 (n - m) * down_product 1 (n + m)) (@amul A (fdown M 1 (n - m)) (fdown M 1 (n + m)))) by (apply near_mul; apply fdown_near, near_0).
    unfold froot. destruct (Rlt_dec _ 0) as [F|_]; [exfalso; assert (W := near_pos _ _ _ N (Rlt_le _ _ P)); lra|]. cbn [lbind].
    assert (N2 := near_sq _ _ _ (Rlt_le _ _ P) N). assert (P2 := sqrt_lt_R0 _ P). assert (Nz : sqrt (down_product 1 (n - m) * down_product 1 (n + m)) <> 0) by lra.
    rewrite fdiv_nz by (eapply near_neq; eauto). eexists. split; [reflexivity|]. destruct HR as (_ & HS & _). rewrite HS. unfold Aval.
    eapply near_up; [|apply (near_div 0 _ _ _ _ _ Nz (near_0 _) N2)]. lia.
  Qed.
  Lemma powi_near k : Z.even k = true -> near 1 (re_pow_i k) (pow_i k).
  Proof. intros E. destruct HR as (_ & _ & H3). apply (near_step u (fm_ops M) HF 0 _ _ _ (near_0 _)). apply H3, E. Qed.
  Lemma even_abs x : Z.even (Z.abs x) = Z.even x. Proof. destruct (Z.abs_spec x) as [(_ & ->)|(_ & ->)]; [reflexivity|apply Z.even_opp]. Qed.
  Lemma l2l_even n m : Z.even (Z.abs m - Z.abs (m - n) - n) = true.
  Proof. rewrite !Z.even_sub, !even_abs, Z.even_sub. destruct (Z.even m), (Z.even n); reflexivity. Qed.
  Lemma m2l_even n m : Z.even (Z.abs (n - m) - n - Z.abs m) = true.
  Proof. rewrite !Z.even_sub, !even_abs, Z.even_sub. destruct (Z.even m), (Z.even n); reflexivity. Qed.
  Lemma m2m_even n m : Z.even (Z.abs n - Z.abs m - Z.abs (n - m)) = true.
  Proof. rewrite !Z.even_sub, !even_abs, Z.even_sub. destruct (Z.even m), (Z.even n); reflexivity. Qed.
  Lemma rdiv_nz a b : b <> 0 -> rdiv a b = Some (a / b). Proof. intros N. unfold rdiv. destruct (Req_EM_T b 0); [contradiction|reflexivity]. Qed.
  Lemma l2l_near n m nn mm : (m <= n <= nn)%nat -> (nn <= 10)%nat -> (absn mm <= nn)%nat -> (absn (mm - Z.of_nat m) <= nn - n)%nat ->
    exists t th, l2l_table n m nn mm = Some t /\ fl2l_table M pow_i n m nn mm = Some th /\ near (4 * nn + 14) t th.
  Proof.
    intros L L2 L3 L4. unfold l2l_table, fl2l_table. rewrite (proj2 (Nat.ltb_lt n 11)), (proj2 (Nat.ltb_lt m (n + 1))), (proj2 (Nat.leb_le n nn)), (proj2 (Nat.ltb_lt nn 11)), (proj2 (Nat.leb_le (absn mm) nn)) by lia. cbn [andb].
    destruct (A_near (nn - n) (absn (mm - Z.of_nat m)) ltac:(lia)) as (a1 & -> & N1). destruct (A_near nn (absn mm) ltac:(lia)) as (a2 & -> & N2). destruct (A_near n m ltac:(lia)) as (a3 & -> & N3).
    destruct (A_exact (nn - n) (absn (mm - Z.of_nat m)) ltac:(lia)) as (-> & Z1). destruct (A_exact nn (absn mm) ltac:(lia)) as (-> & Z2). destruct (A_exact n m ltac:(lia)) as (-> & Z3). cbn [lbind].
    rewrite rdiv_nz, fdiv_nz by (try exact Z2; eapply near_neq; eauto). cbn [lbind]. eexists _, _. split; [reflexivity|]. split; [reflexivity|].
    destruct HR as (_ & HS & _). rewrite HS. eapply near_up; [|apply near_mul; [apply near_mul; [apply (near_div _ _ _ _ _ _ Z2 N1 N2)|exact N3]|apply near_mul; [apply powi_near, l2l_even|apply near_0]]]. lia.
  Qed.
  Lemma m2l_near n m nn mm : (m <= n <= 10)%nat -> (nn <= 10)%nat -> (absn mm <= nn)%nat ->
    exists t th, m2l_table n m nn mm = Some t /\ fm2l_table M pow_i n m nn mm = Some th /\ near (4 * n + 4 * nn + 14) t th.
  Proof.
    intros L L2 L3. assert (L4 : (absn (Z.of_nat m - mm) <= n + nn)%nat) by (unfold absn in *; lia).
    unfold m2l_table, fm2l_table. rewrite (proj2 (Nat.ltb_lt n 11)), (proj2 (Nat.ltb_lt m (n + 1))), (proj2 (Nat.ltb_lt nn 11)), (proj2 (Nat.leb_le (absn mm) nn)) by lia. cbn [andb].
    destruct (A_near nn (absn mm) ltac:(lia)) as (a1 & -> & N1). destruct (A_near (n + nn) (absn (Z.of_nat m - mm)) ltac:(lia)) as (a2 & -> & N2). destruct (A_near n m ltac:(lia)) as (a3 & -> & N3).
    destruct (A_exact nn (absn mm) ltac:(lia)) as (-> & Z1). destruct (A_exact (n + nn) (absn (Z.of_nat m - mm)) ltac:(lia)) as (-> & Z2). destruct (A_exact n m ltac:(lia)) as (-> & Z3). cbn [lbind].
    rewrite rdiv_nz, fdiv_nz by (try exact Z2; eapply near_neq; eauto). cbn [lbind]. destruct HR as (_ & HS & _). rewrite HS. assert (Sz : (-1) ^ nn <> 0) by (apply pow_nonzero; lra). rewrite fdiv_nz by exact Sz. cbn [lbind].
    eexists _, _. split; [reflexivity|]. split; [reflexivity|].
    eapply near_up; [|apply near_mul; [apply near_mul; [apply (near_div _ _ _ _ _ _ Z2 N1 N2)|exact N3]|apply (near_div _ _ _ _ _ _ Sz (powi_near _ (m2l_even _ _)) (near_0 _))]]. lia.
  Qed.
End Ap.
