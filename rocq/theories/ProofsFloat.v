(** Accuracy of the kernels in rounded arithmetic. *)
From Coq Require Import ZArith Reals List Arith Bool Permutation Lia Lra.
From Flocq Require Import Core Relative.
From Verif Require Import ModelOctree ModelFmm LibSum SpecBit ProofsBit ProofsRnd ModelAssemble SpecRndDirect ProofsRndDirect ModelRules ModelFloat SpecFloat.
From Verif Require ModelKernel.
Import ListNotations.
Local Open Scope R_scope.

Section Near.
  Variable u : R.
  Variable F : flops.
  Hypothesis HF : relative u F.
  Lemma u_ok : 0 <= u < 1. Proof. apply HF. Qed.
  Notation g := (1 - u).
  Ltac ulra := pose proof u_ok; lra.
  Lemma gk_pos k : 0 < g ^ k. Proof. apply pow_lt. ulra. Qed.
  Lemma gk_le1 k : g ^ k <= 1. Proof. assert (Q : (1 - u) ^ k <= 1 ^ k) by (apply pow_incr; ulra). rewrite pow1 in Q. exact Q. Qed.
  Lemma gk_dec k l : (k <= l)%nat -> g ^ l <= g ^ k.
  Proof. intros L. replace l with (k + (l - k))%nat by lia. rewrite pow_add. rewrite <- (Rmult_1_r (g ^ k)) at 2. apply Rmult_le_compat_l; [left; apply gk_pos|apply gk_le1]. Qed.
  (** [xh] is [x] up to [k] rounding factors *)
  Definition near (k : nat) (x xh : R) : Prop := exists t, xh = t * x /\ g ^ k <= t /\ t <= / g ^ k.
  Lemma near_exact x : near 0 x x. Proof. exists 1. simpl. rewrite Rinv_1. repeat split; ulra. Qed.
  Lemma near_weak k l x xh : (k <= l)%nat -> near k x xh -> near l x xh.
  Proof.
    intros L (t & E & A & B). exists t. assert (D := gk_dec k l L). assert (P := gk_pos l). split; auto. split; [ulra|]. eapply Rle_trans; [exact B|]. apply Rinv_le_contravar; auto.
  Qed.
  Lemma factor x y : Rabs (y - x) <= u * Rabs x -> exists t, y = t * x /\ g <= t /\ t <= / g.
  Proof.
    intros D. destruct (Req_EM_T x 0) as [->|N].
    - rewrite Rabs_R0, Rmult_0_r in D. exists 1. assert (y = 0). { assert (Q := Rabs_pos (y - 0)). destruct (Req_EM_T (y - 0) 0); [ulra|]. assert (X := Rabs_pos_lt (y - 0) n). ulra. }
      split; [ulra|]. split; [ulra|]. assert (B1 : / 1 <= / g) by (apply Rinv_le_contravar; ulra). rewrite Rinv_1 in B1. ulra.
    - exists (y / x). assert (E : Rabs (y / x - 1) <= u).
      { replace (y / x - 1) with ((y - x) / x) by (field; auto). unfold Rdiv. rewrite Rabs_mult, Rabs_inv. assert (P := Rabs_pos_lt x N). apply Rmult_le_reg_r with (Rabs x); auto. rewrite Rmult_assoc, Rinv_l by ulra. ulra. }
      apply Rabs_le_inv in E.
      assert (G : (1 + u) <= / g). { apply Rmult_le_reg_r with g; [ulra|]. rewrite Rinv_l by ulra. assert (0 <= u * u) by (apply Rmult_le_pos; ulra). ulra. }
      split; [field; auto|]. ulra.
  Qed.
  Lemma near_step k x xh y : near k x xh -> Rabs (y - xh) <= u * Rabs xh -> near (S k) x y.
  Proof.
    intros (t & -> & A & B) D. destruct (factor _ _ D) as (s & -> & C & E). exists (s * t). assert (P := gk_pos k). split; [ring|]. split; simpl.
    - apply Rmult_le_compat; ulra.
    - rewrite Rinv_mult. apply Rmult_le_compat; ulra.
  Qed.
  Lemma near_times k l x y xh yh : near k x xh -> near l y yh -> near (k + l) (x * y) (xh * yh).
  Proof.
    intros (t & -> & A & B) (s & -> & C & D). exists (t * s). assert (P := gk_pos k). assert (Q := gk_pos l). split; [ring|]. rewrite pow_add. split; [apply Rmult_le_compat; ulra|].
    rewrite Rinv_mult. apply Rmult_le_compat; ulra.
  Qed.
  Lemma near_nz k x xh : near k x xh -> x <> 0 -> xh <> 0.
  Proof. intros (t & -> & A & B) N. assert (P := gk_pos k). apply Rmult_integral_contrapositive_currified; ulra. Qed.
  Lemma near_inv k x xh : x <> 0 -> near k x xh -> near k (/ x) (/ xh).
  Proof.
    intros N (t & -> & A & B). assert (P := gk_pos k). exists (/ t). rewrite Rinv_mult. split; auto. split; [|apply Rinv_le_contravar; auto].
    rewrite <- (Rinv_inv (g ^ k)). apply Rinv_le_contravar; ulra.
  Qed.
  Lemma near_plus k x y xh yh : 0 <= x -> 0 <= y -> near k x xh -> near k y yh -> near k (x + y) (xh + yh).
  Proof.
    intros Px Py (t & -> & A & B) (s & -> & C & D). destruct (Req_EM_T (x + y) 0) as [Z|Z].
    - assert (x = 0) by ulra. assert (y = 0) by ulra. subst. exists 1. assert (P := gk_pos k). assert (L := gk_le1 k). split; [ulra|]. split; auto. assert (B1 : / 1 <= / g ^ k) by (apply Rinv_le_contravar; ulra). rewrite Rinv_1 in B1. exact B1.
    - exists ((t * x + s * y) / (x + y)). assert (Pp : 0 < x + y) by ulra. split; [field; auto|].
      assert (X1 : g ^ k * x <= t * x) by (apply Rmult_le_compat_r; auto). assert (Y1 : g ^ k * y <= s * y) by (apply Rmult_le_compat_r; auto).
      assert (X2 : t * x <= / g ^ k * x) by (apply Rmult_le_compat_r; auto). assert (Y2 : s * y <= / g ^ k * y) by (apply Rmult_le_compat_r; auto).
      split; apply Rmult_le_reg_r with (x + y); auto; unfold Rdiv; rewrite Rmult_assoc, Rinv_l, Rmult_1_r by auto; ulra.
  Qed.
  Lemma near_sqrt k x xh : 0 <= x -> near k x xh -> near k (sqrt x) (sqrt xh).
  Proof.
    intros Px (t & -> & A & B). assert (P := gk_pos k). assert (L := gk_le1 k). exists (sqrt t). split; [rewrite sqrt_mult by ulra; auto|].
    assert (S1 : forall a, 0 <= a <= 1 -> a <= sqrt a). { intros a Ha. rewrite <- (sqrt_square a) at 1 by ulra. apply sqrt_le_1_alt. assert (a * a <= a * 1) by (apply Rmult_le_compat_l; ulra). ulra. }
    split.
    - eapply Rle_trans; [apply (S1 (g ^ k)); ulra|]. apply sqrt_le_1_alt. auto.
    - eapply Rle_trans; [apply sqrt_le_1_alt; exact B|]. assert (B1 : / 1 <= / g ^ k) by (apply Rinv_le_contravar; ulra). rewrite Rinv_1 in B1.
      rewrite <- (sqrt_square (/ g ^ k)) at 2 by ulra. apply sqrt_le_1_alt. assert (/ g ^ k * 1 <= / g ^ k * / g ^ k) by (apply Rmult_le_compat_l; ulra). ulra.
  Qed.
  (** rounded operations *)
  Lemma n_mul k l x y xh yh : near k x xh -> near l y yh -> near (S (k + l)) (x * y) (@amul f_arith xh yh).
  Proof. intros A B. eapply near_step; [apply near_times; eauto|]. apply HF. Qed.
  Lemma n_div k l x y xh yh : y <> 0 -> near k x xh -> near l y yh -> near (S (k + l)) (x / y) (@adiv f_arith xh yh).
  Proof.
    intros N A B. eapply near_step; [apply near_times; [exact A|apply near_inv; [exact N|exact B]]|]. fold (xh / yh). destruct HF as (_ & _ & _ & _ & Q & _). apply Q. eapply near_nz; eauto.
  Qed.
  Lemma n_add k x y xh yh : 0 <= x -> 0 <= y -> near k x xh -> near k y yh -> near (S k) (x + y) (@aadd f_arith xh yh).
  Proof. intros Px Py A B. eapply near_step; [apply near_plus; [exact Px|exact Py|exact A|exact B]|]. apply HF. Qed.
  Lemma n_sub x y : near 1 (x - y) (fsub x y).
  Proof. eapply near_step; [apply near_exact|]. apply HF. Qed.
  Lemma n_sqrt k x xh : 0 <= x -> near k x xh -> near (S k) (sqrt x) (fsqrt xh).
  Proof.
    intros Px A. eapply near_step; [apply near_sqrt; [exact Px|exact A]|]. rewrite (Rabs_pos_eq (sqrt xh)) by apply sqrt_pos. destruct HF as (_ & _ & _ & _ & _ & Q & _). apply Q. destruct A as (t & -> & A & _). assert (P := gk_pos k). apply Rmult_le_pos; ulra.
  Qed.
  Lemma n_pi : near 1 PI (@api f_arith).
  Proof. eapply near_step; [apply near_exact|]. destruct HF as (_ & _ & _ & _ & _ & _ & _ & Q). rewrite (Rabs_pos_eq PI); [exact Q|]. left. apply PI_RGT_0. Qed.

  Variable dim : nat.
  Variables x y : ModelKernel.vec.
  Definition dist2 : R := (x 0%nat - y 0%nat) ^ 2 + (x 1%nat - y 1%nat) ^ 2 + (if Nat.eqb dim 3 then (x 2%nat - y 2%nat) ^ 2 else 0).
  Hypothesis Ap : apart dim x y.
  Lemma sq_pos a : 0 <= a ^ 2. Proof. apply pow2_ge_0. Qed.
  Lemma dist2_pos : 0 < dist2.
  Proof.
    unfold dist2. assert (A0 := sq_pos (x 0%nat - y 0%nat)). assert (A1 := sq_pos (x 1%nat - y 1%nat)). assert (A2 := sq_pos (x 2%nat - y 2%nat)).
    assert (N : forall a b : R, a <> b -> 0 < (a - b) ^ 2) by (intros a b Nn; assert (Q := pow2_ge_0 (a - b)); destruct (Req_EM_T ((a - b) ^ 2) 0) as [Z|Z]; [exfalso; apply Nn; replace ((a - b) ^ 2) with ((a - b) * (a - b)) in Z by ring; apply Rmult_integral in Z; ulra|ulra]).
    destruct Ap as [Q|[Q|(E & Q)]]; apply N in Q; [| |rewrite E; cbn [Nat.eqb]; ulra]; destruct (Nat.eqb dim 3); ulra.
  Qed.
  Lemma n_square : near 5 dist2 (fsquare dim (fdifference x y)).
  Proof.
    unfold dist2, fsquare. cbv zeta. assert (S1 : forall k, near 3 ((x k - y k) ^ 2) (@amul f_arith (fdifference x y k) (fdifference x y k))).
    { intros k. replace ((x k - y k) ^ 2) with ((x k - y k) * (x k - y k)) by ring. apply (n_mul 1 1); apply n_sub. }
    destruct (Nat.eqb dim 3).
    - apply n_add; [apply Rplus_le_le_0_compat; apply sq_pos|apply sq_pos| |].
      + apply n_add; try apply sq_pos; auto.
      + eapply near_weak; [|apply S1]. lia.
    - rewrite Rplus_0_r. eapply (near_weak 4); [lia|]. apply n_add; try apply sq_pos; auto.
  Qed.
  Notation r := (sqrt dist2).
  Lemma r_pos : 0 < r. Proof. apply sqrt_lt_R0. apply dist2_pos. Qed.
  Lemma n_norm : near 6 r (fnorm dim (fdifference x y)).
  Proof. apply n_sqrt; [left; apply dist2_pos|apply n_square]. Qed.
  Lemma n_d : dim = 3%nat -> near 10 (/ (4 * PI * r)) (fkernel_d dim (fdifference x y)).
  Proof.
    intros E. unfold fkernel_d. cbv zeta. rewrite (proj2 (Nat.eqb_eq dim 3) E). assert (P := r_pos). assert (Pp := PI_RGT_0). replace (/ (4 * PI * r)) with (1 / (r * 4 * PI)) by (field; ulra).
    apply (n_div 0 9); [|apply near_exact|].
    - assert (0 < r * PI) by (apply Rmult_lt_0_compat; auto). intro; ulra.
    - apply (n_mul 7 1); [|apply n_pi]. apply (n_mul 6 0); [apply n_norm|apply near_exact].
  Qed.
  Lemma n_D k : dim = 3%nat -> near 25 (- (x k - y k) / (4 * PI * r ^ 3)) (fkernel_D dim (fdifference x y) k).
  Proof.
    intros E. unfold fkernel_D. cbv zeta. rewrite (proj2 (Nat.eqb_eq dim 3) E). assert (P := r_pos). assert (Pp := PI_RGT_0). replace (- (x k - y k) / (4 * PI * r ^ 3)) with ((x k - y k) / (-4 * PI * (r * r) * r)) by (field; ulra).
    apply (n_div 1 23); [|apply n_sub|].
    - assert (X : 0 < PI * (r * r * r)) by (apply Rmult_lt_0_compat; [exact Pp|apply Rmult_lt_0_compat; [apply Rmult_lt_0_compat|]; exact P]). intro; ulra.
    - apply (n_mul 16 6); [|apply n_norm]. apply (n_mul 2 13); [|apply (n_mul 6 6); apply n_norm]. apply (n_mul 0 1); [apply near_exact|apply n_pi].
  Qed.
  Lemma n_D2 k : dim <> 3%nat -> near 18 (- (x k - y k) / (2 * PI * r ^ 2)) (fkernel_D dim (fdifference x y) k).
  Proof.
    intros E. unfold fkernel_D. cbv zeta. rewrite (proj2 (Nat.eqb_neq dim 3) E). assert (P := r_pos). assert (Pp := PI_RGT_0). replace (- (x k - y k) / (2 * PI * r ^ 2)) with ((x k - y k) / (-2 * PI * (r * r))) by (field; ulra).
    apply (n_div 1 16); [|apply n_sub|].
    - assert (X : 0 < PI * (r * r)) by (apply Rmult_lt_0_compat; [exact Pp|apply Rmult_lt_0_compat; exact P]). intro; ulra.
    - apply (n_mul 2 13); [|apply (n_mul 6 6); apply n_norm]. apply (n_mul 0 1); [apply near_exact|apply n_pi].
  Qed.
  (** in terms of [apx] *)
  Definition v : R := / g - 1.
  Lemma v_pos : 0 <= v. Proof. unfold v. assert (B1 : / 1 <= / g) by (apply Rinv_le_contravar; ulra). rewrite Rinv_1 in B1. ulra. Qed.
  Lemma v_gam k : (1 + v) ^ k - 1 = gam u k. Proof. unfold v, gam. replace (1 + (/ g - 1)) with (/ g) by ring. reflexivity. Qed.
  Lemma near_apx k a ah : near k a ah -> apx v k 0 (Rabs a) a ah.
  Proof.
    intros (t & -> & A & B). split; [ulra|]. split; [ulra|]. rewrite Rmult_0_r, Rplus_0_r. replace (t * a - a) with ((t - 1) * a) by ring. rewrite Rabs_mult. apply Rmult_le_compat_r; [apply Rabs_pos|].
    replace (1 + v) with (/ g) by (unfold v; ring). rewrite pow_inv. assert (P := gk_pos k). assert (L := gk_le1 k). 
    assert (Q : 2 <= g ^ k + / g ^ k). { set (a0 := g ^ k) in *. apply Rmult_le_reg_r with a0; auto. rewrite Rmult_plus_distr_r, Rinv_l by ulra. assert (0 <= (a0 - 1) ^ 2) by apply pow2_ge_0. ulra. }
    unfold Rabs. destruct (Rcase_abs (t - 1)); ulra.
  Qed.
  (** a relative error of r is an absolute error of its logarithm *)
  Lemma a_log k a ah : 0 < a -> near k a ah -> apx v (S k) 0 (Rabs (ln a) + 1) (ln a) (flog ah).
  Proof.
    intros Pa (t & -> & A & B). assert (P := gk_pos k). assert (L := gk_le1 k). assert (Pt : 0 < t) by ulra. assert (La := Rabs_pos (ln a)).
    assert (LN : forall z, 0 < z -> ln z <= z - 1) by (intros z Pz; assert (Q := exp_ineq1_le (ln z)); rewrite exp_ln in Q by auto; lra).
    assert (T : Rabs (ln t) <= / g ^ k - 1).
    { apply Rabs_le. split.
      - assert (Q := LN (/ t) (Rinv_0_lt_compat t Pt)). rewrite ln_Rinv in Q by auto. assert (/ t <= / g ^ k) by (apply Rinv_le_contravar; auto). lra.
      - assert (Q := LN t Pt). lra. }
    assert (Vg : (1 + v) ^ k = / g ^ k) by (replace (1 + v) with (/ g) by (unfold v; ring); rewrite pow_inv; reflexivity).
    assert (V0 := v_pos). assert (UV : u <= v). { unfold v. apply Rmult_le_reg_r with (1 - u); [ulra|]. rewrite Rmult_minus_distr_r, Rinv_l by ulra. assert (0 <= u * u) by (apply Rmult_le_pos; ulra). ulra. }
    split; [lra|]. split; [lra|]. rewrite Rmult_0_r, Rplus_0_r. cbn [pow]. rewrite Vg. set (G := / g ^ k) in *.
    assert (G1 : 1 <= G) by (assert (B1 : / 1 <= / g ^ k) by (apply Rinv_le_contravar; ulra); rewrite Rinv_1 in B1; exact B1).
    assert (Lt : Rabs (ln (t * a) - ln a) <= G - 1) by (rewrite ln_mult by auto; replace (ln t + ln a - ln a) with (ln t) by ring; exact T).
    assert (Q : Rabs (flog (t * a) - ln (t * a)) <= u * Rabs (ln (t * a))) by (destruct HF as (_ & _ & _ & _ & _ & _ & Q & _); apply Q; apply Rmult_lt_0_compat; auto).
    assert (S1 : Rabs (ln (t * a)) <= Rabs (ln a) + (G - 1)) by (replace (ln (t * a)) with (ln a + (ln (t * a) - ln a)) by ring; eapply Rle_trans; [apply Rabs_triang|]; lra).
    replace (flog (t * a) - ln a) with ((flog (t * a) - ln (t * a)) + (ln (t * a) - ln a)) by ring. eapply Rle_trans; [apply Rabs_triang|].
    assert (S2 : u * Rabs (ln (t * a)) <= v * (Rabs (ln a) + (G - 1))) by (apply Rmult_le_compat; auto; [ulra|apply Rabs_pos]).
    assert (0 <= (G - 1) * Rabs (ln a)) by (apply Rmult_le_pos; lra). assert (0 <= v * ((G - 1) * Rabs (ln a))) by (apply Rmult_le_pos; lra).
    replace (((1 + v) * G - 1) * (Rabs (ln a) + 1)) with (v * (Rabs (ln a) + (G - 1)) + v * ((G - 1) * Rabs (ln a)) + (G - 1) * Rabs (ln a) + (G - 1) + v) by ring. lra.
  Qed.
  Lemma a_div k l X a ah b bh : b <> 0 -> apx v k 0 X a ah -> near l b bh -> apx v (S (k + l)) 0 (X / Rabs b) (a / b) (@adiv f_arith ah bh).
  Proof.
    intros Nb Ha Hb. assert (Nh : bh <> 0) by (eapply near_nz; eauto). assert (Hi := near_apx _ _ _ (near_inv l b bh Nb Hb)). assert (V0 := v_pos).
    assert (UV : u <= v). { unfold v. apply Rmult_le_reg_r with (1 - u); [ulra|]. rewrite Rmult_minus_distr_r, Rinv_l by ulra. assert (0 <= u * u) by (apply Rmult_le_pos; ulra). ulra. }
    assert (Sx := apx_size v _ _ _ _ _ Ha). assert (Sy := apx_size v _ _ _ _ _ Hi). destruct Ha as (_ & A2 & A3), Hi as (_ & B2 & B3).
    rewrite Rmult_0_r, Rplus_0_r in *. rewrite (Rabs_inv b) in *. set (Y := / Rabs b) in *. assert (Y0 : 0 <= Y) by (unfold Y; left; apply Rinv_0_lt_compat, Rabs_pos_lt; auto).
    assert (X0 := Rabs_pos a). assert (Gk := p_ge1 v V0 k). assert (Gl := p_ge1 v V0 l).
    split; [lra|]. unfold Rdiv. fold Y. split; [rewrite Rabs_mult, (Rabs_inv b); fold Y; apply Rmult_le_compat_r; auto|]. rewrite Rmult_0_r, Rplus_0_r.
    assert (Q : Rabs (@adiv f_arith ah bh - ah * / bh) <= u * Rabs (ah * / bh)) by (destruct HF as (_ & _ & _ & _ & Q & _); apply Q; auto).
    assert (E1 : Rabs (ah * / bh) <= (1 + v) ^ k * X * ((1 + v) ^ l * Y)) by (rewrite Rabs_mult; apply Rmult_le_compat; auto; apply Rabs_pos).
    assert (E2 : Rabs (ah * / bh - a * / b) <= ((1 + v) ^ k - 1) * X * ((1 + v) ^ l * Y) + X * (((1 + v) ^ l - 1) * Y)).
    { replace (ah * / bh - a * / b) with ((ah - a) * / bh + a * (/ bh - / b)) by ring. eapply Rle_trans; [apply Rabs_triang|]. rewrite !Rabs_mult. apply Rplus_le_compat; apply Rmult_le_compat; auto; apply Rabs_pos. }
    replace (@adiv f_arith ah bh - a * / b) with ((@adiv f_arith ah bh - ah * / bh) + (ah * / bh - a * / b)) by ring. eapply Rle_trans; [apply Rabs_triang|].
    assert (E3 : u * Rabs (ah * / bh) <= v * ((1 + v) ^ k * X * ((1 + v) ^ l * Y))) by (apply Rmult_le_compat; auto; [ulra|apply Rabs_pos]).
    cbn [pow]. rewrite pow_add. set (aa := (1 + v) ^ k) in *. set (bb := (1 + v) ^ l) in *.
    replace (((1 + v) * (aa * bb) - 1) * (X * Y)) with (v * (aa * X * (bb * Y)) + ((aa - 1) * X * (bb * Y) + X * ((bb - 1) * Y))) by ring. lra.
  Qed.
  Lemma a_opp k X a ah : apx v k 0 X a ah -> apx v k 0 X (- a) (- ah).
  Proof. intros (A1 & A2 & A3). split; auto. split; [rewrite Rabs_Ropp; auto|]. replace (- ah - - a) with (- (ah - a)) by ring. rewrite Rabs_Ropp. auto. Qed.
  Lemma a_d2 : dim <> 3%nat -> apx v 10 0 ((Rabs (ln r) + 1) / (2 * PI)) (- ln r / (2 * PI)) (fkernel_d dim (fdifference x y)).
  Proof.
    intros E. unfold fkernel_d. cbv zeta. rewrite (proj2 (Nat.eqb_neq dim 3) E). assert (Pp := PI_RGT_0).
    rewrite <- (Rabs_pos_eq (2 * PI)) at 1 by lra. apply (a_div 7 2); [intro; lra| |apply (n_mul 0 1); [apply near_exact|apply n_pi]].
    apply a_opp. apply a_log; [apply r_pos|apply n_norm].
  Qed.
End Near.

Section Entries.
  Variable u : R.
  Variable F : flops.
  Hypothesis HF : relative u F.
  Notation vv := (v u).
  Notation A := (@f_arith F).
  Lemma F_rounds : rounds_within vv 0 A.
  Proof.
    assert (U := u_ok u F HF). assert (V := v_pos u F HF). assert (UV : u <= vv). { unfold v. apply Rmult_le_reg_r with (1 - u); [lra|]. rewrite Rmult_minus_distr_r, Rinv_l by lra. assert (0 <= u * u) by (apply Rmult_le_pos; lra). lra. }
    destruct HF as (_ & Q1 & _ & Q2 & _). split; auto. split; [lra|]. split; intros x y; rewrite Rplus_0_r; [eapply Rle_trans; [apply Q1|]|eapply Rle_trans; [apply Q2|]]; apply Rmult_le_compat_r; auto; apply Rabs_pos.
  Qed.
  Notation VP := (v_pos u F HF).
  Notation aP := (apx vv).
  Lemma a_mul k X x xh w : aP k 0 X x xh -> aP (S k) 0 (X * Rabs w) (x * w) (@amul A xh w).
  Proof. intros H0. eapply (apx_weak vv VP); [apply Nat.le_refl| |apply (apx_mul vv 0 VP (Rle_refl 0) A F_rounds); exact H0]. lra. Qed.
  Lemma a_add k X Y x y xh yh : aP k 0 X x xh -> aP k 0 Y y yh -> aP (S k) 0 (X + Y) (x + y) (@aadd A xh yh).
  Proof. intros H0 H1. eapply (apx_weak vv VP); [apply Nat.le_refl| |apply (apx_add vv 0 VP (Rle_refl 0) A F_rounds); [exact H0|exact H1]]. lra. Qed.
  Lemma a_zero k : aP k 0 0 0 0.
  Proof. split; [lra|]. rewrite Rminus_0_r, Rabs_R0. split; [lra|]. rewrite !Rmult_0_r. lra. Qed.
  Lemma exact_norm3 x y : ModelKernel.norm 3 (difference x y) = sqrt (dist2 3 x y).
  Proof. unfold ModelKernel.norm, ModelKernel.square, difference, dist2. cbn [seq fold_left Nat.eqb]. f_equal. ring. Qed.
  Lemma exact_norm2 x y : ModelKernel.norm 2 (difference x y) = sqrt (dist2 2 x y).
  Proof. unfold ModelKernel.norm, ModelKernel.square, difference, dist2. cbn [seq fold_left Nat.eqb]. f_equal. ring. Qed.
  Lemma sum_over (s a b c : R) : (a + b + c) / s = a / s + b / s + c / s. Proof. unfold Rdiv. ring. Qed.
  Lemma kernel_apx3 m x n y : apart 3 x y -> aP 28 0 (size_kernel 3 m x n y) (point_kernel 3 m x n y) (fpoint_kernel 3 m x n y).
  Proof.
    intros Ap. assert (Pr := r_pos u F HF 3 x y Ap). assert (Pp := PI_RGT_0). assert (P1 : 0 < 4 * PI * sqrt (dist2 3 x y)) by (apply Rmult_lt_0_compat; lra).
    assert (P3 : 0 < 4 * PI * sqrt (dist2 3 x y) ^ 3) by (apply Rmult_lt_0_compat; [lra|apply pow_lt; auto]).
    unfold size_kernel. cbv zeta. cbn [Nat.eqb]. change ((x 0%nat - y 0%nat) ^ 2 + (x 1%nat - y 1%nat) ^ 2 + (x 2%nat - y 2%nat) ^ 2) with (dist2 3 x y).
    destruct m; unfold point_kernel, fpoint_kernel.
    - assert (E : kernel_s 3 (difference x y) = / (4 * PI * sqrt (dist2 3 x y))).
      { unfold kernel_s. cbn [Nat.eqb]. unfold ModelKernel.kernels3_d. cbv zeta. rewrite exact_norm3. field. split; lra. }
      rewrite E. eapply (apx_weak vv VP _ 28 _ 0); [| |rewrite <- (Rabs_pos_eq (/ (4 * PI * sqrt (dist2 3 x y)))) at 1 by (left; apply Rinv_0_lt_compat; auto); apply (near_apx u F HF); apply (n_d u F HF 3); auto]; [lia|lra].
    - assert (E : forall k, kernel_D 3 (difference x y) k = - (x k - y k) / (4 * PI * sqrt (dist2 3 x y) ^ 3)).
      { intros k. unfold kernel_D. cbn [Nat.eqb]. unfold ModelKernel.kernels3_D. cbv zeta. rewrite exact_norm3. unfold difference. field. split; lra. }
      unfold dotn. cbn [seq fold_left]. rewrite !E, Rplus_0_l.
      assert (C : forall k, aP 26 0 (Rabs (x k - y k) * Rabs (n k) / (4 * PI * sqrt (dist2 3 x y) ^ 3)) (- (x k - y k) / (4 * PI * sqrt (dist2 3 x y) ^ 3) * n k) (@amul A (fkernel_D 3 (fdifference x y) k) (n k))).
      { intros k. replace (Rabs (x k - y k) * Rabs (n k) / (4 * PI * sqrt (dist2 3 x y) ^ 3)) with (Rabs (- (x k - y k) / (4 * PI * sqrt (dist2 3 x y) ^ 3)) * Rabs (n k)).
        - apply a_mul. apply (near_apx u F HF). apply (n_D u F HF); auto.
        - unfold Rdiv. rewrite Rabs_mult, Rabs_Ropp, (Rabs_pos_eq (/ _)) by (left; apply Rinv_0_lt_compat; auto). ring. }
      unfold fdot. cbv zeta. cbn [Nat.eqb]. set (s := 4 * PI * sqrt (dist2 3 x y) ^ 3) in *. rewrite sum_over.
      apply a_add; [apply a_add; apply C|]. eapply (apx_weak vv VP); [| |apply C]; [lia|lra].
  Qed.
  Lemma kernel_apx2 m x n y : apart 2 x y -> aP 28 0 (size_kernel 2 m x n y) (point_kernel 2 m x n y) (fpoint_kernel 2 m x n y).
  Proof.
    intros Ap. assert (Pr := r_pos u F HF 2 x y Ap). assert (Pp := PI_RGT_0). assert (P3 : 0 < 2 * PI * sqrt (dist2 2 x y) ^ 2) by (apply Rmult_lt_0_compat; [lra|apply pow_lt; auto]).
    assert (ED : (x 0%nat - y 0%nat) ^ 2 + (x 1%nat - y 1%nat) ^ 2 = dist2 2 x y) by (unfold dist2; cbn [Nat.eqb]; ring).
    unfold size_kernel. cbv zeta. cbn [Nat.eqb]. rewrite ED.
    destruct m; unfold point_kernel, fpoint_kernel.
    - assert (E : kernel_s 2 (difference x y) = - ln (sqrt (dist2 2 x y)) / (2 * PI)).
      { unfold kernel_s. cbn [Nat.eqb]. unfold ModelKernel.kernels2_d. cbv zeta. rewrite exact_norm2. reflexivity. }
      rewrite E. eapply (apx_weak vv VP _ 28 _ 0); [| |apply (a_d2 u F HF 2 x y Ap)]; [lia|lra|lia].
    - assert (E : forall k, kernel_D 2 (difference x y) k = - (x k - y k) / (2 * PI * sqrt (dist2 2 x y) ^ 2)).
      { intros k. unfold kernel_D. cbn [Nat.eqb]. unfold ModelKernel.kernels2_D. cbv zeta. rewrite exact_norm2. unfold difference. field. split; lra. }
      unfold dotn. cbn [seq fold_left]. rewrite !E, Rplus_0_l.
      assert (C : forall k, aP 19 0 (Rabs (x k - y k) * Rabs (n k) / (2 * PI * sqrt (dist2 2 x y) ^ 2)) (- (x k - y k) / (2 * PI * sqrt (dist2 2 x y) ^ 2) * n k) (@amul A (fkernel_D 2 (fdifference x y) k) (n k))).
      { intros k. replace (Rabs (x k - y k) * Rabs (n k) / (2 * PI * sqrt (dist2 2 x y) ^ 2)) with (Rabs (- (x k - y k) / (2 * PI * sqrt (dist2 2 x y) ^ 2)) * Rabs (n k)).
        - apply a_mul. apply (near_apx u F HF). apply (n_D2 u F HF); auto.
        - unfold Rdiv. rewrite Rabs_mult, Rabs_Ropp, (Rabs_pos_eq (/ _)) by (left; apply Rinv_0_lt_compat; auto). ring. }
      unfold fdot. cbv zeta. cbn [Nat.eqb]. set (s := 2 * PI * sqrt (dist2 2 x y) ^ 2) in *. unfold Rdiv at 1. rewrite Rmult_plus_distr_r.
      eapply (apx_weak vv VP 20 28); [| |apply a_add; apply C]; [lia|lra].
  Qed.
  Lemma kernel_apx dim m x n y : dim = 2%nat \/ dim = 3%nat -> apart dim x y -> aP 28 0 (size_kernel dim m x n y) (point_kernel dim m x n y) (fpoint_kernel dim m x n y).
  Proof. intros [-> | ->]; [apply kernel_apx2|apply kernel_apx3]. Qed.
  Lemma a_sum (l : list nat) (N : nat) (X a ah b c : nat -> R) : (length l <= N)%nat -> (forall q, In q l -> aP 28 0 (X q) (a q) (ah q)) ->
    aP (30 + N) 0 (fold_left (fun s q => s + X q * Rabs (b q) * Rabs (c q)) l 0) (fold_left (fun s q => s + a q * b q * c q) l 0) (fold_left (fun s q => @aadd A s (@amul A (@amul A (ah q) (b q)) (c q))) l 0).
  Proof.
    intros L Hl.
    eapply (apx_weak vv VP); [| |apply (apx_sum vv 0 VP (Rle_refl 0) A F_rounds l (fun q => a q * b q * c q) (fun q => @amul A (@amul A (ah q) (b q)) (c q)) (fun q => X q * Rabs (b q) * Rabs (c q)) 30 0) with (j := 0%nat) (cj := 0)].
    - lia.
    - lra.
    - intros q Hq. apply a_mul. apply a_mul. auto.
    - apply a_zero.
  Qed.
  Variable dim : nat.
  Hypothesis Hdim : dim = 2%nat \/ dim = 3%nat.
  Variable m : matrix.
  Variable I : oin.
  Variable node : nat -> ModelKernel.vec.
  Variable P : regular_points.
  Variable S : singular_points.
  Variable owned : nat -> bool.
  Variable N : nat.
  Hypothesis HN : (o_nqc I <= N)%nat /\ forall idx, (sp_n S idx <= N)%nat.
  Hypothesis HP : points_apart dim I node P S.
  Notation KX := (size_kern dim m node P). Notation SX := (size_rule dim m node S).
  Notation KE := (regular_kern dim m node P). Notation SE := (rule_at dim m node S).
  Notation KH := (fregular_kern dim m node P). Notation SH := (frule_at dim m node S).
  Lemma f_local i c j : (i < o_nd I)%nat -> (c < o_nc I)%nat -> aP (30 + N) 0 (@local_row exact_arith I KX SX i c j) (@local_row exact_arith I KE SE i c j) (@local_row A I KH SH i c j).
  Proof.
    intros Hi Hc. destruct HN as (N1 & N2), HP as (P1 & P2). unfold local_row. destruct (singular_index I i c) as [idx|] eqn:E.
    - unfold singular_row. cbn [aadd amul exact_arith sr_n sr_kernel sr_shape sr_jxw size_rule rule_at frule_at].
      apply (a_sum (seq 0 (sp_n S idx)) N (fun q => size_kernel dim m (sp_at S c idx q) (sp_normal S c idx q) (node i)) (fun q => point_kernel dim m (sp_at S c idx q) (sp_normal S c idx q) (node i)) (fun q => fpoint_kernel dim m (sp_at S c idx q) (sp_normal S c idx q) (node i)) (fun q => sp_shape S idx q j) (fun q => sp_jxw S c idx q)); [rewrite seq_length; auto|].
      intros q Hq. apply in_seq in Hq. apply kernel_apx; [exact Hdim|]. apply P2; auto. lia.
    - cbn [aadd amul exact_arith kd shp jxw size_kern regular_kern fregular_kern].
      apply (a_sum (quads_of_cell I c) N (fun q => size_kernel dim m (rp_at P q) (rp_normal P q) (node i)) (fun q => point_kernel dim m (rp_at P q) (rp_normal P q) (node i)) (fun q => fpoint_kernel dim m (rp_at P q) (rp_normal P q) (node i)) (fun q => rp_shape P q j) (fun q => rp_jxw P q)); [unfold quads_of_cell; rewrite seq_length; auto|].
      intros q Hq. apply kernel_apx; [exact Hdim|]. apply (P1 i c q); auto.
  Qed.
  Lemma f_par : par (fun X x xh => aP (30 + N) 0 X x xh) (@assemble_adds exact_arith I KX SX owned) (@assemble_adds exact_arith I KE SE owned) (@assemble_adds A I KH SH owned).
  Proof.
    unfold assemble_adds. apply par_flat. intros c Hc. apply par_flat. intros i Hi. apply in_seq in Hc, Hi. destruct (owned i); [|constructor].
    induction (seq 0 (length (o_cdofs I c))) as [|j l IH]; cbn [map]; constructor; auto. apply f_local; lia.
  Qed.
  Lemma f_entry i d : (i < o_nd I)%nat -> owned i = true -> aP (30 + N + occurrences I d) 0 (size_entry dim m I node P S owned i d) (stored dim m I node P S owned i d) (fstored dim m I node P S owned i d).
  Proof.
    intros Hi Ho. rewrite <- (assemble_count exact_arith I KE SE owned i d Hi Ho).
    eapply (apx_weak vv VP); [| |apply (entry_par' vv 0 A F_rounds (30 + N) 0 i d _ _ _ (Rle_refl 0) f_par)]; [lia|]. rewrite Rplus_0_r, Rmult_0_r. lra.
  Qed.
  Lemma f_product i cols M w : (i < o_nd I)%nat -> owned i = true -> (forall d, In d cols -> (occurrences I d <= M)%nat) ->
    aP (31 + N + M + length cols) 0 (@row_product exact_arith I KX SX owned cols (fun d => Rabs (w d)) i) (@row_product exact_arith I KE SE owned cols w i) (fstored_vmult dim m I node P S owned cols w i).
  Proof.
    intros Hi Ho HM. unfold fstored_vmult, row_product. cbn [aadd amul exact_arith].
    eapply (apx_weak vv VP); [| |apply (apx_sum vv 0 VP (Rle_refl 0) A F_rounds cols (fun d => @entry exact_arith (@assemble_adds exact_arith I KE SE owned) i d * w d) (fun d => @amul A (@entry A (@assemble_adds A I KH SH owned) i d) (w d))
      (fun d => @entry exact_arith (@assemble_adds exact_arith I KX SX owned) i d * Rabs (w d)) (Datatypes.S (30 + N + M)) 0) with (j := 0%nat) (cj := 0)].
    - lia.
    - lra.
    - intros d Hd. apply a_mul. assert (L := HM d Hd). eapply (apx_weak vv VP); [| |apply (f_entry i d Hi Ho)]; [lia|lra].
    - apply a_zero.
  Qed.
End Entries.

(** 53 digits, no limit on the exponent *)
Lemma flx_error x : Rabs (flx x - x) <= bpow radix2 (-53) * Rabs x.
Proof.
  unfold flx. destruct (relative_error_N_FLX_ex radix2 53 ltac:(reflexivity) (fun x => negb (Z.even x)) x) as (eps & E & ->).
  replace (x * (1 + eps) - x) with (eps * x) by ring. rewrite Rabs_mult. apply Rmult_le_compat_r; [apply Rabs_pos|].
  eapply Rle_trans; [exact E|]. change (- (53) + 1)%Z with (-53 + 1)%Z. rewrite bpow_plus. replace (bpow radix2 1) with 2 by (cbn; lra). lra.
Qed.
Lemma flx_relative : relative (bpow radix2 (-53)) unlimited_double.
Proof.
  unfold relative. cbn [f_arith unlimited_double aadd amul adiv api fsub fsqrt flog]. assert (B : 0 < bpow radix2 (-53) < 1) by (split; [apply bpow_gt_0|change 1 with (bpow radix2 0); apply bpow_lt; lia]).
  split; [lra|]. repeat split; intros; try apply flx_error.
  - assert (Q := flx_error (sqrt x)). rewrite (Rabs_pos_eq (sqrt x)) in Q by apply sqrt_pos. exact Q.
  - assert (Q := flx_error PI). rewrite (Rabs_pos_eq PI) in Q by (left; apply PI_RGT_0). exact Q.
Qed.
(** binary64 rounds in the same way what is not smaller than 2^-1022 *)
Lemma dbl_flx x : bpow radix2 (-1022) <= Rabs x -> dbl x = flx x.
Proof. intros L. unfold dbl, flx. apply round_FLT_FLX. exact L. Qed.
