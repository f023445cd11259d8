(** * Evaluation of expansions; local to local translation. *)
From Coq Require Import ZArith List Reals Lia Lra Bool.
From Coquelicot Require Import Coquelicot.
From Verif Require Import ModelLegendre ModelLegApi ModelExp SpecLegendre ProofsLegendre ProofsLegCheck PropLegendre ProofsHarm ProofsHarm2 ProofsHarm3 SpecExp ProofsExp ProofsExp2 ProofsExp3.
Import ListNotations.
Local Open Scope R_scope.

Lemma sym_split n (f : Z -> C) : csum (sym_range n) f = (f 0%Z + csum (seq 1 n) (fun m => f (Z.of_nat m) + f (- Z.of_nat m)%Z))%C.
Proof.
  induction n as [|n IH].
  - cbn. ring.
  - rewrite csum_seq_S. unfold sym_range in *. replace (2 * S n + 1)%nat with (S (S (2 * n + 1))) by lia.
    rewrite zr_S, zr_hd. replace (- Z.of_nat (S n) + 1)%Z with (- Z.of_nat n)%Z by lia. rewrite IH.
    replace (- Z.of_nat (S n) + Z.of_nat (S (2 * n + 1)))%Z with (Z.of_nat (S n)) by lia. replace (1 + n)%nat with (S n) by lia. ring.
Qed.
Lemma fst_csum {A} (l : list A) (f : A -> C) (g : A -> C) : (forall a, In a l -> fst (f a) = fst (g a)) -> fst (csum l f) = fst (csum l g).
Proof. induction l as [|a l IH]; intros Hf; [reflexivity|]. cbn. rewrite Hf by (left; auto). f_equal. apply IH. intros; apply Hf; right; auto. Qed.
Lemma sgz_sigma l : sigma l * sigma (- l) = sgz l.
Proof.
  unfold sigma. destruct (Z.leb_spec 0 l), (Z.leb_spec 0 (- l)); rewrite ?sgz_neg; try lia; try ring.
  replace l with 0%Z by lia. change (sgz 0) with 1. ring.
Qed.
(** symmetric coefficients with respect to the harmonics *)
Definition lam (g : nat -> nat -> C) (n : nat) (l : Z) : C := (RtoC ((-1) ^ n * sigma l / aa n (absn l)) * ext g n l)%C.
Lemma lam_conj g n l : Cconj (lam g n l) = (RtoC (sgz l) * lam g n (- l))%C.
Proof.
  unfold lam. rewrite Cconj_mult, Cconj_R, ext_neg. replace (absn (- l)) with (absn l) by (unfold absn; lia). rewrite Cmult_assoc, <- RtoC_mult. f_equal. f_equal.
  rewrite <- sgz_sigma. transitivity (((-1) ^ n * (sigma l * (sigma (- l) * sigma (- l)))) / aa n (absn l)); [rewrite sigma_sq; field|field]; apply aa_nz.
Qed.
Definition full (g : nat -> nat -> C) (w : nat -> R) (d : pt) (p : nat) : C :=
  csum (seq 0 (p + 1)) (fun n => (RtoC (w n) * csum (sym_range n) (fun l => lam g n l * H d n l))%C).
Lemma harm_term d n (l : Z) : rho_ d <> 0 ->
  (RtoC (Plm n (absn l) (cos_ d) * rho_ d ^ n) * cis (IZR l * beta_ d))%C = (RtoC ((-1) ^ n * sigma l / aa n (absn l)) * H d n l)%C.
Proof.
  intros N. assert (E := aa_H d n l N). apply (Ceq_reg_l (RtoC (aa n (absn l)))); [apply aaC_nz|].
  rewrite Cmult_assoc, <- RtoC_mult, E, Cmult_assoc, <- RtoC_mult. f_equal. f_equal. field. apply aa_nz.
Qed.
Lemma real_pair (a : C) : Cconj a = a -> a = RtoC (fst a).
Proof. destruct a as [x y]. unfold Cconj, RtoC. cbn. intros E. inversion E as [Ey]. f_equal. lra. Qed.
Lemma full_real g w d p : full g w d p = RtoC (fst (full g w d p)).
Proof.
  apply real_pair. unfold full. rewrite conj_csum. apply csum_ext. intros n _. rewrite Cconj_mult, Cconj_R, conj_csum. f_equal.
  rewrite <- (sym_rev n (fun l => (lam g n l * H d n l)%C)). apply csum_ext. intros l _. rewrite Cconj_mult, lam_conj, H_conj.
  transitivity (RtoC (sgz l * sgz l) * (lam g n (- l) * H d n (- l)))%C; [rewrite RtoC_mult; ring|]. rewrite sgz_sq. ring.
Qed.
Lemma fst_plus (a b : C) : fst (a + b)%C = fst a + fst b. Proof. reflexivity. Qed.
Lemma fst_conj (a : C) : fst (Cconj a) = fst a. Proof. reflexivity. Qed.
Lemma fst_scal r (a : C) : fst (RtoC r * a)%C = r * fst a. Proof. destruct a. cbn. ring. Qed.
(** the sum of the code over m >= 0, with its factor 2, is the sum over all orders *)
Lemma half_sum g w d p (F : nat * nat -> C) : rho_ d <> 0 ->
  (forall n m, (m <= n <= p)%nat -> F (n, m) = (g n m * (RtoC (if Nat.eqb m 0 then 1 else 2) * cis (INR m * beta_ d) * RtoC (w n * (Plm n m (cos_ d) * rho_ d ^ n))))%C) ->
  fst (csum (nm_pairs p) F) = fst (full g w d p).
Proof.
  intros N HF. unfold nm_pairs, full. rewrite csum_flat_map. apply fst_csum. intros n Hn. apply in_seq in Hn. rewrite csum_map. rewrite fst_scal, sym_split, fst_plus.
  rewrite (csum_ext (seq 0 (n + 1)) (fun m => F (n, m)) _ (fun m Hm => HF n m ltac:(apply in_seq in Hm; lia))).
  replace (n + 1)%nat with (S n) by lia. cbn [seq csum]. rewrite fst_plus.
  assert (E : forall l, (lam g n l * H d n l)%C = (ext g n l * (RtoC (Plm n (absn l) (cos_ d) * rho_ d ^ n) * cis (IZR l * beta_ d)))%C).
  { intros l. rewrite harm_term by auto. unfold lam. ring. }
  rewrite Rmult_plus_distr_l. f_equal.
  - rewrite E, ext_0. change (Nat.eqb 0 0) with true. cbv iota. change (absn 0) with 0%nat. simpl INR. rewrite !Rmult_0_l, cis_0. destruct (g n 0%nat) as [a b]. cbn. ring.
  - rewrite <- fst_scal, <- csum_scal. apply fst_csum. intros m Hm. apply in_seq in Hm. destruct (Nat.eqb_spec m 0); [lia|].
    rewrite fst_scal, fst_plus.
    assert (Cj : (lam g n (- Z.of_nat m) * H d n (- Z.of_nat m))%C = Cconj (lam g n (Z.of_nat m) * H d n (Z.of_nat m))%C).
    { rewrite Cconj_mult, lam_conj, H_conj. transitivity (RtoC (sgz (Z.of_nat m) * sgz (Z.of_nat m)) * (lam g n (- Z.of_nat m) * H d n (- Z.of_nat m)))%C; [rewrite sgz_sq; ring|rewrite RtoC_mult; ring]. }
    rewrite Cj, fst_conj, E. replace (absn (Z.of_nat m)) with m by (unfold absn; lia). rewrite ext_pos by lia. rewrite <- INR_IZR_INZ.
    rewrite (RtoC_mult (w n)).
    transitivity (fst (RtoC (2 * w n) * (g n m * (RtoC (Plm n m (cos_ d) * rho_ d ^ n) * cis (INR m * beta_ d))))%C); [f_equal; rewrite (RtoC_mult 2 (w n)); ring|].
    rewrite fst_scal. ring.
Qed.
Lemma full_ext g g' w d p : (forall n m, (m <= n <= p)%nat -> g n m = g' n m) -> full g w d p = full g' w d p.
Proof.
  intros E. apply csum_ext. intros n Hn. apply in_seq in Hn. f_equal. apply csum_ext. intros l Hl. apply sym_in in Hl. unfold lam, ext. rewrite E by (unfold absn; lia). reflexivity.
Qed.
Lemma full_plus g g' w d p : full (fun n m => g n m + g' n m)%C w d p = (full g w d p + full g' w d p)%C.
Proof.
  unfold full. rewrite <- csum_plus. apply csum_ext. intros n _. rewrite <- Cmult_plus_distr_l. f_equal. rewrite <- csum_plus. apply csum_ext. intros l _.
  unfold lam. assert (E : ext (fun n m => g n m + g' n m)%C n l = (ext g n l + ext g' n l)%C).
  { unfold ext. apply Ceq; cbn; ring. } rewrite E. ring.
Qed.
Lemma full_scal g k w d p : full (fun n m => RtoC k * g n m)%C w d p = (RtoC k * full g w d p)%C.
Proof.
  unfold full. rewrite <- csum_scal. apply csum_ext. intros n _. transitivity (RtoC (w n) * (RtoC k * csum (sym_range n) (fun l => lam g n l * H d n l)))%C; [|ring]. f_equal.
  rewrite <- csum_scal. apply csum_ext. intros l _. unfold lam. assert (E : ext (fun n m => RtoC k * g n m)%C n l = (RtoC k * ext g n l)%C).
  { unfold ext. apply Ceq; cbn; ring. } rewrite E. ring.
Qed.
Lemma full_zero w d p : full (fun _ _ => RtoC 0) w d p = RtoC 0.
Proof.
  apply csum_zero. intros n _. rewrite csum_zero; [ring|]. intros l _. unfold lam. assert (E : ext (fun _ _ => RtoC 0) n l = RtoC 0).
  { unfold ext. apply Ceq; cbn; ring. } rewrite E. ring.
Qed.
(** the flag is sound *)
Definition sound (e : expansion) : Prop := e_zero e = true -> forall n m, (m <= n <= e_p e)%nat -> at_ e n m = RtoC 0.
Definition wl (d : pt) (n : nat) : R := 1.
Definition wm (d : pt) (n : nat) : R := / rho_ d ^ (2 * n + 1).
Lemma l_eval_ok e x : (e_p e <= 20)%nat -> x <> e_center e -> sound e ->
  l_evaluate e x = Some (fst (full (at_ e) (wl (psub x (e_center e))) (psub x (e_center e)) (e_p e))).
Proof.
  intros Lp Nx So. unfold l_evaluate. destruct (e_zero e) eqn:Z.
  - rewrite (full_ext _ (fun _ _ => RtoC 0)) by (apply So; auto). rewrite full_zero. reflexivity.
  - apply rho_sub in Nx. rewrite spher_some by auto. cbn [bind]. set (d := psub x (e_center e)) in *.
    set (F := fun nm : nat * nat => (at_ e (fst nm) (snd nm) * (RtoC (if Nat.eqb (snd nm) 0 then 1 else 2) * cis (INR (snd nm) * beta_ d) * RtoC (Plm (fst nm) (snd nm) (cos_ d) * rho_ d ^ (fst nm))))%C).
    rewrite (osum_some _ _ F).
    + cbn [bind]. f_equal. rewrite Cplus_0_l. apply half_sum; auto. intros n m L. unfold F, wl. cbn [fst snd]. rewrite Rmult_1_l. reflexivity.
    + intros [n m] Hi. apply nm_in in Hi. unfold l_eval_term. rewrite C11_table_values by (try (apply cos_range; auto); lia). cbn [bind]. rewrite get_some by auto. cbn [bind]. f_equal.
      unfold F, at_. cbn [fst snd]. destruct m as [|m].
      * change (Nat.eqb 0 0) with true. cbv iota. simpl INR. rewrite Rmult_0_l, cis_0. ring.
      * change (Nat.eqb (S m) 0) with false. cbv iota. ring.
Qed.
Lemma m_eval_ok e x : (e_p e <= 20)%nat -> x <> e_center e -> sound e ->
  m_evaluate e x = Some (fst (full (at_ e) (wm (psub x (e_center e))) (psub x (e_center e)) (e_p e))).
Proof.
  intros Lp Nx So. unfold m_evaluate. destruct (e_zero e) eqn:Z.
  - rewrite (full_ext _ (fun _ _ => RtoC 0)) by (apply So; auto). rewrite full_zero. reflexivity.
  - apply rho_sub in Nx. rewrite spher_some by auto. cbn [bind]. set (d := psub x (e_center e)) in *.
    set (F := fun nm : nat * nat => (at_ e (fst nm) (snd nm) * (RtoC (if Nat.eqb (snd nm) 0 then 1 else 2) * cis (INR (snd nm) * beta_ d) * RtoC (Plm (fst nm) (snd nm) (cos_ d) * / rho_ d ^ (fst nm + 1))))%C).
    rewrite (osum_some _ _ F).
    + cbn [bind]. f_equal. rewrite Cplus_0_l. apply half_sum; auto. intros n m L. unfold F, wm. cbn [fst snd]. replace (Plm n m (cos_ d) * / rho_ d ^ (n + 1)) with (/ rho_ d ^ (2 * n + 1) * (Plm n m (cos_ d) * rho_ d ^ n)); [reflexivity|].
      replace (2 * n + 1)%nat with (n + (n + 1))%nat by lia. rewrite pow_add. field. split; apply pow_nonzero; auto.
    + intros [n m] Hi. apply nm_in in Hi. unfold m_eval_term. rewrite C11_table_values by (try (apply cos_range; auto); lia). cbn [bind]. rewrite get_some by auto. cbn [bind]. f_equal.
      unfold F, at_. cbn [fst snd]. destruct m as [|m].
      * change (Nat.eqb 0 0) with true. cbv iota. simpl INR. rewrite Rmult_0_l, cis_0. ring.
      * change (Nat.eqb (S m) 0) with false. cbv iota. ring.
Qed.

(** ** Local to local *)
Section L2L.
Variables (g : nat -> nat -> C) (D : pt) (p : nat).
Definition Lam (n : nat) (m : Z) : C :=
  csum (seq n (p + 1 - n)) (fun nn => csum (sym_range nn) (fun mm => (lam g nn mm * H (pneg D) (nn - n) (mm - m))%C)).
Lemma Lam_conj n m : Cconj (Lam n m) = (RtoC (sgz m) * Lam n (- m))%C.
Proof.
  unfold Lam. rewrite conj_csum, <- csum_scal. apply csum_ext. intros nn _. rewrite conj_csum, <- csum_scal.
  rewrite <- (sym_rev nn (fun mm => (RtoC (sgz m) * (lam g nn mm * H (pneg D) (nn - n) (mm - - m)))%C)). apply csum_ext. intros mm _.
  rewrite Cconj_mult, lam_conj, H_conj. replace (- mm - - m)%Z with (- (mm - m))%Z by lia.
  assert (E : sgz mm * sgz (mm - m) = sgz m).
  { rewrite <- sgz_add. replace (mm + (mm - m))%Z with (- m + (mm + mm))%Z by lia. rewrite sgz_add, sgz_neg, sgz_add, sgz_sq. ring. }
  rewrite <- E, RtoC_mult. ring.
Qed.
End L2L.
Lemma l2l_coeff_ok other D p n m : rho_ D <> 0 -> (p <= e_p other)%nat -> (p <= 10)%nat -> (m <= n <= p)%nat ->
  l2l_coeff other (rho_ D) (cos_ D) (beta_ D) p n m = Some (RtoC (aa n m * ((-1) ^ n * sigma (Z.of_nat m))) * Lam (at_ other) D p n (Z.of_nat m))%C.
Proof.
  intros N Lp L10 L.
  set (term := fun nn (mm : Z) => (RtoC (aa n m * ((-1) ^ n * sigma (Z.of_nat m))) * (lam (at_ other) nn mm * H (pneg D) (nn - n) (mm - Z.of_nat m)))%C).
  assert (Tm : forall nn mm, (n <= nn <= p)%nat -> (Z.abs mm <= Z.of_nat nn)%Z -> l2l_term other (rho_ D) (cos_ D) (beta_ D) n m nn mm = Some (term nn mm)).
  { intros nn mm L1 L2. unfold l2l_term. cbv zeta. unfold term. set (j := (mm - Z.of_nat m)%Z). destruct (Nat.ltb_spec (nn - n) (absn j)) as [G|G].
    - rewrite (H_support (pneg D)) by (unfold absn in G; lia). f_equal. ring.
    - rewrite get_some by (unfold absn in *; lia). cbn [bind]. rewrite C11_table_values by (try (apply cos_range; auto); unfold absn in *; lia). cbn [bind].
      unfold l2l_table. fold j. destruct (Nat.ltb_spec n 11) as [_|?]; [|lia]. destruct (Nat.ltb_spec m (n + 1)) as [_|?]; [|lia]. destruct (Nat.leb_spec n nn) as [_|?]; [|lia].
      destruct (Nat.ltb_spec nn 11) as [_|?]; [|lia]. destruct (Nat.leb_spec (absn mm) nn) as [Lm|Lm]; [|unfold absn in Lm; lia]. cbn [andb].
      rewrite !A_ok by (unfold absn in *; lia). cbn [bind]. unfold rdiv. destruct (Req_EM_T (aa nn (absn mm)) 0) as [E|_]; [destruct (aa_nz _ _ E)|]. cbn [bind]. f_equal.
      change (fst (e_coeffs other (tri nn (absn mm))), IZR (GSL_SIGN mm) * snd (e_coeffs other (tri nn (absn mm)))) with (ext (at_ other) nn mm).
      assert (E2 := aa_H D (nn - n) j N). assert (Sg := sigma_add j (Z.of_nat m)). replace (j + Z.of_nat m)%Z with mm in Sg by (unfold j; lia).
      rewrite (Z.abs_eq (Z.of_nat m)) in Sg by lia. rewrite H_neg. set (Rp := re_pow_i _) in *. unfold lam.
      set (P := Plm (nn - n) (absn j) (cos_ D)) in *.
      transitivity (ext (at_ other) nn mm * RtoC (/ aa nn (absn mm) * aa n m * (Rp * (-1) ^ (nn + n))) * (RtoC (aa (nn - n) (absn j) * (P * rho_ D ^ (nn - n))) * cis (IZR j * beta_ D)))%C.
      { transitivity (ext (at_ other) nn mm * cis (IZR j * beta_ D) * (RtoC (/ aa nn (absn mm) * aa n m * (Rp * (-1) ^ (nn + n))) * RtoC (aa (nn - n) (absn j) * (P * rho_ D ^ (nn - n)))))%C; [|ring].
        rewrite <- RtoC_mult. f_equal. f_equal. field. apply aa_nz. }
      rewrite E2. set (h := H D (nn - n) j). set (x := ext (at_ other) nn mm).
      transitivity (RtoC ((/ aa nn (absn mm) * aa n m * (Rp * (-1) ^ (nn + n))) * ((-1) ^ (nn - n) * sigma j)) * (x * h))%C; [rewrite (RtoC_mult (/ aa nn (absn mm) * aa n m * (Rp * (-1) ^ (nn + n)))); ring|].
      transitivity (RtoC ((aa n m * ((-1) ^ n * sigma (Z.of_nat m))) * ((-1) ^ nn * sigma mm / aa nn (absn mm)) * (-1) ^ (nn - n)) * (x * h))%C; [|rewrite !RtoC_mult; ring].
      f_equal. f_equal.
      assert (Sg2 : Rp * sigma j = sigma mm * sigma (Z.of_nat m)).
      { rewrite <- Sg. transitivity (Rp * sigma j * (sigma (Z.of_nat m) * sigma (Z.of_nat m))); [rewrite sigma_sq; ring|ring]. }
      rewrite pow_add. transitivity (/ aa nn (absn mm) * aa n m * ((-1) ^ nn * (-1) ^ n) * (-1) ^ (nn - n) * (Rp * sigma j)); [ring|]. rewrite Sg2. field. apply aa_nz. }
  unfold l2l_coeff. rewrite (osum_some _ _ (fun nn => (0 + csum (sym_range nn) (term nn))%C)).
  - f_equal. rewrite Cplus_0_l. unfold Lam. rewrite <- csum_scal. apply csum_ext. intros nn _. rewrite Cplus_0_l, <- csum_scal. reflexivity.
  - intros nn Hn. apply in_seq in Hn. apply osum_some. intros mm Hm. apply sym_in in Hm. apply Tm; lia.
Qed.
(** a table given by conjugate-symmetric functions has them as symmetric coefficients *)
Lemma lam_of g (L : nat -> Z -> C) n l : (forall m, (m <= n)%nat -> g n m = (RtoC (aa n m * ((-1) ^ n * sigma (Z.of_nat m))) * L n (Z.of_nat m))%C) ->
  (forall j, Cconj (L n j) = (RtoC (sgz j) * L n (- j)%Z)%C) -> (Z.abs l <= Z.of_nat n)%Z -> lam g n l = L n l.
Proof.
  intros G Cj Ll. assert (Q : forall m, (0 < m <= n)%nat -> lam g n (Z.of_nat m) = L n (Z.of_nat m)).
  { intros m L1. unfold lam. replace (absn (Z.of_nat m)) with m by (unfold absn; lia). rewrite ext_pos by lia. rewrite G by lia. rewrite Cmult_assoc, <- RtoC_mult.
    replace ((-1) ^ n * sigma (Z.of_nat m) / aa n m * (aa n m * ((-1) ^ n * sigma (Z.of_nat m)))) with (((-1) ^ n * (-1) ^ n) * (sigma (Z.of_nat m) * sigma (Z.of_nat m))) by (field; apply aa_nz).
    rewrite m1_sq, sigma_sq, Rmult_1_l. ring. }
  destruct (Z.lt_trichotomy l 0) as [S|[S|S]].
  - assert (E := Q (absn l) ltac:(unfold absn; lia)). replace (Z.of_nat (absn l)) with (- l)%Z in E by (unfold absn; lia).
    assert (E' := f_equal Cconj E). rewrite lam_conj, Cj, Z.opp_involutive in E'. apply Ceq_reg_l in E'; [auto|]. apply rC_nz. intros Z. assert (W := sgz_sq (- l)). rewrite Z in W. lra.
  - subst l. unfold lam. change (absn 0) with 0%nat. rewrite ext_0. assert (E := G 0%nat ltac:(lia)). change (Z.of_nat 0) with 0%Z in E. change (sigma 0) with 1 in *.
    assert (R0 : Cconj (L n 0%Z) = L n 0%Z). { rewrite Cj. change (- 0)%Z with 0%Z. change (sgz 0) with 1. ring. }
    apply real_pair in R0. rewrite R0, <- RtoC_mult in E. rewrite E. rewrite R0. rewrite <- RtoC_mult. f_equal. cbn [fst RtoC].
    transitivity ((-1) ^ n * (-1) ^ n * fst (L n 0%Z)); [|rewrite m1_sq; ring]. field. apply aa_nz.
  - replace l with (Z.of_nat (absn l)) by (unfold absn; lia). apply Q. unfold absn. lia.
Qed.
(** swapping a triangular sum *)
Lemma tri_swap p (f : nat -> nat -> C) :
  csum (seq 0 (p + 1)) (fun n => csum (seq n (p + 1 - n)) (fun k => f n k)) = csum (seq 0 (p + 1)) (fun k => csum (seq 0 (k + 1)) (fun n => f n k)).
Proof.
  assert (A : forall n, (n <= p)%nat -> csum (seq n (p + 1 - n)) (fun k => f n k) = csum (seq 0 (p + 1)) (fun k => if Nat.leb n k then f n k else RtoC 0)).
  { intros n L. replace (p + 1)%nat with (n + (p + 1 - n))%nat at 2 by lia. rewrite seq_app, csum_app. rewrite (csum_zero (seq 0 n)).
    - rewrite Cplus_0_l. cbn [plus]. apply csum_ext. intros k Hk. apply in_seq in Hk. destruct (Nat.leb_spec n k); [reflexivity|lia].
    - intros k Hk. apply in_seq in Hk. destruct (Nat.leb_spec n k); [lia|reflexivity]. }
  assert (B : forall k, (k <= p)%nat -> csum (seq 0 (k + 1)) (fun n => f n k) = csum (seq 0 (p + 1)) (fun n => if Nat.leb n k then f n k else RtoC 0)).
  { intros k L. replace (p + 1)%nat with (k + 1 + (p - k))%nat by lia. rewrite (seq_app (k + 1)), csum_app. rewrite (csum_zero (seq (0 + (k + 1)) _)).
    - rewrite Cplus_0_r. apply csum_ext. intros n Hn. apply in_seq in Hn. destruct (Nat.leb_spec n k); [reflexivity|lia].
    - intros n Hn. apply in_seq in Hn. destruct (Nat.leb_spec n k); [lia|reflexivity]. }
  rewrite (csum_ext (seq 0 (p + 1)) _ _ (fun n Hn => A n ltac:(apply in_seq in Hn; lia))). rewrite csum_swap. apply csum_ext. intros k Hk. apply in_seq in Hk. symmetry. apply B. lia.
Qed.
Lemma L2L_full (g g' : nat -> nat -> C) D d p : (forall n m, (m <= n <= p)%nat -> g' n m = (RtoC (aa n m * ((-1) ^ n * sigma (Z.of_nat m))) * Lam g D p n (Z.of_nat m))%C) ->
  full g' (fun _ => 1) d p = full g (fun _ => 1) (padd3 d (pneg D)) p.
Proof.
  intros G. unfold full.
  rewrite (csum_ext _ _ (fun n => csum (seq n (p + 1 - n)) (fun nn => csum (sym_range nn) (fun mm => (lam g nn mm * csum (sym_range n) (fun l => H d n l * H (pneg D) (nn - n) (mm - l)))%C)))).
  2:{ intros n Hn. apply in_seq in Hn. rewrite Cmult_1_l.
      rewrite (csum_ext (sym_range n) _ (fun l => (csum (seq n (p + 1 - n)) (fun nn => csum (sym_range nn) (fun mm => (lam g nn mm * (H d n l * H (pneg D) (nn - n) (mm - l)))%C))))).
      - rewrite csum_swap. apply csum_ext. intros nn _. rewrite csum_swap. apply csum_ext. intros mm _. apply csum_scal.
      - intros l Hl. apply sym_in in Hl. rewrite (lam_of g' (Lam g D p) n l) by (try (intros; apply G; lia); try (intros; apply Lam_conj); lia).
        unfold Lam. rewrite Cmult_comm, <- csum_scal. apply csum_ext. intros nn _. rewrite <- csum_scal. apply csum_ext. intros mm _. ring. }
  rewrite tri_swap. apply csum_ext. intros k _. rewrite Cmult_1_l. rewrite csum_swap. apply csum_ext. intros mm _. rewrite csum_scal, H_add. reflexivity.
Qed.
