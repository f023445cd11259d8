(** * Values of multipole expansions, and of local expansions converted from multipoles, in terms of the moments. *)
From Coq Require Import ZArith List Reals Lia Lra Bool.
From Coquelicot Require Import Coquelicot.
From Verif Require Import ModelLegendre ModelLegApi ModelExp SpecLegendre ProofsLegendre ProofsLegCheck PropLegendre ProofsHarm ProofsHarm2 ProofsHarm3 SpecExp ProofsExp ProofsExp2 ProofsExp3 ProofsExp4 ProofsAcc1 ProofsAcc2 ProofsAcc3 ProofsAcc4 ProofsAcc5.
Import ListNotations.
Local Open Scope R_scope.

Lemma aa_cw n l : (Z.abs l <= Z.of_nat n)%Z -> aa n (absn l) * aa n (absn l) * cw n l = 1.
Proof.
  intros L. unfold aa. set (s := sqrt _). assert (P : 0 < INR (fact (n - absn l)) * INR (fact (n + absn l))) by (apply Rmult_lt_0_compat; apply fact_pos).
  assert (S0 : 0 < s) by (apply sqrt_lt_R0; auto). assert (SS : s * s = INR (fact (n - absn l)) * INR (fact (n + absn l))) by (apply sqrt_sqrt; lra).
  replace (cw n l) with (s * s); [transitivity ((-1) ^ n * (-1) ^ n); [field; lra|apply m1_sq]|]. rewrite SS. unfold cw.
  destruct (Z.leb_spec 0 l).
  - replace (n - absn l)%nat with (Z.to_nat (Z.of_nat n - l)) by (unfold absn; lia). replace (n + absn l)%nat with (Z.to_nat (Z.of_nat n + l)) by (unfold absn; lia). reflexivity.
  - replace (n - absn l)%nat with (Z.to_nat (Z.of_nat n + l)) by (unfold absn; lia). replace (n + absn l)%nat with (Z.to_nat (Z.of_nat n - l)) by (unfold absn; lia). ring.
Qed.
Lemma cw_neg n l : cw n (- l) = cw n l.
Proof. unfold cw. replace (Z.of_nat n - - l)%Z with (Z.of_nat n + l)%Z by lia. replace (Z.of_nat n + - l)%Z with (Z.of_nat n - l)%Z by lia. ring. Qed.
Definition csym (mu : nat -> Z -> C) : Prop := forall k l, Cconj (mu k l) = (RtoC (sgz l) * mu k (- l)%Z)%C.
Lemma csym_neg mu k l : csym mu -> mu k (- l)%Z = (RtoC (sgz l) * Cconj (mu k l))%C.
Proof. intros Cj. rewrite (Cj k l), Cmult_assoc, <- RtoC_mult, sgz_sq. ring. Qed.
Lemma ext_mom p g mu k l : csym mu -> moments p g mu -> (k <= p)%nat -> (Z.abs l <= Z.of_nat k)%Z ->
  ext g k l = (RtoC (aa k (absn l) * ((-1) ^ k * sigma l)) * (cC k l * Cconj (mu k l)))%C.
Proof.
  intros Cj [Mo _] Lk Ll. assert (E := Mo k l Lk Ll). apply (Ceq_reg_l (RtoC (aa k (absn l)))); [apply aaC_nz|]. rewrite E, (csym_neg mu k l Cj).
  unfold cC. transitivity (RtoC ((-1) ^ k * sigma (- l) * sgz l) * Cconj (mu k l))%C; [rewrite (RtoC_mult _ (sgz l)); ring|].
  transitivity (RtoC (aa k (absn l) * aa k (absn l) * cw k l * ((-1) ^ k * sigma l)) * Cconj (mu k l))%C; [|rewrite !RtoC_mult; ring].
  rewrite aa_cw by auto. f_equal. f_equal. rewrite <- (sgz_sigma l). transitivity ((-1) ^ k * sigma l * (sigma (- l) * sigma (- l))); [ring|]. rewrite sigma_sq. ring.
Qed.
Lemma lam_mom p g mu k l : csym mu -> moments p g mu -> (k <= p)%nat -> (Z.abs l <= Z.of_nat k)%Z -> lam g k l = (cC k l * Cconj (mu k l))%C.
Proof.
  intros Cj Mo Lk Ll. unfold lam. rewrite (ext_mom p g mu k l) by auto. rewrite Cmult_assoc, <- RtoC_mult.
  replace ((-1) ^ k * sigma l / aa k (absn l) * (aa k (absn l) * ((-1) ^ k * sigma l))) with (((-1) ^ k * (-1) ^ k) * (sigma l * sigma l)) by (field; apply aa_nz).
  rewrite m1_sq, sigma_sq, Rmult_1_l. ring.
Qed.
Lemma fst_rsum {A} (l : list A) f : fst (csum l f) = rsum l (fun a => fst (f a)).
Proof. induction l as [|a l IH]; [reflexivity|]. cbn. rewrite IH. reflexivity. Qed.
(** the value of a multipole expansion *)
Lemma full_mom p g mu d : csym mu -> moments p g mu -> fst (full g (wm d) d p) = rsum (seq 0 (p + 1)) (fun n => tm d n (mu n)).
Proof.
  intros Cj Mo. unfold full. rewrite fst_rsum. apply rsum_ext. intros n Hn. apply in_seq in Hn. rewrite fst_scal. unfold tm, wm, ip, Rdiv. rewrite Rmult_comm. f_equal. f_equal.
  apply csum_ext. intros l Hl. apply sym_in in Hl. rewrite (lam_mom p g mu) by (auto; lia). ring.
Qed.

(** ** Conversion of a multipole to a local expansion *)
Section M2L.
Variables (mu : nat -> Z -> C) (D : pt) (p : nat).
Hypothesis mu_sym : csym mu.
Definition Lc (n : nat) (m : Z) : C :=
  csum (seq 0 (p + 1)) (fun k => csum (sym_range k) (fun j => (RtoC ((-1) ^ k / rho_ D ^ (2 * (n + k) + 1)) * (mu k (- j)%Z * (cC (n + k) (m - j)%Z * Cconj (H D (n + k) (m - j)%Z))))%C)).
Lemma Lc_conj n m : Cconj (Lc n m) = (RtoC (sgz m) * Lc n (- m)%Z)%C.
Proof.
  unfold Lc. rewrite conj_csum, <- csum_scal. apply csum_ext. intros k _. rewrite conj_csum, <- csum_scal.
  rewrite <- (sym_rev k (fun j => (RtoC (sgz m) * (RtoC ((-1) ^ k / rho_ D ^ (2 * (n + k) + 1)) * (mu k (- j)%Z * (cC (n + k) (- m - j)%Z * Cconj (H D (n + k) (- m - j)%Z)))))%C)).
  apply csum_ext. intros j _. rewrite !Cconj_mult, Cconj_R. unfold cC. rewrite Cconj_R. rewrite (mu_sym k (- j)%Z).
  replace (- m - - j)%Z with (- (m - j))%Z by lia. rewrite cw_neg.
  assert (Q : Cconj (H D (n + k) (- (m - j))%Z) = (RtoC (sgz (m - j)) * H D (n + k) (m - j)%Z)%C) by (rewrite H_conj, sgz_neg, Z.opp_involutive; reflexivity).
  rewrite Q. replace (Cconj (Cconj (H D (n + k) (m - j)%Z))) with (H D (n + k) (m - j)%Z) by (apply Ceq; cbn; ring).
  assert (E : sgz (- j) = sgz m * sgz (m - j)).
  { rewrite <- sgz_add. replace (m + (m - j))%Z with (- j + (m + m))%Z by lia. rewrite sgz_add, sgz_add, sgz_sq. ring. }
  rewrite E, (RtoC_mult (sgz m)). ring.
Qed.
Lemma m2l_coeff_ok other n m : moments (e_p other) (at_ other) mu -> (forall k, (k <= e_p other)%nat -> Cconj (at_ other k 0) = at_ other k 0%nat) ->
  rho_ D <> 0 -> (p <= e_p other)%nat -> (p <= 10)%nat -> (m <= n <= p)%nat ->
  m2l_coeff other (rho_ D) (cos_ D) (beta_ D) p n m = Some (RtoC (aa n m * ((-1) ^ n * sigma (Z.of_nat m))) * Lc n (Z.of_nat m))%C.
Proof.
  intros Mo R0 N Lp L10 L. set (mz := Z.of_nat m).
  set (term := fun k (j : Z) => (RtoC (aa n m * ((-1) ^ n * sigma mz)) * (RtoC ((-1) ^ k / rho_ D ^ (2 * (n + k) + 1)) * (mu k (- j)%Z * (cC (n + k) (mz - j)%Z * Cconj (H D (n + k) (mz - j)%Z)))))%C).
  assert (Tm : forall nn mm, (nn <= p)%nat -> (Z.abs mm <= Z.of_nat nn)%Z -> m2l_term other (rho_ D) (cos_ D) (beta_ D) n m nn mm = Some (term nn mm)).
  { intros nn mm L1 L2. unfold m2l_term. cbv zeta. fold mz. rewrite get_some by (unfold absn; lia). cbn [bind].
    assert (Ea : ((if (mm <? 0)%Z then (fst (e_coeffs other (tri nn (absn mm))), - snd (e_coeffs other (tri nn (absn mm)))) else e_coeffs other (tri nn (absn mm))) : C) = ext (at_ other) nn mm).
    { destruct (Z.ltb_spec mm 0) as [S0|S0].
      - unfold ext, GSL_SIGN. destruct (Z.ltb_spec mm 0); [|lia]. unfold at_. apply Ceq; cbn; ring.
      - destruct (Z.eq_dec mm 0) as [->|Ne].
        + change (absn 0) with 0%nat. rewrite ext_0. change (e_coeffs other (tri nn 0)) with (at_ other nn 0). apply real_pair. apply R0. lia.
        + replace (ext (at_ other) nn mm) with (ext (at_ other) nn (Z.of_nat (absn mm))) by (f_equal; unfold absn; lia). rewrite ext_pos by (unfold absn; lia). reflexivity. }
    rewrite Ea. clear Ea. set (j := (mm - mz)%Z).
    rewrite C11_table_values by (try (apply cos_range; auto); unfold absn, j, mz; lia). cbn [bind].
    unfold m2l_table. fold mz. destruct (Nat.ltb_spec n 11) as [_|?]; [|lia]. destruct (Nat.ltb_spec m (n + 1)) as [_|?]; [|lia].
    destruct (Nat.ltb_spec nn 11) as [_|?]; [|lia]. destruct (Nat.leb_spec (absn mm) nn) as [Lm|Lm]; [|unfold absn in Lm; lia]. cbn [andb].
    replace (absn (mz - mm)) with (absn j) by (unfold absn, j; lia).
    rewrite !A_ok by (unfold absn, j, mz; lia). cbn [bind]. unfold rdiv. destruct (Req_EM_T (aa (n + nn) (absn j)) 0) as [E|_]; [destruct (aa_nz _ _ E)|]. cbn [bind]. f_equal.
    rewrite (ext_mom (e_p other) (at_ other) mu) by (auto; lia).
    replace (nn + n)%nat with (n + nn)%nat by lia.
    assert (E2 := harm_term D (n + nn) j N). set (P := Plm (n + nn) (absn j) (cos_ D)) in *. set (Rp := re_pow_i _).
    assert (Sg := sigma_add mz (- mm)). replace (mz + - mm)%Z with (mz - mm)%Z in Sg by lia. rewrite Z.abs_opp, (Z.abs_eq mz) in Sg by (unfold mz; lia). fold Rp in Sg.
    replace (mz - mm)%Z with (- j)%Z in Sg by (unfold j; lia).
    unfold term. replace (mz - mm)%Z with (- j)%Z by (unfold j; lia). rewrite (H_conj D (n + nn) (- j)), sgz_neg, Z.opp_involutive. rewrite (csym_neg mu nn mm mu_sym).
    unfold cC. rewrite cw_neg.
    set (h := H D (n + nn) j) in *. set (cm := Cconj (mu nn mm)).
    assert (A1 := aa_cw nn mm L2). assert (A2 := aa_cw (n + nn) j ltac:(unfold j, mz; lia)).
    assert (Rr : rho_ D ^ (n + nn) * / rho_ D ^ (2 * (n + nn) + 1) = / rho_ D ^ (n + nn + 1)).
    { replace (2 * (n + nn) + 1)%nat with ((n + nn) + (n + nn + 1))%nat by lia. rewrite (pow_add _ (n + nn)). field. split; apply pow_nonzero; auto. }
    assert (M1 := m1_sq nn). assert (Nz : (-1) ^ nn <> 0) by (apply pow_nonzero; lra).
    assert (Sg2 : Rp * (sigma mm * sigma j) = sigma mz * (sgz mm * sgz j)).
    { assert (Q1 := sgz_sigma mm). assert (Q2 := sgz_sigma j). assert (Q3 := sigma_sq (- mm)). assert (Q4 := sigma_sq mz). assert (Q5 := sigma_sq j). rewrite <- Q1, <- Q2, <- Sg.
      transitivity (Rp * (sigma mm * sigma j) * ((sigma mz * sigma mz) * (sigma (- mm) * sigma (- mm)))); [rewrite Q3, Q4; ring|]. ring. }
    transitivity (RtoC (aa nn (absn mm) * ((-1) ^ nn * sigma mm) * cw nn mm * (aa nn (absn mm) / aa (n + nn) (absn j) * aa n m * (Rp / (-1) ^ nn)) * / rho_ D ^ (2 * (n + nn) + 1)) * cm * (RtoC (P * rho_ D ^ (n + nn)) * cis (IZR j * beta_ D)))%C.
    { rewrite <- Rr. rewrite !RtoC_mult. ring. }
    rewrite E2. set (r := / rho_ D ^ (2 * (n + nn) + 1)).
    transitivity (RtoC (aa n m * (-1) ^ (n + nn) * cw (n + nn) j * r * (Rp * (sigma mm * sigma j))) * (cm * h))%C.
    - transitivity (RtoC (aa nn (absn mm) * ((-1) ^ nn * sigma mm) * cw nn mm * (aa nn (absn mm) / aa (n + nn) (absn j) * aa n m * (Rp / (-1) ^ nn)) * r * ((-1) ^ (n + nn) * sigma j / aa (n + nn) (absn j))) * (cm * h))%C; [rewrite (RtoC_mult _ ((-1) ^ (n + nn) * sigma j / aa (n + nn) (absn j))); ring|].
      f_equal. f_equal. 
      transitivity ((aa nn (absn mm) * aa nn (absn mm) * cw nn mm) * aa n m * (-1) ^ (n + nn) * (/ (aa (n + nn) (absn j) * aa (n + nn) (absn j))) * r * (Rp * (sigma mm * sigma j))).
      + assert (Za := aa_nz (n + nn) (absn j)). field. auto.
      + rewrite A1. replace (/ (aa (n + nn) (absn j) * aa (n + nn) (absn j))) with (cw (n + nn) j); [ring|].
        assert (Za := aa_nz (n + nn) (absn j)). apply (Rmult_eq_reg_l (aa (n + nn) (absn j) * aa (n + nn) (absn j))); [|nra]. rewrite A2. field. auto.
    - rewrite Sg2. unfold Rdiv. fold r. rewrite pow_add, !RtoC_mult. ring. }
  unfold m2l_coeff. rewrite (osum_some _ _ (fun nn => (0 + csum (sym_range nn) (term nn))%C)).
  - f_equal. rewrite Cplus_0_l. unfold Lc. rewrite <- csum_scal. apply csum_ext. intros nn _. rewrite Cplus_0_l, <- csum_scal. reflexivity.
  - intros nn Hn. apply in_seq in Hn. apply osum_some. intros mm Hm. apply sym_in in Hm. apply Tm; lia.
Qed.
End M2L.
