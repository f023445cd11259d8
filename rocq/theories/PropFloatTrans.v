(** * C94: accuracy of the translations, conversions and evaluations of expansions *)
From Coq Require Import ZArith Reals List Lia Lra Bool Arith.
From Flocq Require Import Core.
From Verif Require Import ModelLegendre ModelLegTable ModelLegApi ModelExp SpecExp ProofsExp LibSum ModelFmm ModelFloat SpecFloat ProofsFloat ModelFloatExp SpecFloatExp LibFlx ProofsFloatExp PropFloat PropFloatExp PropFloatExp2 PropFloatExp3 ModelFloatExp2 PropFloatExp4 PropFloatExp5 SpecFloatTrans ProofsFloatTrans ProofsFloatTrans2.
Import ListNotations.
Local Open Scope R_scope.

Section Calls.
  Variable u : R.
  Variable M : fmath.
  Variable pow_i : Z -> R.
  Hypothesis HR : relative_math u M pow_i.
  Notation ap2 := (ap2 u).
  Notation near := (near u).
  (** what a finished sum or loop says about its terms *)
  Lemma fsum_start_none {T : Type} (l : list T) g : fsum M l g None = None. Proof. unfold fsum. induction l; auto. Qed.
  Lemma fsum_terms {T : Type} (l : list T) g : forall z z', fsum M l g z = Some z' -> forall a, In a l -> g a <> None.
  Proof.
    induction l as [|b l IH]; intros z z' E a I; [destruct I|]. unfold fsum in E. cbn [fold_left] in E. destruct I as [->|I].
    - intros N. rewrite N in E. assert (Q := fsum_start_none l g). unfold fsum in Q. destruct z; cbn [lbind] in E; rewrite Q in E; discriminate.
    - eapply IH; [exact E|exact I].
  Qed.
  Lemma floop_terms p f C C' n m : fadd_loop M p f C = Some C' -> (m <= n <= p)%nat -> exists t, f n m = Some t.
  Proof.
    intros E L. apply nm_in in L. unfold fadd_loop in E. revert E. generalize (Some C). induction (nm_pairs p) as [|[n0 m0] l IH]; intros z E; [destruct L|]. cbn [fold_left fst snd] in E. destruct L as [X|L].
    - inversion X; subst. destruct (f n m) as [t|]; [eauto|]. exfalso. destruct z; cbn [lbind] in E; (assert (Q : forall l', fold_left (fun o (nm : nat * nat) => lbind o (fun C0 => lbind (f (fst nm) (snd nm)) (fun a => Some (fun i => if Nat.eqb i (tri (fst nm) (snd nm)) then fcadd M (C0 i) a else C0 i)))) l' None = None) by (intros l'; induction l'; auto)); rewrite Q in E; discriminate.
    - exact (IH L _ E).
  Qed.
  (** a coefficient computed by two nested loops with skipped terms *)
  Lemma fsum2_ap (keep : nat * Z -> bool) (S x : nat * Z -> R * R) k l inner g z :
    fsum2 M l inner g = Some z ->
    (forall n m, In n l -> In m (inner n) -> if keep (n, m) then forall o, g n m = Some o -> exists t, o = Some t /\ ap2 k (S (n, m)) (x (n, m)) t else g n m = Some None) ->
    ap2 (k + length (flat_map (fun n => map (pair n) (inner n)) l)) (csum (filter keep (flat_map (fun n => map (pair n) (inner n)) l)) S) (csum (filter keep (flat_map (fun n => map (pair n) (inner n)) l)) x) z.
  Proof.
    intros E F. rewrite fsum2_flat in E. set (L := flat_map (fun n => map (pair n) (inner n)) l) in *.
    assert (T := fsum_terms L _ _ _ E).
    destruct (fsum_ap u M pow_i HR keep S x k (fun nm => g (fst nm) (snd nm)) L) with (j := 0%nat) (Z := (0, 0)) (z := (0, 0)) (zh := (0, 0)) as (z' & E' & Q).
    - intros [n m] I. cbn [fst snd]. assert (J := I). unfold L in J. apply in_flat_map in J. destruct J as (n' & I1 & I2). apply in_map_iff in I2. destruct I2 as (m' & X & I2). inversion X; subst n' m'.
      assert (W := F n m I1 I2). specialize (T _ I). cbn [fst snd] in T. destruct (keep (n, m)); [|exact W]. destruct (g n m) as [o|]; [|contradiction]. destruct (W o eq_refl) as (t & -> & N). eauto.
    - eapply (ap2_weak u M pow_i HR); [|split; apply (ap_zero u)]. lia.
    - rewrite E in E'. inversion E'; subst z'. rewrite !rplus2_0l in Q. rewrite Nat.add_0_r in Q. exact Q.
  Qed.
  Lemma fget_in e n m : (m <= n <= e_p e)%nat -> fget e n m = Some (e_coeffs e (tri n m)).
  Proof. intros L. unfold fget. destruct (Nat.ltb_spec (tri n m) (size (e_p e))) as [_|B]; [reflexivity|]. assert (Q := tri_size n m _ L). lia. Qed.
  Lemma sym_in k mm : In mm (sym_range k) -> (absn mm <= k)%nat.
  Proof. unfold sym_range, zrange, absn. rewrite in_map_iff. intros (i & <- & I). apply in_seq in I. lia. Qed.
  Lemma filter_all {T : Type} (l : list T) : filter (fun _ => true) l = l. Proof. induction l as [|a l IH]; [reflexivity|]. cbn [filter]. rewrite IH. reflexivity. Qed.
  Lemma near0 x : near 0 x x. Proof. exact (near_0 u M pow_i HR x). Qed.
  (** source times exponential, times a real number *)
  Lemma term_ap j k a ah w r rh : near j (fst a) (fst ah) /\ near j (snd a) (snd ah) -> near k r rh -> ap2 (j + k + 3) (csize a w r) (cterm a w r) (fcmulr M (fcmul M ah w) rh).
  Proof.
    intros Na Nr. assert (Q := ap2_scale u M pow_i HR _ _ _ _ _ _ _ (ap2_mul u M pow_i HR j a ah w Na) Nr). cbn [fst snd] in Q.
    replace (j + k + 3)%nat with (S (j + 2 + k)) by lia. exact Q.
  Qed.
  Lemma term_ap' j k a ah w r rh : near j (fst a) (fst ah) /\ near j (snd a) (snd ah) -> near k r rh ->
    ap2 (j + k + 3) (csize a w r) (cterm a w r) (@amul (@f_arith (fm_ops M)) rh (fst (fcmul M ah w)), @amul (@f_arith (fm_ops M)) rh (snd (fcmul M ah w))).
  Proof.
    intros Na Nr. destruct (ap2_mul u M pow_i HR j a ah w Na) as (P & Q). cbn [fst snd] in P, Q. unfold csize, cterm. replace (j + k + 3)%nat with (S (k + (j + 2))) by lia.
    split; cbn [fst snd]; (rewrite Rmult_comm; rewrite (Rmult_comm _ r)); apply (ap_mul u M pow_i HR); auto; apply (ap_near u M pow_i HR); exact Nr.
  Qed.
  Lemma sign_near m (g : R * R) : near 1 (fst (fst g, if Z.eqb m 0 then 0 else if Z.ltb m 0 then - snd g else snd g)) (fst g) /\
    near 1 (if Z.eqb m 0 then 0 else if Z.ltb m 0 then - snd g else snd g) (@amul (@f_arith (fm_ops M)) (IZR (GSL_SIGN m)) (snd g)).
  Proof.
    split; [apply (near_up u M pow_i HR 0); [lia|apply near0]|].
    replace (if Z.eqb m 0 then 0 else if Z.ltb m 0 then - snd g else snd g) with (IZR (GSL_SIGN m) * snd g).
    - apply (near_mul u M pow_i HR 0 0); apply near0.
    - unfold GSL_SIGN. destruct (Z.eqb_spec m 0) as [->|N]; [cbn; ring|]. destruct (Z.ltb_spec m 0); [ring|]. destruct (Z.ltb_spec 0 m); [ring|lia].
  Qed.
  (** ** The three translations *)
  Lemma conversion_coeff other rho c beta n m z : (m <= n <= e_p other)%nat -> (e_p other <= 10)%nat -> fm2l_coeff M pow_i other rho c beta (e_p other) n m = Some z ->
    ap2 ((e_p other + 1) * (e_p other + 1) + 8 * e_p other + 19) (conversion_terms csize M other rho c beta n m) (conversion_terms cterm M other rho c beta n m) z.
  Proof.
    intros L L10 E. unfold fm2l_coeff in E. unfold conversion_terms.
    assert (Q := fsum2_ap (fun _ => true) (fun nm => csize (source other (fst nm) (snd nm)) (wave M (snd nm - Z.of_nat m) beta) (legendre M (fst nm + n) (absn (snd nm - Z.of_nat m)) c * fpow M rho (- Z.of_nat n - Z.of_nat (fst nm) - 1) * entry_of (m2l_table n m (fst nm) (snd nm))))
      (fun nm => cterm (source other (fst nm) (snd nm)) (wave M (snd nm - Z.of_nat m) beta) (legendre M (fst nm + n) (absn (snd nm - Z.of_nat m)) c * fpow M rho (- Z.of_nat n - Z.of_nat (fst nm) - 1) * entry_of (m2l_table n m (fst nm) (snd nm)))) (8 * e_p other + 19) _ _ _ _ E).
    rewrite filter_all in Q. eapply (ap2_weak u M pow_i HR); [|apply Q].
    - rewrite flat_length. lia.
    - intros nn mm I J o. apply in_seq in I. apply sym_in in J. unfold fm2l_term. cbn [fst snd]. rewrite fget_in by lia. cbn [lbind]. unfold legendre.
      destruct (fGetAssLegFunSph M (nn + n) (absn (mm - Z.of_nat m)) c) as [P|]; cbn [lbind]; [|discriminate].
      destruct (m2l_near u M pow_i HR n m nn mm ltac:(lia) ltac:(lia) ltac:(lia)) as (t & th & -> & -> & N). cbn [lbind entry_of]. intros X. inversion X. eexists. split; [reflexivity|].
      assert (Nr : near (4 * n + 4 * nn + 14 + 2) (P * fpow M rho (- Z.of_nat n - Z.of_nat nn - 1) * t) (@amul (@f_arith (fm_ops M)) (@amul (@f_arith (fm_ops M)) P (fpow M rho (- Z.of_nat n - Z.of_nat nn - 1))) th)).
      { eapply (near_up u M pow_i HR); [|apply (near_mul u M pow_i HR); [apply (near_mul u M pow_i HR); apply near0|exact N]]. lia. }
      eapply (ap2_weak u M pow_i HR); [|apply term_ap; [|exact Nr]].
      + instantiate (1 := 0%nat). lia.
      + unfold source. destruct (Z.ltb mm 0); split; cbn [fst snd]; apply near0.
  Qed.
  Lemma local_coeff other rho c beta n m z : (m <= n <= e_p other)%nat -> (e_p other <= 10)%nat -> fl2l_coeff M pow_i other rho c beta (e_p other) n m = Some z ->
    ap2 ((e_p other + 1) * (e_p other + 1) + 8 * e_p other + 20) (local_terms csize M other rho c beta n m) (local_terms cterm M other rho c beta n m) z.
  Proof.
    intros L L10 E. unfold fl2l_coeff in E. unfold local_terms.
    assert (Q := fsum2_ap (fun nm => Nat.leb (absn (snd nm - Z.of_nat m)) (fst nm - n)) (fun nm => csize (real_source other (fst nm) (snd nm)) (wave M (snd nm - Z.of_nat m) beta) (legendre M (fst nm - n) (absn (snd nm - Z.of_nat m)) c * fpow M rho (Z.of_nat (fst nm - n)) * entry_of (l2l_table n m (fst nm) (snd nm))))
      (fun nm => cterm (real_source other (fst nm) (snd nm)) (wave M (snd nm - Z.of_nat m) beta) (legendre M (fst nm - n) (absn (snd nm - Z.of_nat m)) c * fpow M rho (Z.of_nat (fst nm - n)) * entry_of (l2l_table n m (fst nm) (snd nm)))) (8 * e_p other + 20) _ _ _ _ E).
    eapply (ap2_weak u M pow_i HR); [|apply Q].
    - assert (B : (length (flat_map (fun n0 => map (pair n0) (sym_range n0)) (seq n (e_p other + 1 - n))) <= (e_p other + 1) * (e_p other + 1))%nat).
      { assert (FL := flat_length (e_p other + 1)). replace (seq 0 (e_p other + 1)) with (seq 0 n ++ seq n (e_p other + 1 - n)) in FL by (change n with (0 + n)%nat at 2; rewrite <- seq_app; f_equal; lia).
        rewrite flat_map_app, app_length in FL. lia. }
      lia.
    - intros nn mm I J. apply in_seq in I. apply sym_in in J. unfold fl2l_term. cbn [fst snd]. destruct (Nat.leb_spec (absn (mm - Z.of_nat m)) (nn - n)) as [K|K].
      + intros o. destruct (Nat.ltb_spec (nn - n) (absn (mm - Z.of_nat m))) as [K'|_]; [lia|]. rewrite fget_in by lia. cbn [lbind]. unfold legendre.
        destruct (fGetAssLegFunSph M (nn - n) (absn (mm - Z.of_nat m)) c) as [P|]; cbn [lbind]; [|discriminate].
        destruct (l2l_near u M pow_i HR n m nn mm ltac:(lia) ltac:(lia) ltac:(lia) K) as (t & th & -> & -> & N). cbn [lbind entry_of]. intros X. inversion X. eexists. split; [reflexivity|].
        assert (Nr : near (4 * nn + 14 + 2) (P * fpow M rho (Z.of_nat (nn - n)) * t) (@amul (@f_arith (fm_ops M)) (@amul (@f_arith (fm_ops M)) P (fpow M rho (Z.of_nat (nn - n)))) th)).
        { eapply (near_up u M pow_i HR); [|apply (near_mul u M pow_i HR); [apply (near_mul u M pow_i HR); apply near0|exact N]]. lia. }
        eapply (ap2_weak u M pow_i HR); [|apply term_ap; [|exact Nr]]; [instantiate (1 := 1%nat); lia|]. exact (sign_near mm (e_coeffs other (tri nn (absn mm)))).
      + destruct (Nat.ltb_spec (nn - n) (absn (mm - Z.of_nat m))) as [_|K']; [reflexivity|lia].
  Qed.
  Lemma multipole_coeff other rho c beta n m z : (m <= n <= e_p other)%nat -> (e_p other <= 20)%nat -> fm2m_coeff M pow_i other rho c beta n m = Some z ->
    ap2 ((e_p other + 1) * (e_p other + 1) + 8 * e_p other + 20) (multipole_terms csize M other rho c beta n m) (multipole_terms cterm M other rho c beta n m) z.
  Proof.
    intros L L20 E. unfold fm2m_coeff in E. unfold multipole_terms.
    set (rf := fun nm : nat * Z => legendre M (fst nm) (absn (snd nm)) c * fpow M rho (Z.of_nat (fst nm)) * entry_of (A_n_m (fst nm) (absn (snd nm))) * entry_of (A_n_m (n - fst nm) (absn (Z.of_nat m - snd nm))) / entry_of (A_n_m n m)
        * re_pow_i (Z.abs (Z.of_nat m) - Z.abs (snd nm) - Z.abs (Z.of_nat m - snd nm))).
    assert (Q := fsum2_ap (fun nm => Nat.leb (absn (Z.of_nat m - snd nm)) (n - fst nm)) (fun nm => csize (real_source other (n - fst nm) (Z.of_nat m - snd nm)) (wave M (- snd nm) beta) (rf nm))
      (fun nm => cterm (real_source other (n - fst nm) (Z.of_nat m - snd nm)) (wave M (- snd nm) beta) (rf nm)) (8 * e_p other + 20) _ _ _ _ E).
    eapply (ap2_weak u M pow_i HR); [|apply Q].
    - rewrite flat_length. assert (W : ((n + 1) * (n + 1) <= (e_p other + 1) * (e_p other + 1))%nat) by (apply Nat.mul_le_mono; lia). lia.
    - intros nn mm I J. apply in_seq in I. apply sym_in in J. unfold fm2m_term. cbn [fst snd]. destruct (Nat.leb_spec (absn (Z.of_nat m - mm)) (n - nn)) as [K|K].
      + intros o. destruct (Nat.ltb_spec (n - nn) (absn (Z.of_nat m - mm))) as [K'|_]; [lia|]. rewrite fget_in by lia. cbn [lbind]. unfold rf, legendre. cbn [fst snd].
        destruct (fGetAssLegFunSph M nn (absn mm) c) as [P|]; cbn [lbind]; [|discriminate]. cbn [entry_of].
        destruct (A_near u M pow_i HR nn (absn mm) ltac:(lia)) as (a1 & -> & N1). destruct (A_near u M pow_i HR (n - nn) (absn (Z.of_nat m - mm)) ltac:(lia)) as (a2 & -> & N2). destruct (A_near u M pow_i HR n m ltac:(lia)) as (a3 & -> & N3).
        destruct (A_exact nn (absn mm) ltac:(lia)) as (-> & Z1). destruct (A_exact (n - nn) (absn (Z.of_nat m - mm)) ltac:(lia)) as (-> & Z2). destruct (A_exact n m ltac:(lia)) as (-> & Z3). cbn [lbind entry_of].
        rewrite (fdiv_nz M _ a3) by (eapply (near_neq u M pow_i HR); eauto). cbn [lbind]. intros X. apply (f_equal (fun x => match x with Some y => y | None => o end)) in X. cbv beta iota in X. rewrite <- opp_IZR in X. fold (wave M (- mm) beta) in X. symmetry in X. eexists. split; [exact X|].
        eapply (ap2_weak u M pow_i HR); [|apply (term_ap' 1); [exact (sign_near (Z.of_nat m - mm) (e_coeffs other (tri (n - nn) (absn (Z.of_nat m - mm)))))|]].
        2:{ apply (near_mul u M pow_i HR); [|apply (powi_near u M pow_i HR), m2m_even]. apply (near_div u M pow_i HR); [exact Z3| |exact N3].
            apply (near_mul u M pow_i HR); [|exact N2]. apply (near_mul u M pow_i HR); [|exact N1]. apply (near_mul u M pow_i HR); apply near0. }
        lia.
      + destruct (Nat.ltb_spec (n - nn) (absn (Z.of_nat m - mm))) as [_|K']; [reflexivity|lia].
  Qed.
  (** ** Values *)
  (** a product of two approximate complex numbers *)
  Lemma pair_ap j k (a ah w wh : R * R) : near j (fst a) (fst ah) /\ near j (snd a) (snd ah) -> near k (fst w) (fst wh) /\ near k (snd w) (snd wh) ->
    ap2 (j + k + 2) (Rabs (fst a * fst w) + Rabs (snd a * snd w), Rabs (fst a * snd w) + Rabs (snd a * fst w)) (fst a * fst w - snd a * snd w, fst a * snd w + snd a * fst w) (fcmul M ah wh).
  Proof.
    intros (P & Q) (P' & Q'). assert (T : forall x xh y yh, near j x xh -> near k y yh -> ap u (j + k + 1) (Rabs (x * y)) (x * y) (@amul (@f_arith (fm_ops M)) xh yh)).
    { intros x xh y yh N N'. rewrite Rabs_mult. replace (j + k + 1)%nat with (S (j + k)) by lia. apply (ap_mul u M pow_i HR); apply (ap_near u M pow_i HR); auto. }
    unfold fcmul. replace (j + k + 2)%nat with (S (j + k + 1)) by lia. split; cbn [fst snd]; [apply (ap_sub u M pow_i HR)|apply (ap_add u M pow_i HR)]; apply T; auto.
  Qed.
  Lemma ap_eq k X X' x x' xh : X = X' -> x = x' -> ap u k X x xh -> ap u k X' x' xh.
  Proof. intros -> ->. auto. Qed.
  Definition weight (m : nat) (beta : R) : R * R := match m with O => (1, 0) | _ => wave M (Z.of_nat m) beta end.
  Definition twice (m : nat) : R := match m with O => 1 | _ => 2 end.
  Lemma real_near P r : near 1 (P * r) (@amul (@f_arith (fm_ops M)) P r). Proof. apply (near_mul u M pow_i HR 0 0); apply near0. Qed.
  (** order 0: a real multiple of the coefficient *)
  Lemma zero_term a P r : ap u 6 (fst (csize a (1, 0) (1 * (P * r)))) (fst (cterm a (1, 0) (1 * (P * r)))) (fst (fcmulr M a (@amul (@f_arith (fm_ops M)) P r))).
  Proof.
    eapply (ap_weak u M pow_i HR); [|eapply ap_eq; [| |apply (ap_mul u M pow_i HR 0 1); [apply (ap_exact u)|apply (ap_near u M pow_i HR), real_near]]]; [lia| |]; unfold csize, cterm; cbn [fst snd].
    - rewrite !Rmult_1_r, Rmult_0_r, Rabs_R0, Rmult_1_l, Rplus_0_r. reflexivity.
    - ring.
  Qed.
  Lemma local_value_term e rho c beta n m o : (m <= n <= e_p e)%nat -> fl_eval_term M e rho c beta (n, m) = Some o ->
    exists t, o = Some t /\ ap u 6 (fst (csize (e_coeffs e (tri n m)) (weight m beta) (twice m * (legendre M n m c * fpow M rho (Z.of_nat n)))))
      (fst (cterm (e_coeffs e (tri n m)) (weight m beta) (twice m * (legendre M n m c * fpow M rho (Z.of_nat n))))) (fst t).
  Proof.
    intros L. unfold fl_eval_term, legendre. destruct (fGetAssLegFunSph M n m c) as [P|]; cbn [lbind]; [|discriminate]. rewrite fget_in by exact L. cbn [lbind entry_of].
    intros X. apply (f_equal (fun x => match x with Some y => y | None => o end)) in X. cbv beta iota in X. symmetry in X. eexists. split; [exact X|]. clear X. set (a := e_coeffs e (tri n m)). set (r := fpow M rho (Z.of_nat n)).
    destruct m as [|m']; [apply zero_term|]. unfold weight, twice. set (m := S m') in *. unfold wave. rewrite <- INR_IZR_INZ. set (w := fcis M (@amul (@f_arith (fm_ops M)) (INR m) beta)).
    assert (N : forall x, near 3 (x * (2 * (P * r))) (@amul (@f_arith (fm_ops M)) (@amul (@f_arith (fm_ops M)) x 2) (@amul (@f_arith (fm_ops M)) P r))).
    { intros x. rewrite <- Rmult_assoc. apply (near_mul u M pow_i HR 1 1); [apply (near_mul u M pow_i HR 0 0); apply near0|apply real_near]. }
    destruct (pair_ap 0 3 a a (fst w * (2 * (P * r)), snd w * (2 * (P * r))) (fcmulr M (fcmulr M w 2) (@amul (@f_arith (fm_ops M)) P r)) ltac:(split; apply near0) ltac:(split; cbn [fst snd fcmulr]; apply N)) as (Q & _).
    cbn [fst snd] in Q. eapply (ap_weak u M pow_i HR); [|eapply ap_eq; [| |exact Q]]; [lia| |]; unfold csize, cterm; cbn [fst snd]; [|ring].
    rewrite <- !Rmult_assoc, !(Rabs_mult (_ * _)), !Rabs_mult. ring.
  Qed.
  Lemma multipole_value_term C rho c beta n m z z' : feval_term M C rho c beta z (n, m) = Some z' ->
    exists t, z' = fcadd M z t /\ ap u 6 (fst (csize (C (tri n m)) (weight m beta) (twice m * (legendre M n m c * fpow M rho (- Z.of_nat n - 1)))))
      (fst (cterm (C (tri n m)) (weight m beta) (twice m * (legendre M n m c * fpow M rho (- Z.of_nat n - 1))))) (fst t).
  Proof.
    unfold feval_term, legendre. destruct (fGetAssLegFunSph M n m c) as [P|]; cbn [lbind]; [|discriminate]. cbn [entry_of].
    intros X. apply (f_equal (fun x => match x with Some y => y | None => z end)) in X. cbv beta iota zeta in X. symmetry in X. eexists. split; [exact X|]. clear X. set (a := C (tri n m)). set (r := fpow M rho (- Z.of_nat n - 1)).
    destruct m as [|m']; [apply zero_term|]. unfold weight, twice. set (m := S m') in *. unfold wave. rewrite <- INR_IZR_INZ. set (w := fcis M (@amul (@f_arith (fm_ops M)) (INR m) beta)).
    destruct (ap2_mul u M pow_i HR 0 a a w ltac:(split; apply near0)) as (Q & _). cbn [fst] in Q.
    assert (Q2 := ap_mul u M pow_i HR _ 0 _ _ _ _ _ _ Q (ap_exact u 2)). assert (Q3 := ap_mul u M pow_i HR _ 1 _ _ _ _ _ _ Q2 (ap_near u M pow_i HR _ _ _ (real_near P r))).
    eapply (ap_weak u M pow_i HR); [|eapply ap_eq; [| |exact Q3]]; [lia| |]; unfold csize, cterm; cbn [fst snd]; [|ring]. rewrite (Rabs_mult 2). ring.
  Qed.
  (** a sum of real parts *)
  Lemma value_ap (L : list (nat * nat)) (step : R * R -> nat * nat -> option (R * R)) (S x : nat * nat -> R) :
    (forall nm z z', In nm L -> step z nm = Some z' -> exists t, z' = fcadd M z t /\ ap u 6 (S nm) (x nm) (fst t)) ->
    forall j Z z zh z', ap u (6 + j) Z z (fst zh) -> fold_left (fun o nm => lbind o (fun z => step z nm)) L (Some zh) = Some z' -> ap u (6 + j + length L) (Z + suml L S) (z + suml L x) (fst z').
  Proof.
    induction L as [|a L IH]; intros F j Z z zh z' N E.
    - cbn in E. inversion E; subst. unfold suml. cbn [fold_right length]. rewrite !Rplus_0_r, Nat.add_0_r. exact N.
    - cbn [fold_left lbind] in E. destruct (step zh a) as [z1|] eqn:E1.
      + destruct (F a zh z1 (or_introl eq_refl) E1) as (t & -> & Nt). assert (F' : forall nm z0 z2, In nm L -> step z0 nm = Some z2 -> exists t0, z2 = fcadd M z0 t0 /\ ap u 6 (S nm) (x nm) (fst t0)) by (intros nm z0 z2 I; apply F; right; exact I).
        assert (N1 : ap u (6 + (j + 1)) (Z + S a) (z + x a) (fst (fcadd M zh t))).
        { replace (6 + (j + 1))%nat with (Datatypes.S (6 + j)) by lia. unfold fcadd. cbn [fst]. apply (ap_add u M pow_i HR); [exact N|]. eapply (ap_weak u M pow_i HR); [|exact Nt]. lia. }
        assert (Q := IH F' _ _ _ _ _ N1 E). unfold suml in *. cbn [fold_right length]. rewrite <- !Rplus_assoc. replace (6 + j + Datatypes.S (length L))%nat with (6 + (j + 1) + length L)%nat by lia. exact Q.
      + exfalso. assert (Q : fold_left (fun o nm => lbind o (fun z => step z nm)) L None = None) by (clear; induction L; auto). rewrite Q in E. discriminate.
  Qed.
  Lemma pairs_length p : (2 * length (nm_pairs p) = (p + 1) * (p + 2))%nat.
  Proof.
    unfold nm_pairs. induction p as [|p IH]; [reflexivity|]. rewrite Nat.add_1_r in *. rewrite (seq_S (S p)), flat_map_app, app_length. cbn [flat_map]. rewrite app_nil_r, map_length, seq_length. cbn [Nat.add] in *. lia.
  Qed.
End Calls.

(** ** Theorems *)
Theorem C94_constants : forall u M pow_i n m, relative_math u M pow_i -> (m <= n <= 20)%nat -> exists a, fA_n_m M n m = Some a /\
  (forall a', A_n_m n m = Some a' -> Rabs (a - a') <= gam u (2 * n + 3) * Rabs a').
Proof.
  intros u M pow_i n m HR L. destruct (A_near u M pow_i HR n m L) as (a & E & N). exists a. split; [exact E|]. intros a' E'. rewrite (proj1 (A_exact n m L)) in E'. inversion E'; subst a'.
  apply (ap_near u M pow_i HR) in N. apply N.
Qed.
Theorem C94_translation_tables : forall u M pow_i n m n' m', relative_math u M pow_i -> (m <= n <= 10)%nat -> (n' <= 10)%nat -> (absn m' <= n')%nat ->
  (exists t t', fm2l_table M pow_i n m n' m' = Some t /\ m2l_table n m n' m' = Some t' /\ Rabs (t - t') <= gam u (4 * (n + n') + 14) * Rabs t') /\
  ((n <= n')%nat -> (absn (m' - Z.of_nat m) <= n' - n)%nat -> exists t t', fl2l_table M pow_i n m n' m' = Some t /\ l2l_table n m n' m' = Some t' /\ Rabs (t - t') <= gam u (4 * n' + 14) * Rabs t').
Proof.
  intros u M pow_i n m n' m' HR L L' Lm. split.
  - destruct (m2l_near u M pow_i HR n m n' m' L L' Lm) as (t & th & E & Eh & N). exists th, t. split; [exact Eh|]. split; [exact E|]. apply (ap_near u M pow_i HR) in N. destruct N as (_ & N). replace (4 * (n + n') + 14)%nat with (4 * n + 4 * n' + 14)%nat by lia. exact N.
  - intros B K. destruct (l2l_near u M pow_i HR n m n' m' ltac:(lia) L' Lm K) as (t & th & E & Eh & N). exists th, t. split; [exact Eh|]. split; [exact E|]. apply (ap_near u M pow_i HR) in N. apply N.
Qed.
Theorem C94_conversion : forall u M pow_i e other e' rho c beta, relative_math u M pow_i -> e_p other = e_p e -> (e_p e <= 10)%nat -> e_zero other = false ->
  fspher M (frelative M (e_center other) (e_center e)) = Some (rho, c, beta) -> fl_convert M pow_i e other = Some e' ->
  forall n m, (m <= n <= e_p e)%nat ->
  within u ((e_p e + 1) ^ 2 + 8 * e_p e + 21)
    (rplus2 (coeff e n m) (conversion_terms cterm M other rho c beta n m)) (rplus2 (abs2 (coeff e n m)) (conversion_terms csize M other rho c beta n m)) (coeff e' n m).
Proof.
  intros u M pow_i e other e' rho c beta HR Ep L10 Z Sp E n m L. unfold fl_convert in E. rewrite Z, Sp in E. cbn [lbind] in E. unfold fnonzero in E.
  destruct (fadd_loop M (e_p e) (fm2l_coeff M pow_i other rho c beta (e_p e)) (e_coeffs e)) as [C'|] eqn:El; [|discriminate]. cbn [lbind] in E. inversion E; subst e'; clear E. unfold coeff at 3. cbn [e_coeffs].
  destruct (loop_ap u M pow_i HR (e_p e) (fm2l_coeff M pow_i other rho c beta (e_p e)) (e_coeffs e) ((e_p e + 1) ^ 2 + 8 * e_p e + 20)%nat (conversion_terms csize M other rho c beta) (conversion_terms cterm M other rho c beta)) as (C2 & E2 & Q).
  - intros n' m' L'. destruct (floop_terms M _ _ _ _ n' m' El L') as (t & Et). exists t. split; [exact Et|]. rewrite <- Ep in Et. eapply (ap2_weak u M pow_i HR); [|apply (conversion_coeff u M pow_i HR); [| |exact Et]]; [rewrite Ep; cbn [Nat.pow]|..]; lia.
  - rewrite El in E2. inversion E2; subst C2. replace ((e_p e + 1) ^ 2 + 8 * e_p e + 21)%nat with (S ((e_p e + 1) ^ 2 + 8 * e_p e + 20)) by lia. apply Q, L.
Qed.
Theorem C94_local_translation : forall u M pow_i e other e' rho c beta, relative_math u M pow_i -> e_p other = e_p e -> (e_p e <= 10)%nat -> e_zero other = false ->
  fspher M (frelative M (e_center other) (e_center e)) = Some (rho, c, beta) -> ffar M (e_center other) (e_center e) = Some true -> fl_translate M pow_i e other = Some e' ->
  forall n m, (m <= n <= e_p e)%nat ->
  within u ((e_p e + 1) ^ 2 + 8 * e_p e + 21)
    (rplus2 (coeff e n m) (local_terms cterm M other rho c beta n m)) (rplus2 (abs2 (coeff e n m)) (local_terms csize M other rho c beta n m)) (coeff e' n m).
Proof.
  intros u M pow_i e other e' rho c beta HR Ep L10 Z Sp Fa E n m L. unfold fl_translate in E. rewrite Z, Fa in E. cbn [lbind] in E. rewrite Sp in E. cbn [lbind] in E. unfold fnonzero in E.
  destruct (fadd_loop M (e_p e) (fl2l_coeff M pow_i other rho c beta (e_p e)) (e_coeffs e)) as [C'|] eqn:El; [|discriminate]. cbn [lbind] in E. inversion E; subst e'; clear E. unfold coeff at 3. cbn [e_coeffs].
  destruct (loop_ap u M pow_i HR (e_p e) (fl2l_coeff M pow_i other rho c beta (e_p e)) (e_coeffs e) ((e_p e + 1) ^ 2 + 8 * e_p e + 20)%nat (local_terms csize M other rho c beta) (local_terms cterm M other rho c beta)) as (C2 & E2 & Q).
  - intros n' m' L'. destruct (floop_terms M _ _ _ _ n' m' El L') as (t & Et). exists t. split; [exact Et|]. rewrite <- Ep in Et. eapply (ap2_weak u M pow_i HR); [|apply (local_coeff u M pow_i HR); [| |exact Et]]; [rewrite Ep; cbn [Nat.pow]|..]; lia.
  - rewrite El in E2. inversion E2; subst C2. replace ((e_p e + 1) ^ 2 + 8 * e_p e + 21)%nat with (S ((e_p e + 1) ^ 2 + 8 * e_p e + 20)) by lia. apply Q, L.
Qed.
Theorem C94_multipole_translation : forall u M pow_i e other e' rho c beta, relative_math u M pow_i -> e_p other = e_p e -> (e_p e <= 20)%nat -> e_zero other = false ->
  fspher M (frelative M (e_center other) (e_center e)) = Some (rho, c, beta) -> ffar M (e_center other) (e_center e) = Some true -> fm_translate M pow_i e other = Some e' ->
  forall n m, (m <= n <= e_p e)%nat ->
  within u ((e_p e + 1) ^ 2 + 8 * e_p e + 21)
    (rplus2 (coeff e n m) (multipole_terms cterm M other rho c beta n m)) (rplus2 (abs2 (coeff e n m)) (multipole_terms csize M other rho c beta n m)) (coeff e' n m).
Proof.
  intros u M pow_i e other e' rho c beta HR Ep L20 Z Sp Fa E n m L. unfold fm_translate in E. rewrite Z, Fa in E. cbn [lbind] in E. rewrite Sp in E. cbn [lbind] in E. unfold fnonzero in E.
  destruct (fadd_loop M (e_p e) (fm2m_coeff M pow_i other rho c beta) (e_coeffs e)) as [C'|] eqn:El; [|discriminate]. cbn [lbind] in E. inversion E; subst e'; clear E. unfold coeff at 3. cbn [e_coeffs].
  destruct (loop_ap u M pow_i HR (e_p e) (fm2m_coeff M pow_i other rho c beta) (e_coeffs e) ((e_p e + 1) ^ 2 + 8 * e_p e + 20)%nat (multipole_terms csize M other rho c beta) (multipole_terms cterm M other rho c beta)) as (C2 & E2 & Q).
  - intros n' m' L'. destruct (floop_terms M _ _ _ _ n' m' El L') as (t & Et). exists t. split; [exact Et|]. eapply (ap2_weak u M pow_i HR); [|apply (multipole_coeff u M pow_i HR); [| |exact Et]]; [rewrite Ep; cbn [Nat.pow]|..]; lia.
  - rewrite El in E2. inversion E2; subst C2. replace ((e_p e + 1) ^ 2 + 8 * e_p e + 21)%nat with (S ((e_p e + 1) ^ 2 + 8 * e_p e + 20)) by lia. apply Q, L.
Qed.
Theorem C94_values : forall u M pow_i e x rho c beta v, relative_math u M pow_i -> e_zero e = false -> fspher M (frelative M x (e_center e)) = Some (rho, c, beta) ->
  let roundings := (6 + (e_p e + 1) * (e_p e + 2) / 2)%nat in
  (fl_evaluate M e x = Some v -> let r := fun n => fpow M rho (Z.of_nat n) in Rabs (v - value_terms cterm M e r c beta) <= gam u roundings * value_terms csize M e r c beta) /\
  (fm_evaluate M e x = Some v -> let r := fun n => fpow M rho (- Z.of_nat n - 1) in Rabs (v - value_terms cterm M e r c beta) <= gam u roundings * value_terms csize M e r c beta).
Proof.
  intros u M pow_i e x rho c beta v HR Z Sp. cbv zeta. replace ((e_p e + 1) * (e_p e + 2) / 2)%nat with (length (nm_pairs (e_p e))) by (rewrite <- pairs_length, Nat.mul_comm, Nat.div_mul by lia; reflexivity). split; intros E.
  - unfold fl_evaluate in E. rewrite Z, Sp in E. cbn [lbind] in E. unfold fsum in E. match type of E with lbind (fold_left ?f ?l ?z) _ = _ => destruct (fold_left f l z) as [z'|] eqn:Ef end; [|discriminate]. cbn [lbind] in E. inversion E; subst v; clear E.
    assert (Ef' : fold_left (fun o nm => lbind o (fun z => lbind (fl_eval_term M e rho c beta nm) (fun t => Some (match t with Some t => fcadd M z t | None => z end)))) (nm_pairs (e_p e)) (Some (0, 0)) = Some z') by exact Ef.
    assert (Q := value_ap u M pow_i HR (nm_pairs (e_p e)) (fun z nm => lbind (fl_eval_term M e rho c beta nm) (fun t => Some (match t with Some t => fcadd M z t | None => z end)))
      (fun nm => fst (csize (e_coeffs e (tri (fst nm) (snd nm))) (weight M (snd nm) beta) (twice (snd nm) * (legendre M (fst nm) (snd nm) c * fpow M rho (Z.of_nat (fst nm))))))
      (fun nm => fst (cterm (e_coeffs e (tri (fst nm) (snd nm))) (weight M (snd nm) beta) (twice (snd nm) * (legendre M (fst nm) (snd nm) c * fpow M rho (Z.of_nat (fst nm))))))).
    specialize (Q ltac:(intros [n m] z0 z1 I X; apply nm_in in I; cbv beta in X; destruct (fl_eval_term M e rho c beta (n, m)) as [o|] eqn:Eo; [|discriminate]; destruct (local_value_term u M pow_i HR e rho c beta n m o I Eo) as (t & -> & N); cbn [lbind] in X; inversion X; subst z1; exists t; split; [reflexivity|exact N])).
    specialize (Q 0%nat 0 0 (0, 0) z' ltac:(cbn [fst]; eapply (ap_weak u M pow_i HR); [|apply (ap_zero u)]; lia) Ef').
    rewrite !Rplus_0_l, Nat.add_0_r in Q. apply Q.
  - unfold fm_evaluate, fevaluate in E. rewrite Z, Sp in E. cbn [lbind] in E. match type of E with lbind (fold_left ?f ?l ?z) _ = _ => destruct (fold_left f l z) as [z'|] eqn:Ef end; [|discriminate]. cbn [lbind] in E. inversion E; subst v; clear E.
    assert (Q := value_ap u M pow_i HR (nm_pairs (e_p e)) (fun z nm => feval_term M (e_coeffs e) rho c beta z nm)
      (fun nm => fst (csize (e_coeffs e (tri (fst nm) (snd nm))) (weight M (snd nm) beta) (twice (snd nm) * (legendre M (fst nm) (snd nm) c * fpow M rho (- Z.of_nat (fst nm) - 1)))))
      (fun nm => fst (cterm (e_coeffs e (tri (fst nm) (snd nm))) (weight M (snd nm) beta) (twice (snd nm) * (legendre M (fst nm) (snd nm) c * fpow M rho (- Z.of_nat (fst nm) - 1)))))).
    specialize (Q ltac:(intros [n m] z0 z1 I X; exact (multipole_value_term u M pow_i HR (e_coeffs e) rho c beta n m z0 z1 X))).
    specialize (Q 0%nat 0 0 (0, 0) z' ltac:(cbn [fst]; eapply (ap_weak u M pow_i HR); [|apply (ap_zero u)]; lia) Ef).
    rewrite !Rplus_0_l, Nat.add_0_r in Q. apply Q.
Qed.
Theorem C94_charge : forall u M pow_i e q x e' rho c beta, relative_math u M pow_i -> q <> 0 -> fspher M (frelative M x (e_center e)) = Some (rho, c, beta) -> fm_charge M e q x = Some e' ->
  forall n m, (m <= n <= e_p e)%nat -> let term := fun op => op (wave M (- Z.of_nat m) beta) (1, 0) (legendre M n m c * fpow M rho (Z.of_nat n) * q) in
  within u 4 (rplus2 (coeff e n m) (term cterm)) (rplus2 (abs2 (coeff e n m)) (term csize)) (coeff e' n m).
Proof.
  intros u M pow_i e q x e' rho c beta HR Nq Sp E n m L. cbv zeta. unfold fm_charge, fadd_charge in E. destruct (Req_EM_T q 0); [contradiction|]. rewrite Sp in E. cbn [lbind] in E. unfold fnonzero in E.
  destruct (fadd_loop M (e_p e) (fcharge_term M q rho c beta) (e_coeffs e)) as [C'|] eqn:El; [|discriminate]. cbn [lbind] in E. inversion E; subst e'; clear E. unfold coeff at 3. cbn [e_coeffs].
  destruct (loop_ap u M pow_i HR (e_p e) (fcharge_term M q rho c beta) (e_coeffs e) 3 (fun n m => csize (wave M (- Z.of_nat m) beta) (1, 0) (legendre M n m c * fpow M rho (Z.of_nat n) * q)) (fun n m => cterm (wave M (- Z.of_nat m) beta) (1, 0) (legendre M n m c * fpow M rho (Z.of_nat n) * q))) as (C2 & E2 & Q).
  - intros n' m' L'. destruct (floop_terms M _ _ _ _ n' m' El L') as (t & Et). exists t. split; [exact Et|]. unfold fcharge_term in Et. unfold legendre. destruct (fGetAssLegFunSph M n' m' c) as [P|]; cbn [lbind] in Et; [|discriminate]. cbn [entry_of].
    apply (f_equal (fun x => match x with Some y => y | None => t end)) in Et. cbv beta iota zeta in Et. subst t. unfold wave. rewrite opp_IZR, <- INR_IZR_INZ. set (w := fcis M _).
    assert (N : SpecFloatTrans.relative_math u M pow_i) by exact HR.
    assert (Nr := near_mul u M pow_i HR _ _ _ _ _ _ (real_near u M pow_i HR P (fpow M rho (Z.of_nat n'))) (near0 u M pow_i HR q)).
    split; cbn [fst snd fcmulr csize cterm].
    + eapply ap_eq; [| |apply (ap_mul u M pow_i HR 0 2); [apply (ap_exact u)|apply (ap_near u M pow_i HR), Nr]]; [rewrite Rmult_1_r, Rmult_0_r, Rabs_R0, Rplus_0_r; reflexivity|ring].
    + eapply ap_eq; [| |apply (ap_mul u M pow_i HR 0 2); [apply (ap_exact u)|apply (ap_near u M pow_i HR), Nr]]; [rewrite Rmult_1_r, Rmult_0_r, Rabs_R0, Rplus_0_l; reflexivity|ring].
  - rewrite El in E2. inversion E2; subst C2. apply (Q n m L).
Qed.
Theorem C94_scaled_sum : forall u M pow_i e other sol e', relative_math u M pow_i -> e_p other = e_p e -> e_zero other = false -> sol <> 0 -> fm_add_scaled M e other sol = Some e' ->
  forall n m, (m <= n <= e_p e)%nat -> within u 2 (rplus2 (coeff e n m) (cterm (coeff other n m) (1, 0) sol)) (rplus2 (abs2 (coeff e n m)) (csize (coeff other n m) (1, 0) sol)) (coeff e' n m).
Proof.
  intros u M pow_i e other sol e' HR Ep Z Ns E n m L. unfold fm_add_scaled in E. rewrite Z in E. destruct (Req_EM_T sol 0); [contradiction|]. cbn [orb] in E. unfold fnonzero in E.
  match type of E with lbind (fadd_loop M _ ?f _) _ = _ => destruct (fadd_loop M (e_p e) f (e_coeffs e)) as [C'|] eqn:El; [|discriminate];
    destruct (loop_ap u M pow_i HR (e_p e) f (e_coeffs e) 1 (fun n m => csize (coeff other n m) (1, 0) sol) (fun n m => cterm (coeff other n m) (1, 0) sol)) as (C2 & E2 & Q) end.
  - intros n' m' L'. rewrite fget_in by (rewrite Ep; exact L'). cbn [lbind]. eexists. split; [reflexivity|]. unfold coeff. set (a := e_coeffs other (tri n' m')).
    split; cbn [fst snd fcmulr csize cterm]; (eapply ap_eq; [| |apply (ap_mul u M pow_i HR 0 0); apply (ap_exact u)]; [rewrite Rmult_1_r, Rmult_0_r, Rabs_R0; ring|ring]).
  - cbn [lbind] in E. inversion E; subst e'. rewrite El in E2. inversion E2; subst C2. exact (Q n m L).
Qed.
(** centres closer than 1e-7: the coefficients are added *)
Theorem C94_near_translation : forall u M pow_i e other, relative_math u M pow_i -> e_p other = e_p e -> e_zero other = false -> ffar M (e_center other) (e_center e) = Some false ->
  exists em el, fm_translate M pow_i e other = Some em /\ fl_translate M pow_i e other = Some el /\
  forall n m, (m <= n <= e_p e)%nat -> within u 1 (rplus2 (coeff e n m) (coeff other n m)) (rplus2 (abs2 (coeff e n m)) (abs2 (coeff other n m))) (coeff em n m) /\ coeff el n m = coeff em n m.
Proof.
  intros u M pow_i e other HR Ep Z Fa. unfold fm_translate, fl_translate. rewrite Z, Fa. cbn [lbind]. unfold fnonzero.
  destruct (loop_ap u M pow_i HR (e_p e) (fget other) (e_coeffs e) 0 (fun n m => abs2 (coeff other n m)) (fun n m => coeff other n m)) as (C2 & E2 & Q).
  - intros n' m' L'. rewrite fget_in by (rewrite Ep; exact L'). eexists. split; [reflexivity|]. split; apply (ap_exact u).
  - rewrite E2. cbn [lbind]. eexists _, _. split; [reflexivity|]. split; [reflexivity|]. intros n m L. split; [exact (Q n m L)|reflexivity].
Qed.

(** ** The formulas are those of the exact program *)
Notation X := exact_math.
Lemma exact_relative : relative_math 0 X re_pow_i.
Proof.
  split; [|split].
  - assert (Zz : forall x y : R, Rabs (x - x) <= 0 * Rabs y) by (intros x y; rewrite Rminus_diag_eq, Rabs_R0 by reflexivity; lra).
    unfold relative. cbn [exact_math fm_ops exact_flops f_arith aadd amul adiv api exact_arith fsub fsqrt flog]. split; [lra|]. repeat split; intros; try apply Zz.
    + assert (Q := Zz (sqrt x) x). lra.
    + rewrite Rminus_diag_eq, Rabs_R0 by reflexivity. lra.
  - intros n. cbn [exact_math fpow]. apply pow_int.
  - intros k _. rewrite Rminus_diag_eq, Rabs_R0 by reflexivity. lra.
Qed.
Lemma gam_0 n : gam 0 n = 0. Proof. unfold gam. rewrite Rminus_0_r, Rinv_1, pow1. ring. Qed.
Lemma within_0 n x S y : within 0 n x S y -> y = x.
Proof.
  unfold within. rewrite gam_0, !Rmult_0_l. intros (P & Q). assert (T : forall a b, Rabs (a - b) <= 0 -> a = b) by (intros a b W; assert (V := Rabs_pos (a - b)); destruct (Req_EM_T (a - b) 0) as [|N]; [lra|apply Rabs_pos_lt in N; lra]).
  destruct x, y. cbn [fst snd] in *. f_equal; apply T; auto.
Qed.
Lemma same_coeff o e' : same_result o (Some e') -> exists e1, o = Some e1 /\ forall n m, coeff e1 n m = coeff e' n m.
Proof. destruct o as [e1|]; [|intros []]. intros (_ & _ & _ & S). exists e1. split; [reflexivity|]. intros n m. apply S. Qed.
Theorem C94_formulas_of_the_exact_program : forall e other e' rho c beta n m, e_p other = e_p e -> e_zero other = false -> spher (psub (e_center other) (e_center e)) = Some (rho, c, beta) -> (m <= n <= e_p e)%nat ->
  ((e_p e <= 10)%nat -> l_apply e (LConvert other) = Some e' -> coeff e' n m = rplus2 (coeff e n m) (conversion_terms cterm exact_math other rho c beta n m)) /\
  (1 / 10000000 < distance (e_center other) (e_center e) -> (e_p e <= 10)%nat -> l_apply e (LTranslate other) = Some e' -> coeff e' n m = rplus2 (coeff e n m) (local_terms cterm exact_math other rho c beta n m)) /\
  (1 / 10000000 < distance (e_center other) (e_center e) -> (e_p e <= 20)%nat -> m_apply e (MTranslate other) = Some e' -> coeff e' n m = rplus2 (coeff e n m) (multipole_terms cterm exact_math other rho c beta n m)).
Proof.
  intros e other e' rho c beta n m Ep Z Sp L. assert (Sp' := Sp). rewrite <- rel_exact, <- spher_exact in Sp'.
  assert (Fa : 1 / 10000000 < distance (e_center other) (e_center e) -> ffar X (e_center other) (e_center e) = Some true) by (intros D; rewrite far_exact; destruct (Rlt_dec _ _); [reflexivity|contradiction]).
  split; [|split].
  - intros L10 E. assert (S := C91_local_calls_without_rounding e (LConvert other)). rewrite E in S. apply same_coeff in S. destruct S as (e1 & E1 & S). rewrite <- S.
    eapply within_0. exact (C94_conversion 0 X re_pow_i e other e1 rho c beta exact_relative Ep L10 Z Sp' E1 n m L).
  - intros D L10 E. assert (S := C91_local_calls_without_rounding e (LTranslate other)). rewrite E in S. apply same_coeff in S. destruct S as (e1 & E1 & S). rewrite <- S.
    eapply within_0. exact (C94_local_translation 0 X re_pow_i e other e1 rho c beta exact_relative Ep L10 Z Sp' (Fa D) E1 n m L).
  - intros D L20 E. assert (S := C91_multipole_calls_without_rounding e (MTranslate other)). rewrite E in S. apply same_coeff in S. destruct S as (e1 & E1 & S). rewrite <- S.
    eapply within_0. exact (C94_multipole_translation 0 X re_pow_i e other e1 rho c beta exact_relative Ep L20 Z Sp' (Fa D) E1 n m L).
Qed.
Theorem C94_values_of_the_exact_program : forall e x rho c beta v, e_zero e = false -> spher (psub x (e_center e)) = Some (rho, c, beta) ->
  (l_evaluate e x = Some v -> v = value_terms cterm exact_math e (fun n => powerRZ rho (Z.of_nat n)) c beta) /\
  (m_evaluate e x = Some v -> v = value_terms cterm exact_math e (fun n => powerRZ rho (- Z.of_nat n - 1)) c beta).
Proof.
  intros e x rho c beta v Z Sp. rewrite <- rel_exact, <- spher_exact in Sp. destruct (C91_values_without_rounding e x) as (Em & El).
  destruct (C94_values 0 X re_pow_i e x rho c beta v exact_relative Z Sp) as (A & B). rewrite gam_0 in A, B.
  assert (T : forall a b s, Rabs (a - b) <= 0 * s -> a = b) by (intros a b s W; rewrite Rmult_0_l in W; assert (V := Rabs_pos (a - b)); destruct (Req_EM_T (a - b) 0) as [|N]; [lra|apply Rabs_pos_lt in N; lra]).
  split; intros E; [rewrite <- El in E; apply A in E|rewrite <- Em in E; apply B in E]; eapply T; exact E.
Qed.

(** ** Double precision *)
Theorem C94_in_double_precision : forall M pow_i n, double_math M -> (forall k, fpow M (-1) (Z.of_nat k) = (-1) ^ k) ->
  (forall k, Z.even k = true -> Rabs (pow_i k - re_pow_i k) <= bpow radix2 (-53) * Rabs (re_pow_i k)) ->
  relative_math (bpow radix2 (-53)) M pow_i /\ ((n <= 222)%nat -> 0 <= gam (bpow radix2 (-53)) n <= 25 / 10 ^ 15).
Proof.
  intros M pow_i n HM HS HP. split.
  - split; [|split]; [|exact HS|exact HP]. rewrite (proj1 HM). apply C80_double_precision.
  - intros L. assert (U : bpow radix2 (-53) = / 9007199254740992) by (cbn [bpow]; change (Z.pow_pos radix2 53) with 9007199254740992%Z; reflexivity). rewrite U.
    assert (Ln : 0 <= INR n <= 222) by (split; [apply pos_INR|apply le_INR in L; replace (INR 222) with 222 in L by (rewrite INR_IZR_INZ; reflexivity); exact L]).
    destruct (C80_rounding_factor (/ 9007199254740992) n ltac:(lra) ltac:(lra)) as (A & B). split; [exact A|]. eapply Rle_trans; [exact B|].
    apply Rle_trans with (222 * / 9007199254740992 / (1 - 222 * / 9007199254740992)).
    + unfold Rdiv. apply Rmult_le_compat; [lra|left; apply Rinv_0_lt_compat; lra|lra|apply Rinv_le_contravar; lra].
    + apply Rmult_le_reg_r with (1 - 222 * / 9007199254740992); [lra|]. unfold Rdiv at 1. rewrite Rmult_assoc, Rinv_l by lra. lra.
Qed.

(** a conversion of order 4 in double precision: it is finite and each coefficient is right to 1e-13 of the size of its terms *)
Example C94_nonvacuous : let u := bpow radix2 (-53) in let other := Exp 4 (Pt 0 0 0) false (fun _ => (1, 1)) in let e := fresh 4 (Pt 8 0 0) in
  relative_math u rounded_math re_pow_i /\ exists e' rho c beta, fl_convert rounded_math re_pow_i e other = Some e' /\ fspher rounded_math (frelative rounded_math (e_center other) (e_center e)) = Some (rho, c, beta) /\
  forall n m, (m <= n <= 4)%nat -> Rabs (fst (coeff e' n m) - fst (conversion_terms cterm rounded_math other rho c beta n m)) <= 25 / 10 ^ 15 * fst (conversion_terms csize rounded_math other rho c beta n m).
Proof.
  intros u other e. assert (HR : relative_math u rounded_math re_pow_i).
  { apply (C94_in_double_precision rounded_math re_pow_i 0 rounded_math_ok rounded_signs). intros k _. rewrite Rminus_diag_eq, Rabs_R0 by reflexivity. apply Rmult_le_pos; [apply bpow_ge_0|apply Rabs_pos]. }
  split; [exact HR|]. assert (D8 : double_point (Pt 8 0 0)).
  { unfold double_point. cbn [cx cy cz]. assert (D := flx_double 0). rewrite flx_0 in D. split; [|auto]. generalize (double_IZR 8 0 eq_refl). cbn [bpow]. rewrite Rmult_1_r. auto. }
  destruct (C91_conversion_is_finite rounded_math re_pow_i rounded_math_ok rounded_signs e other) as (e' & E & _); [reflexivity|cbn; lia|exact D8|cbn; intros F; injection F; lra|].
  assert (E0 := E). unfold fl_convert in E0. cbn [other e_zero] in E0. destruct (fspher rounded_math _) as [[[rho c] beta]|] eqn:Sp in E0; [|discriminate]. exists e', rho, c, beta. split; [exact E|]. split; [exact Sp|].
  intros n m L. destruct (C94_conversion u rounded_math re_pow_i e other e' rho c beta HR eq_refl ltac:(cbn; lia) eq_refl Sp E n m L) as (Q & _).
  destruct (C94_in_double_precision rounded_math re_pow_i 78 rounded_math_ok rounded_signs) as (_ & W); [intros k _; rewrite Rminus_diag_eq, Rabs_R0 by reflexivity; apply Rmult_le_pos; [apply bpow_ge_0|apply Rabs_pos]|]. specialize (W ltac:(lia)). fold u in W.
  replace ((e_p e + 1) ^ 2 + 8 * e_p e + 21)%nat with 78%nat in Q by reflexivity. unfold rplus2, abs2 in Q. cbn [fst snd] in Q. change (coeff e n m) with ((0, 0) : R * R) in Q. cbn [fst snd] in Q. rewrite Rabs_R0, !Rplus_0_l in Q.
  eapply Rle_trans; [exact Q|]. apply Rmult_le_compat_r; [|apply W]. unfold conversion_terms, csum. cbn [fst]. clear. induction (indices (e_p other)) as [|a l IH]; unfold suml; cbn [fold_right]; [lra|]. apply Rplus_le_le_0_compat; [|exact IH].
  unfold csize. cbn [fst]. apply Rmult_le_pos; [apply Rplus_le_le_0_compat|]; apply Rabs_pos.
Qed.
