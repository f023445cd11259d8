(** * C91: which histories of calls stay finite, and the translations without rounding *)
From Coq Require Import ZArith Reals List Lia Lra Bool.
From Flocq Require Import Core.
From Coquelicot Require Import Complex.
From Verif Require Import ModelLegendre ModelLegTable ModelLegApi ModelExp SpecExp SpecLegendre ProofsHarm2 ProofsHarm3 ProofsExp ProofsExp3 PropLegendre.
From Verif Require Import ModelFmm ModelFloat SpecFloat ProofsFloat LibFlx ModelFloatExp SpecFloatExp ProofsFloatExp ProofsFloatLeg PropFloatExp PropFloatExp2 PropFloatExp3 ModelFloatExp2 PropFloatExp4.
Import ListNotations.
Local Open Scope R_scope.

(** ** Histories *)
(** the calls of SpecExp, performed in rounded arithmetic *)
Definition fm_apply (M : fmath) (pow_i : Z -> R) (e : expansion) (k : m_call) : option expansion :=
  match k with
  | MCharge q x => fm_charge M e q x
  | MDipole q x v => fm_dipole M e q x v
  | MScaled other sol => fm_add_scaled M e other sol
  | MTranslate other => fm_translate M pow_i e other
  end.
Definition fl_apply (M : fmath) (pow_i : Z -> R) (e : expansion) (k : l_call) : option expansion :=
  match k with LTranslate other => fl_translate M pow_i e other | LConvert multipole => fl_convert M pow_i e multipole end.
(** the calls that leave an expansion of order p about c finite: charges not at the centre, dipoles with a direction whose computed
    polar angle is not 0 or pi; zero strengths and expansions of the same order always do *)
Definition harmless (M : fmath) (c : pt) (k : m_call) : Prop :=
  match k with
  | MCharge q x => q = 0 \/ x <> c
  | MDipole q x v => q = 0 \/ (x <> c /\ nonzero v /\ forall k, computed_cosine M (frelative M x c) k -> k <> 1 /\ k <> -1)
  | MScaled _ _ | MTranslate _ => True
  end.
Definition of_order (p : nat) (k : m_call) : Prop := match k with MScaled other _ | MTranslate other => e_p other = p | _ => True end.
Definition l_harmless (c : pt) (k : l_call) : Prop := match k with LTranslate _ => True | LConvert other => e_zero other = true \/ e_center other <> c end.
Definition l_of_order (p : nat) (k : l_call) : Prop := match k with LTranslate other | LConvert other => e_p other = p end.

Lemma pt_eq_dec (a b : pt) : {a = b} + {a <> b}.
Proof.
  destruct a as [a1 a2 a3], b as [b1 b2 b3]. destruct (Req_EM_T a1 b1), (Req_EM_T a2 b2), (Req_EM_T a3 b3); try (right; congruence). left. congruence.
Qed.
Lemma frho_0 M : double_math M -> forall d, ~ nonzero d -> forall f : R -> option R, lbind (frho M d) (fun rho => fdiv M (cz d) rho) = None.
Proof.
  intros HM d N f. unfold frho. rewrite (froot_some M HM) by apply (fsq_nn M HM). cbn [lbind]. unfold nonzero in N.
  assert (E : d = Pt 0 0 0). { destruct (Req_EM_T (cx d) 0), (Req_EM_T (cy d) 0), (Req_EM_T (cz d) 0); try (exfalso; apply N; intros F; rewrite F in *; cbn in *; contradiction). destruct d; cbn in *; subst; reflexivity. }
  subst d. unfold fsquare3. cbn [cx cy cz]. rewrite !(e_add M HM), !(e_mul M HM). repeat (rewrite ?Rmult_0_l, ?Rplus_0_r, ?sqrt_0; rewrite flx_0).
  unfold fdiv. destruct (Req_EM_T _ 0); [reflexivity|contradiction].
Qed.
Lemma fspher_none M d : double_math M -> ~ nonzero d -> fspher M d = None.
Proof.
  intros HM N. assert (E := frho_0 M HM d N (fun _ => None)). unfold fspher. destruct (frho M d) as [r|]; [|reflexivity]. cbn [lbind] in *. rewrite E. reflexivity.
Qed.
Lemma run_from {K : Type} (f : expansion -> K -> option expansion) e k l : run f e (k :: l) = lbind (f e k) (fun e => run f e l).
Proof. unfold run. cbn [fold_left lbind]. destruct (f e k) as [e'|]; [reflexivity|]. cbn [lbind]. induction l; auto. Qed.
Lemma run_iff {K : Type} (f : expansion -> K -> option expansion) (ok : K -> Prop) (P : K -> Prop) (I : expansion -> Prop) :
  (forall e k, I e -> P k -> (ok k /\ exists e', f e k = Some e' /\ I e') \/ (~ ok k /\ f e k = None)) ->
  forall l e, I e -> Forall P l -> (exists e', run f e l = Some e') <-> Forall ok l.
Proof.
  intros S. induction l as [|k l IH]; intros e He Hp.
  - split; [constructor|]. intros _. exists e. reflexivity.
  - apply Forall_cons_iff in Hp. destruct Hp as (Hk & Hl). rewrite run_from. destruct (S e k He Hk) as [(O & e1 & E & I1)|(O & E)]; rewrite E; cbn [lbind].
    + rewrite (IH e1 I1 Hl), Forall_cons_iff. tauto.
    + split; [intros (e' & F); discriminate|]. intros F. apply Forall_cons_iff in F. tauto.
Qed.
Lemma normder_some_iff M e q x v : double_math M -> (1 <= e_p e <= 20)%nat -> double_point (e_center e) -> q <> 0 ->
  (exists C', fadd_normder M (e_p e) (e_center e) (e_coeffs e) q x v = Some C') <->
  (x <> e_center e /\ nonzero v /\ forall k, computed_cosine M (frelative M x (e_center e)) k -> k <> 1 /\ k <> -1).
Proof.
  intros HM Hp D Q. split.
  - intros (C' & E).
    assert (X : x <> e_center e).
    { intros F. subst x. assert (Z : ~ nonzero (frelative M (e_center e) (e_center e))) by (intros Z; apply (rel_nonzero M _ _ HM D) in Z; auto).
      unfold fadd_normder in E. destruct (Req_EM_T q 0); [contradiction|]. assert (S := fspher_none M _ HM Z).
      destruct (froot M (fdot3 M v v)) as [l|]; [|discriminate]. cbn [lbind] in E. destruct (fscale M v l) as [nv|]; [|discriminate]. cbn [lbind] in E.
      unfold frho in E, S. unfold fspher, frho in S. destruct (froot M (fsquare3 M _)) as [rho|]; [|discriminate]. cbn [lbind] in E, S.
      destruct (fscale M _ rho) as [dr|]; [|discriminate]. cbn [lbind] in E. destruct (fscale M _ _) as [db|] in E; [|discriminate]. cbn [lbind] in E.
      destruct (fdiv M _ rho) as [c|] in E, S; [discriminate|discriminate]. }
    assert (V : nonzero v).
    { intros F. subst v. unfold fadd_normder in E. destruct (Req_EM_T q 0); [contradiction|]. unfold fdot3 in E. cbn [cx cy cz] in E.
      rewrite !(e_add M HM), !(e_mul M HM) in E. repeat (rewrite ?Rmult_0_l, ?Rplus_0_r in E; rewrite flx_0 in E). rewrite (froot_some M HM) in E by lra. cbn [lbind] in E.
      rewrite sqrt_0, flx_0 in E. unfold fscale, fdiv in E. destruct (Req_EM_T 0 0) in E; [discriminate|contradiction]. }
    split; [exact X|]. split; [exact V|]. intros k Hk. apply (C91_dipole_is_finite_iff M (e_p e) (e_center e) (e_coeffs e) q x v k HM Hp D X V Q Hk). eauto.
  - intros (X & V & K). assert (Nz := proj2 (rel_nonzero M x (e_center e) HM D) X).
    destruct (C91_cosine_stays_in_range M _ HM (rel_double M x (e_center e) HM) Nz) as (c & Hc & _ & _).
    apply (C91_dipole_is_finite_iff M (e_p e) (e_center e) (e_coeffs e) q x v c HM Hp D X V Q Hc). auto.
Qed.
(** a multipole expansion is finite exactly when every call so far was harmless: nothing but a source at the centre, a dipole whose
    computed polar angle is 0 or pi or a zero normal can spoil it, and nothing mends it *)
Theorem C91_which_histories_stay_finite : forall M pow_i p center calls, double_math M -> signs M -> (1 <= p <= 20)%nat -> double_point center ->
  Forall (of_order p) calls ->
  ((exists e, run (fm_apply M pow_i) (fresh p center) calls = Some e) <-> Forall (harmless M center) calls).
Proof.
  intros M pi p c l HM HS Hp D Ho. apply (run_iff (fm_apply M pi) (harmless M c) (of_order p) (fun e => e_p e = p /\ e_center e = c)); [|split; reflexivity|exact Ho].
  clear l Ho. cbv beta. intros e k (Ep & Ec) Ho. destruct k as [q x|q x v|other sol|other]; cbn [fm_apply harmless of_order] in *.
  - unfold fm_charge. destruct (Req_EM_T q 0) as [Q|Q]; [left; split; [auto|eauto]|].
    destruct (pt_eq_dec x c) as [X|X].
    + right. split; [tauto|]. unfold fadd_charge. destruct (Req_EM_T q 0); [contradiction|]. subst x. rewrite <- Ec in *.
      rewrite fspher_none; auto. intros Z. apply (rel_nonzero M _ _ HM D) in Z. auto.
    + left. split; [auto|]. rewrite <- Ec in *. destruct (C91_charge_is_finite M (e_p e) (e_center e) (e_coeffs e) q x HM ltac:(lia) D X) as (C' & E). rewrite E. unfold fnonzero. cbn [lbind]. eauto.
  - unfold fm_dipole. destruct (Req_EM_T q 0) as [Q|Q]; [left; split; [auto|eauto]|]. rewrite <- Ep, <- Ec in *. assert (I := normder_some_iff M e q x v HM ltac:(lia) D Q).
    destruct (fadd_normder M (e_p e) (e_center e) (e_coeffs e) q x v) as [C'|].
    + left. split; [right; apply I; eauto|]. unfold fnonzero. cbn [lbind]. eauto.
    + right. split; [|reflexivity]. intros [F|F]; [contradiction|]. apply I in F. destruct F as (? & ?). discriminate.
  - left. split; [exact Logic.I|]. destruct (C91_scaled_is_finite M e other sol) as (e' & E & A & B); [congruence|]. exists e'. rewrite E, A, B. auto.
  - left. split; [exact Logic.I|]. destruct (C91_translation_is_finite M pi HM HS e other) as (e' & E & A & B); [congruence|lia|]. exists e'. rewrite E, A, B. auto.
Qed.
(** a local expansion of order at most 10 is finite exactly when no nonzero multipole expansion about its own centre was converted into it *)
Theorem C91_which_local_histories_stay_finite : forall M pow_i p center calls, double_math M -> signs M -> (p <= 10)%nat -> double_point center ->
  Forall (l_of_order p) calls ->
  ((exists e, run (fl_apply M pow_i) (fresh p center) calls = Some e) <-> Forall (l_harmless center) calls).
Proof.
  intros M pi p c l HM HS Hp D Ho. apply (run_iff (fl_apply M pi) (l_harmless c) (l_of_order p) (fun e => e_p e = p /\ e_center e = c)); [|split; reflexivity|exact Ho].
  clear l Ho. cbv beta. intros e k (Ep & Ec) Ho. destruct k as [other|other]; cbn [fl_apply l_harmless l_of_order] in *.
  - left. split; [exact Logic.I|]. destruct (C91_local_translation_is_finite M pi HM HS e other) as (e' & E & A & B); [congruence|lia|]. exists e'. rewrite E, A, B. auto.
  - destruct (e_zero other) eqn:Z; [left; split; [auto|]; unfold fl_convert; rewrite Z; eauto|]. destruct (pt_eq_dec (e_center other) c) as [X|X].
    + right. split; [intuition discriminate|]. unfold fl_convert. rewrite Z. rewrite <- Ec in *. rewrite X, fspher_none; auto. intros F. apply (rel_nonzero M _ _ HM D) in F. auto.
    + left. split; [auto|]. rewrite <- Ec in *. destruct (C91_conversion_is_finite M pi HM HS e other) as (e' & E & A & B); auto; [congruence|lia|]. exists e'. rewrite E, A, B. auto.
Qed.

(** ** Without rounding: the same operations as in the exact model (C05-C08) *)
Notation X := exact_math.
Lemma fdown_exact k : forall f, fdown X f k = down_product f k.
Proof. induction k as [|k IH]; intros f; cbn [fdown down_product]; [reflexivity|]. apply IH. Qed.
Lemma down_pos k : forall f, 0 < f -> 0 < down_product f k.
Proof. induction k as [|k IH]; intros f F; [exact F|]. cbn [down_product]. apply IH, Rmult_lt_0_compat; [exact F|]. rewrite S_INR. assert (G := pos_INR k). lra. Qed.
Lemma fA_exact n m : fA_n_m X n m = A_n_m n m.
Proof.
  unfold fA_n_m, A_n_m. destruct (_ && _)%bool; [|reflexivity]. destruct (Nat.leb m n); [|reflexivity]. rewrite (fdown_exact (n - m)), (fdown_exact (n + m)).
  assert (P : 0 < down_product 1 (n - m) * down_product 1 (n + m)) by (apply Rmult_lt_0_compat; apply down_pos; lra).
  rewrite froot_exact by (change (0 <= down_product 1 (n - m) * down_product 1 (n + m)); lra). cbn [lbind]. rewrite fdiv_exact. unfold rdiv.
  change (@amul (@f_arith (fm_ops X)) (down_product 1 (n - m)) (down_product 1 (n + m))) with (down_product 1 (n - m) * down_product 1 (n + m)).
  assert (S := sqrt_lt_R0 _ P). destruct (Req_EM_T (sqrt (down_product 1 (n - m) * down_product 1 (n + m))) 0) as [F|_]; [lra|]. cbn [fpow exact_math]. rewrite pow_int. reflexivity.
Qed.
Lemma fget_exact e n m : fget e n m = get_coeff e n m. Proof. reflexivity. Qed.
(** a double sum in one accumulator and with the inner sums apart *)
Definition drop (t : option (option C)) : option C := match t with Some (Some z) => Some z | Some None => Some (RtoC 0) | None => None end.
Lemma fsum_exact {A : Type} (l : list A) g g' : (forall a, In a l -> drop (g a) = g' a) -> forall z, fsum X l g z = osum l g' z.
Proof.
  unfold fsum, osum. induction l as [|a l IH]; intros F z; cbn [fold_left]; [reflexivity|]. rewrite <- IH by (intros b I; apply F; right; auto). f_equal.
  rewrite <- (F a (or_introl eq_refl)). destruct z as [z|]; cbn [lbind]; [|reflexivity]. destruct (g a) as [[t|]|]; cbn [lbind drop]; [reflexivity| |reflexivity].
  f_equal. symmetry. exact (Cplus_0_r z).
Qed.
Lemma osum_shift {A : Type} (l : list A) (g : A -> option C) : forall z w, osum l g (Some (Cplus z w)) = lbind (osum l g (Some w)) (fun s => Some (Cplus z s)).
Proof.
  unfold osum. induction l as [|a l IH]; intros z w; cbn [fold_left]; [reflexivity|]. cbn [lbind]. destruct (g a) as [t|]; cbn [lbind].
  - rewrite <- Cplus_assoc. apply IH.
  - clear IH. induction l; auto.
Qed.
Lemma osum_none {A : Type} (l : list A) (g : A -> option C) : osum l g None = None. Proof. unfold osum. induction l; auto. Qed.
Lemma osum_cons {A : Type} a (l : list A) g z : osum (a :: l) g z = osum l g (lbind z (fun z => lbind (g a) (fun b => Some (Cplus z b)))).
Proof. reflexivity. Qed.
Lemma fsum2_exact l inner g g' : (forall nn mm, In nn l -> In mm (inner nn) -> drop (g nn mm) = g' nn mm) ->
  fsum2 X l inner g = osum l (fun nn => osum (inner nn) (g' nn) (Some (RtoC 0))) (Some (RtoC 0)).
Proof.
  intros F. assert (G : forall z, fold_left (fun o nn => fsum X (inner nn) (g nn) o) l z = osum l (fun nn => osum (inner nn) (g' nn) (Some (RtoC 0))) z); [|exact (G _)].
  induction l as [|nn l IH]; intros z; cbn [fold_left]; [reflexivity|]. rewrite IH by (intros; apply F; [right|]; auto). rewrite osum_cons. f_equal.
  rewrite (fsum_exact (inner nn) (g nn) (g' nn)) by (intros; apply F; [left|]; auto). destruct z as [z|]; cbn [lbind]; [|apply osum_none].
  rewrite <- (Cplus_0_r z) at 1. apply osum_shift.
Qed.
Lemma add_exact' p f f' C C' : (forall n m, (m <= n <= p)%nat -> f n m = f' n m) -> (forall i, C i = C' i) -> agree (fadd_loop X p f C) (add_loop p f' C').
Proof. exact (add_exact p f f' C C'). Qed.
Lemma same_nonzero e o o' : agree o o' -> same_result (fnonzero e o) (lbind o' (fun M => Some (Exp (e_p e) (e_center e) false M))).
Proof. unfold fnonzero. destruct o, o'; cbn; auto. intros A. split; [reflexivity|]. split; [reflexivity|]. split; [reflexivity|exact A]. Qed.
Lemma same_refl e : same e e. Proof. repeat split. Qed.
Lemma sgn_mul s x : @amul (@f_arith (fm_ops X)) s x = s * x. Proof. reflexivity. Qed.
Lemma m2m_exact other rho c beta n m : fm2m_coeff X re_pow_i other rho c beta n m = m2m_coeff other rho c beta n m.
Proof.
  unfold fm2m_coeff, m2m_coeff. apply fsum2_exact. intros nn mm _ _. unfold fm2m_term, m2m_term. cbv zeta. destruct (Nat.ltb (n - nn) _); [reflexivity|].
  rewrite fget_exact. destruct (get_coeff other _ _) as [g|]; cbn [lbind drop]; [|reflexivity]. rewrite leg_exact. destruct (GetAssLegFunSph nn _ c) as [P|]; cbn [lbind drop]; [|reflexivity].
  rewrite !fA_exact. destruct (A_n_m nn _) as [A1|]; cbn [lbind drop]; [|reflexivity]. destruct (A_n_m (n - nn) _) as [A2|]; cbn [lbind drop]; [|reflexivity].
  destruct (A_n_m n m) as [A3|]; cbn [lbind drop]; [|reflexivity]. rewrite fdiv_exact.
  replace (@amul (@f_arith (fm_ops X)) (@amul (@f_arith (fm_ops X)) (@amul (@f_arith (fm_ops X)) P (fpow X rho (Z.of_nat nn))) A1) A2) with (P * rho ^ nn * A1 * A2) by (cbn -[powerRZ]; rewrite pow_int; reflexivity).
  destruct (rdiv _ A3) as [r|]; cbn [lbind drop]; [|reflexivity]. f_equal. unfold fcmul, fcis, cis, Cmult, RtoC. cbn -[re_pow_i]. f_equal; ring.
Qed.
Lemma far_exact a b : ffar X a b = Some (if Rlt_dec (1 / 10000000) (distance a b) then true else false).
Proof. unfold ffar, fdistance. rewrite rel_exact. change (fsquare3 X (psub a b)) with (square (psub a b)). rewrite froot_exact by apply square_nonneg. reflexivity. Qed.
Lemma l2l_table_exact n m nn mm : fl2l_table X re_pow_i n m nn mm = l2l_table n m nn mm.
Proof.
  unfold fl2l_table, l2l_table. destruct (_ && _)%bool; [|reflexivity]. destruct (_ && _)%bool; [|reflexivity]. rewrite !fA_exact.
  destruct (A_n_m (nn - n) _) as [A1|]; cbn [lbind]; [|reflexivity]. destruct (A_n_m nn _) as [A2|]; cbn [lbind]; [|reflexivity]. destruct (A_n_m n m) as [A3|]; cbn [lbind]; [|reflexivity].
  rewrite fdiv_exact. destruct (rdiv A1 A2) as [q|]; cbn [lbind]; [|reflexivity]. cbn -[re_pow_i powerRZ pow Z.of_nat]. rewrite pow_int. reflexivity.
Qed.
Lemma m2l_table_exact n m nn mm : fm2l_table X re_pow_i n m nn mm = m2l_table n m nn mm.
Proof.
  unfold fm2l_table, m2l_table. destruct (_ && _)%bool; [|reflexivity]. rewrite !fA_exact.
  destruct (A_n_m nn _) as [A1|]; cbn [lbind]; [|reflexivity]. destruct (A_n_m (n + nn) _) as [A2|]; cbn [lbind]; [|reflexivity]. destruct (A_n_m n m) as [A3|]; cbn [lbind]; [|reflexivity].
  rewrite fdiv_exact. destruct (rdiv A1 A2) as [q|]; cbn [lbind]; [|reflexivity]. rewrite fdiv_exact. unfold rdiv.
  replace (fpow X (-1) (Z.of_nat nn)) with ((-1) ^ nn) by (cbn [fpow exact_math]; rewrite pow_int; reflexivity).
  destruct (Req_EM_T ((-1) ^ nn) 0) as [F|_]; [exfalso; exact (sign_nz nn F)|]. reflexivity.
Qed.
Lemma l2l_exact other rho c beta p n m : fl2l_coeff X re_pow_i other rho c beta p n m = l2l_coeff other rho c beta p n m.
Proof.
  unfold fl2l_coeff, l2l_coeff. apply fsum2_exact. intros nn mm _ _. unfold fl2l_term, l2l_term. cbv zeta. destruct (Nat.ltb (nn - n) _); [reflexivity|].
  rewrite fget_exact. destruct (get_coeff other _ _) as [g|]; cbn [lbind drop]; [|reflexivity]. rewrite leg_exact. destruct (GetAssLegFunSph (nn - n) _ c) as [P|]; cbn [lbind drop]; [|reflexivity].
  rewrite l2l_table_exact. destruct (l2l_table n m nn mm) as [t|]; cbn [lbind drop]; [|reflexivity]. f_equal.
  unfold fcmulr, fcmul, fcis, cis, Cmult, RtoC. cbn -[powerRZ Z.of_nat]. rewrite pow_int. f_equal; ring.
Qed.
Lemma m2l_exact other rho c beta p n m : fm2l_coeff X re_pow_i other rho c beta p n m = m2l_coeff other rho c beta p n m.
Proof.
  unfold fm2l_coeff, m2l_coeff. apply fsum2_exact. intros nn mm _ _. unfold fm2l_term, m2l_term. cbv zeta.
  rewrite fget_exact. destruct (get_coeff other _ _) as [g|]; cbn [lbind drop]; [|reflexivity]. rewrite leg_exact. destruct (GetAssLegFunSph (nn + n) _ c) as [P|]; cbn [lbind drop]; [|reflexivity].
  rewrite m2l_table_exact. destruct (m2l_table n m nn mm) as [t|]; cbn [lbind drop]; [|reflexivity]. f_equal.
  replace (fpow X rho (- Z.of_nat n - Z.of_nat nn - 1)) with (/ rho ^ (n + nn + 1)).
  2:{ cbn [fpow exact_math]. replace (- Z.of_nat n - Z.of_nat nn - 1)%Z with (- Z.of_nat (n + nn + 1))%Z by lia. rewrite powerRZ_neg', pow_int. reflexivity. }
  destruct g as [g1 g2]. destruct (Z.ltb mm 0); unfold fcmulr, fcmul, fcis, cis, Cmult, RtoC; cbn -[Z.of_nat pow]; f_equal; ring.
Qed.
Theorem C91_multipole_calls_without_rounding : forall e k, same_result (fm_apply X re_pow_i e k) (m_apply e k).
Proof.
  intros e k. destruct k as [q x|q x v|other sol|other]; cbn [fm_apply m_apply].
  - assert (A := C91_charge_without_rounding e q x). unfold fm_charge. destruct (Req_EM_T q 0) as [Q|Q]; [unfold m_add_charge; destruct (Req_EM_T q 0); [apply same_refl|contradiction]|].
    unfold m_add_charge in *. destruct (Req_EM_T q 0); [contradiction|]. destruct (fadd_charge X (e_p e) (e_center e) (e_coeffs e) q x) as [C'|]; destruct (spher _) as [[[rho c] beta]|]; cbn [lbind fnonzero] in *; try contradiction; auto.
    destruct (add_loop _ _ _) as [M|]; cbn [lbind] in *; [|contradiction]. repeat split. exact A.
  - assert (A := C91_dipole_without_rounding e q x v). unfold fm_dipole. destruct (Req_EM_T q 0) as [Q|Q]; [unfold m_add_normder; destruct (Req_EM_T q 0); [apply same_refl|contradiction]|].
    unfold m_add_normder in *. destruct (Req_EM_T q 0); [contradiction|]. cbv zeta in *. destruct (fadd_normder X (e_p e) (e_center e) (e_coeffs e) q x v) as [C'|]; cbn [fnonzero lbind];
    repeat match goal with H : same_coefficients _ (lbind ?o _) |- _ => destruct o; cbn [lbind] in *; try contradiction end; try exact I.
    repeat split. exact A.
  - unfold fm_add_scaled, m_add_scaled. destruct (_ || _)%bool; [apply same_refl|]. apply same_nonzero, add_exact; [|reflexivity]. intros n m _. rewrite fget_exact.
    destruct (get_coeff other n m) as [a|]; cbn [lbind]; [|reflexivity]. f_equal. unfold fcmulr, Cmult, RtoC. cbn. f_equal; ring.
  - unfold fm_translate, m_translate. destruct (e_zero other); [apply same_refl|]. apply same_nonzero. rewrite far_exact. cbn [lbind].
    destruct (Rlt_dec _ _); [|apply add_exact; [intros; apply fget_exact|reflexivity]]. rewrite rel_exact, spher_exact.
    destruct (spher _) as [[[rho c] beta]|]; cbn [lbind]; [|exact I]. apply add_exact; [intros; apply m2m_exact|reflexivity].
Qed.
Theorem C91_local_calls_without_rounding : forall e k, same_result (fl_apply X re_pow_i e k) (l_apply e k).
Proof.
  intros e k. destruct k as [other|other]; cbn [fl_apply l_apply].
  - unfold fl_translate, l_translate. destruct (e_zero other); [apply same_refl|]. apply same_nonzero. rewrite far_exact. cbn [lbind].
    destruct (Rlt_dec _ _); [|apply add_exact; [intros; apply fget_exact|reflexivity]]. rewrite rel_exact, spher_exact.
    destruct (spher _) as [[[rho c] beta]|]; cbn [lbind]; [|exact I]. apply add_exact; [intros; apply l2l_exact|reflexivity].
  - unfold fl_convert, l_convert. destruct (e_zero other); [apply same_refl|]. rewrite rel_exact, spher_exact.
    destruct (spher _) as [[[rho c] beta]|]; cbn [lbind]; [|exact I]. apply same_nonzero, add_exact; [intros; apply m2l_exact|reflexivity].
Qed.
Theorem C91_values_without_rounding : forall e x, fm_evaluate X e x = m_evaluate e x /\ fl_evaluate X e x = l_evaluate e x.
Proof.
  intros e x. split.
  - unfold fm_evaluate. destruct (e_zero e) eqn:Z; [unfold m_evaluate; rewrite Z; reflexivity|]. apply C91_evaluation_without_rounding, Z.
  - unfold fl_evaluate, l_evaluate. destruct (e_zero e); [reflexivity|]. rewrite rel_exact, spher_exact. destruct (spher _) as [[[rho c] beta]|]; cbn [lbind]; [|reflexivity].
    rewrite (fsum_exact (nm_pairs (e_p e)) (fl_eval_term X e rho c beta) (l_eval_term e rho c beta)); [reflexivity|].
    intros [n m] _. unfold fl_eval_term, l_eval_term. rewrite leg_exact, fget_exact. destruct (GetAssLegFunSph n m c) as [P|]; cbn [lbind drop]; [|reflexivity].
    destruct (get_coeff e n m) as [a|]; cbn [lbind drop]; [|reflexivity]. f_equal. destruct m; unfold fcmulr, fcmul, fcis, cis, Cmult, RtoC; cbn -[powerRZ Z.of_nat INR]; rewrite pow_int; f_equal; ring.
Qed.

(** ** Instances *)
Lemma rounded_signs : signs rounded_math.
Proof.
  intros n. unfold rounded_math. cbn [fpow]. rewrite pow_int. assert (S : (-1) ^ n = 1 \/ (-1) ^ n = -1).
  { induction n as [|n [IH|IH]]; cbn [pow]; [left; reflexivity| |]; rewrite IH; [right|left]; lra. }
  destruct S as [-> | ->]; [apply flx_1|]. change (-1) with (-(1)). rewrite flx_opp, flx_1. reflexivity.
Qed.
(** a history with a charge, a dipole, a rescaled and a translated expansion stays finite, its conversion and a value too; one dipole beside the axis,
    anywhere in a history, spoils it *)
Example C91_histories_nonvacuous : double_math rounded_math /\ signs rounded_math /\
  (let other := Exp 4 (Pt 2 0 3) false (fun _ => (1, 1)) in
   exists e l v, run (fm_apply rounded_math re_pow_i) (fresh 4 origin) [MCharge 1 near_point; MDipole 2 off_point sideways; MScaled other 3; MTranslate other] = Some e /\
     run (fl_apply rounded_math re_pow_i) (fresh 4 (Pt 8 0 0)) [LConvert e; LTranslate other] = Some l /\ fl_evaluate rounded_math l (Pt 7 0 0) = Some v) /\
  (forall before after, run (fm_apply rounded_math re_pow_i) (fresh 4 origin) (filter (fun k => match k with MCharge _ _ => true | _ => false end) before ++ [MDipole 2 near_point sideways] ++
     filter (fun k => match k with MCharge _ _ => true | _ => false end) after) = None).
Proof.
  split; [exact rounded_math_ok|]. split; [exact rounded_signs|].
  assert (Nn : near_point <> origin) by (unfold near_point, origin; intros F; injection F; intros; lra).
  assert (On : off_point <> origin) by (unfold off_point, origin; intros F; injection F; intros; lra).
  assert (Sn : nonzero sideways) by (unfold sideways; intros F; injection F; lra). split.
  - intros other.
    assert (A : exists e, run (fm_apply rounded_math re_pow_i) (fresh 4 origin) [MCharge 1 near_point; MDipole 2 off_point sideways; MScaled other 3; MTranslate other] = Some e).
    { apply (C91_which_histories_stay_finite rounded_math re_pow_i 4 origin _ rounded_math_ok rounded_signs ltac:(lia) origin_double).
      - repeat constructor.
      - apply Forall_cons; [right; exact Nn|]. apply Forall_cons; [|repeat constructor]. right. split; [exact On|]. split; [exact Sn|]. intros k Hk. rewrite off_relative in Hk.
        assert (B := C91_off_the_axis rounded_math off_point k rounded_math_ok On Hk). unfold axis2, height2, off_point in B. cbn [cx cy cz] in B.
        replace (2 ^ 50) with 1125899906842624 in B by (simpl; lra). specialize (B ltac:(lra)). split; lra. }
    destruct A as (e & A). assert (D8 : double_point (Pt 8 0 0)).
    { unfold double_point. cbn [cx cy cz]. assert (D := flx_double 0). rewrite flx_0 in D. split; [|auto]. generalize (double_IZR 8 0 eq_refl). cbn [bpow]. rewrite Rmult_1_r. auto. }
    assert (Ie : e_p e = 4%nat /\ e_center e = origin).
    { clear D8. rewrite !run_from in A. destruct (fm_apply _ _ _ (MCharge _ _)) as [e1|] eqn:E1; [|discriminate]. cbn [lbind] in A. rewrite run_from in A.
      destruct (fm_apply _ _ _ (MDipole _ _ _)) as [e2|] eqn:E2; [|discriminate]. cbn [lbind] in A. rewrite run_from in A.
      destruct (fm_apply _ _ _ (MScaled _ _)) as [e3|] eqn:E3; [|discriminate]. cbn [lbind] in A. rewrite run_from in A.
      destruct (fm_apply _ _ _ (MTranslate _)) as [e4|] eqn:E4; [|discriminate]. cbn [lbind] in A. injection A as <-.
      assert (K : forall a o r, fnonzero a o = Some r -> e_p r = e_p a /\ e_center r = e_center a) by (intros a [o|] r F; [injection F as <-; split; reflexivity|discriminate]).
      cbn [fm_apply] in E1, E2, E3, E4. unfold fm_charge in E1. destruct (Req_EM_T 1 0) in E1; [lra|]. apply K in E1. unfold fm_dipole in E2. destruct (Req_EM_T 2 0) in E2; [lra|]. apply K in E2.
      unfold fm_add_scaled in E3. destruct (_ || _)%bool in E3; [injection E3 as <-|apply K in E3]; (unfold fm_translate in E4; cbn [other e_zero] in E4; apply K in E4; destruct E4 as (-> & ->); destruct E2 as (F2 & G2), E1 as (F1 & G1)).
      - rewrite F2, G2, F1, G1. split; reflexivity.
      - destruct E3 as (-> & ->). rewrite F2, G2, F1, G1. split; reflexivity. }
    assert (B : exists l, run (fl_apply rounded_math re_pow_i) (fresh 4 (Pt 8 0 0)) [LConvert e; LTranslate other] = Some l).
    { apply (C91_which_local_histories_stay_finite rounded_math re_pow_i 4 (Pt 8 0 0) _ rounded_math_ok rounded_signs ltac:(lia) D8).
      - apply Forall_cons; [apply Ie|]. repeat constructor.
      - apply Forall_cons; [|repeat constructor]. right. rewrite (proj2 Ie). unfold origin. intros F. injection F. lra. }
    destruct B as (l & B). assert (Il : e_p l = 4%nat /\ e_center l = Pt 8 0 0).
    { rewrite !run_from in B. destruct (fl_apply _ _ _ (LConvert _)) as [e1|] eqn:E1; [|discriminate]. cbn [lbind] in B. rewrite run_from in B.
      destruct (fl_apply _ _ _ (LTranslate _)) as [e2|] eqn:E2; [|discriminate]. cbn [lbind] in B. injection B as <-.
      assert (K : forall a o r, fnonzero a o = Some r -> e_p r = e_p a /\ e_center r = e_center a) by (intros a [o|] r F; [injection F as <-; split; reflexivity|discriminate]).
      cbn [fl_apply] in E1, E2. unfold fl_convert in E1. unfold fl_translate in E2. cbn [other e_zero] in E2. apply K in E2. destruct E2 as (-> & ->).
      destruct (e_zero e) in E1; [injection E1 as <-; split; reflexivity|]. apply K in E1. destruct E1 as (-> & ->). split; reflexivity. }
    destruct Il as (P4 & C8). destruct (C91_local_evaluation_is_finite rounded_math rounded_math_ok l (Pt 7 0 0)) as (v & V); [lia|rewrite C8; exact D8|right; rewrite C8; intros F; injection F; lra|].
    exists e, l, v. auto.
  - intros before after. match goal with |- ?x = None => destruct x as [e|] eqn:E; [|reflexivity] end. exfalso.
    assert (O : forall l, Forall (of_order 4) (filter (fun k => match k with MCharge _ _ => true | _ => false end) l)).
    { intros l. apply Forall_forall. intros k Hk. apply filter_In in Hk. destruct Hk as (_ & Hk). destruct k; try discriminate Hk; exact Logic.I. }
    match type of E with run _ _ ?calls = _ => assert (O2 : Forall (of_order 4) calls) end.
    { apply Forall_app. split; [apply O|]. apply Forall_app. split; [|apply O]. repeat constructor. }
    assert (A := proj1 (C91_which_histories_stay_finite rounded_math re_pow_i 4 origin _ rounded_math_ok rounded_signs ltac:(lia) origin_double O2) (ex_intro _ e E)).
    apply Forall_app in A. destruct A as (_ & A). apply Forall_app in A. destruct A as (A & _). inversion A as [|k l Hk _ Ek]. destruct Hk as [Hk|(_ & _ & Hk)]; [lra|].
    rewrite near_relative in Hk. destruct (C91_cosine_stays_in_range rounded_math near_point rounded_math_ok) as (c & Hc & _ & _); [rewrite <- near_relative; apply rel_double, rounded_math_ok|exact Nn|].
    destruct (C91_near_the_axis rounded_math near_point c rounded_math_ok) as [F|F]; [rewrite <- near_relative; apply rel_double, rounded_math_ok|unfold near_point; cbn; lra|exact Hc| |exact (proj1 (Hk c Hc) F)|exact (proj2 (Hk c Hc) F)].
    unfold axis2, height2, near_point. cbn [cx cy cz bpow]. change (Z.pow_pos radix2 28) with 268435456%Z. replace (2 ^ 55) with 36028797018963968 by (simpl; lra). lra.
Qed.
