(** * Accuracy of the multipole and local expansions. *)
From Coq Require Import ZArith List Reals Lia Lra Bool.
From Coquelicot Require Import Coquelicot.
From Verif Require Import ModelLegendre ModelLegApi ModelExp SpecLegendre ProofsLegendre ProofsLegCheck PropLegendre ProofsHarm ProofsHarm2 ProofsHarm3 SpecExp ProofsExp ProofsExp2 ProofsExp3 ProofsExp4 ProofsAcc1 ProofsAcc2 ProofsAcc3 ProofsAcc4 ProofsAcc5 ProofsAcc6 ProofsAcc7 ProofsAcc8 ProofsAcc9 SpecAcc.
Import ListNotations.
Local Open Scope R_scope.

Lemma sum_over_rsum {A} (l : list A) f : sum_over l f = rsum l f.
Proof. induction l as [|a l IH]; [reflexivity|]. cbn. rewrite IH. reflexivity. Qed.
(** what an expansion of the sources l about c contains *)
Definition carries (p : nat) (c : pt) (l : list source) (e : expansion) : Prop :=
  e_p e = p /\ e_center e = c /\ sound e /\
  (forall n m, (m <= n <= p)%nat -> (RtoC (aa n m) * at_ e n m = RtoC ((-1) ^ n) * mus c l n (- Z.of_nat m))%C) /\
  List.Forall (fun s => strength s = 0 \/ match s with Charge _ _ => True | Dipole _ _ v => v <> Pt 0 0 0 end) l.
Lemma mus_app c l l' n j : mus c (l ++ l') n j = (mus c l n j + mus c l' n j)%C.
Proof. unfold mus. apply csum_app. Qed.
Lemma mu1_scale c k s n j : mu1 c (scale k s) n j = (RtoC k * mu1 c s n j)%C.
Proof. destruct s; cbn; rewrite RtoC_mult; ring. Qed.
Lemma mus_scale c k l n j : mus c (map (scale k) l) n j = (RtoC k * mus c l n j)%C.
Proof. unfold mus. rewrite csum_map, <- csum_scal. apply csum_ext. intros s _. apply mu1_scale. Qed.
Lemma carries_moments p c l e : carries p c l e -> moments p (at_ e) (mus c l).
Proof. intros (_ & _ & _ & Co & _). apply moments_intro; [exact Co|apply mus_conj|apply mus_support]. Qed.
Lemma carries_real p c l e k : carries p c l e -> (k <= p)%nat -> Cconj (at_ e k 0) = at_ e k 0%nat.
Proof.
  intros (_ & _ & _ & Co & _) L. assert (E := Co k 0%nat ltac:(lia)). change (- Z.of_nat 0)%Z with 0%Z in E.
  apply (Ceq_reg_l (RtoC (aa k 0))); [apply aaC_nz|]. rewrite E. assert (E' := f_equal Cconj E). rewrite !Cconj_mult, !Cconj_R, mus_conj in E'. rewrite E'.
  change (- 0)%Z with 0%Z. change (sgz 0) with 1. ring.
Qed.
Lemma carries_zero p c l e : carries p c l e -> e_zero e = true -> forall n j, (n <= p)%nat -> mus c l n j = RtoC 0.
Proof.
  intros (Ep & _ & So & Co & _) Z n j L.
  assert (P : forall m, (m <= n)%nat -> mus c l n (- Z.of_nat m) = RtoC 0).
  { intros m Lm. assert (E := Co n m ltac:(lia)). rewrite (So Z n m) in E by lia. apply (Ceq_reg_l (RtoC ((-1) ^ n))); [apply rC_nz, pow_nonzero; lra|]. rewrite <- E. ring. }
  destruct (Z_le_gt_dec (Z.abs j) (Z.of_nat n)) as [B|B]; [|apply mus_support; lia].
  destruct (Z_le_gt_dec j 0) as [S0|S0].
  - replace j with (- Z.of_nat (absn j))%Z by (unfold absn; lia). apply P. unfold absn. lia.
  - assert (E := mus_conj c l n (- j)). rewrite Z.opp_involutive in E. replace (- j)%Z with (- Z.of_nat (absn j))%Z in E at 1 by (unfold absn; lia). rewrite P in E by (unfold absn; lia).
    apply (Ceq_reg_l (RtoC (sgz (- j)))); [apply rC_nz; intros Q; assert (W := sgz_sq (- j)); rewrite Q in W; lra|]. rewrite <- E. apply Ceq; cbn; ring.
Qed.
Lemma sound_move b p c M : b = false -> sound (Exp p c b M). Proof. intros -> Q. discriminate. Qed.
Lemma distance_rho x y : distance x y = rho_ (psub x y). Proof. reflexivity. Qed.
Lemma carries_translate p c l e c' l' other : (p <= 20)%nat -> carries p c l e -> carries p c' l' other -> movable c' c ->
  exists e', m_translate e other = Some e' /\ carries p c (l ++ l') e'.
Proof.
  intros Lp Ce Co Mv. assert (Mo := carries_moments _ _ _ _ Co). assert (Zr := carries_zero _ _ _ _ Co). destruct Ce as (E1 & E2 & E3 & E4 & E5). destruct Co as (O1 & O2 & O3 & O4 & O5).
  unfold m_translate. destruct (e_zero other) eqn:Zo.
  { eexists. split; [reflexivity|]. rewrite andb_true_r. split; [exact E1|]. split; [exact E2|]. split; [intros Z n m L; apply E3; auto|]. split; [|apply Forall_app; auto].
    intros n m L. rewrite mus_app.
    assert (Z0 : mus c l' n (- Z.of_nat m) = RtoC 0).
    { rewrite (mus_conv c' c). unfold conv. apply csum_zero. intros k Hk. apply in_seq in Hk. apply csum_zero. intros j _. rewrite Zr by (auto; lia). ring. }
    rewrite Z0. rewrite Cplus_0_r. exact (E4 n m L). }
  assert (Tm : exists f, (if Rlt_dec (1 / 10000000) (distance (e_center other) (e_center e)) then bind (spher (psub (e_center other) (e_center e))) (fun s => let '(rho, c, beta) := s in add_loop (e_p e) (m2m_coeff other rho c beta) (e_coeffs e)) else add_loop (e_p e) (fun n m => get_coeff other n m) (e_coeffs e)) = add_loop p f (e_coeffs e) /\
    forall n m, (m <= n <= p)%nat -> exists z, f n m = Some z /\ (RtoC (aa n m) * z = RtoC ((-1) ^ n) * mus c l' n (- Z.of_nat m))%C).
  { rewrite O2, E2, E1. destruct (Rlt_dec (1 / 10000000) (distance c' c)) as [Ds|Ds].
    - assert (ND : rho_ (psub c' c) <> 0) by (unfold distance in Ds; unfold rho_; lra). rewrite spher_some by auto. cbn [bind]. eexists. split; [reflexivity|]. intros n m L.
      destruct (m2m_coeff_ok other (psub c' c) (mus c' l') p n m ND ltac:(rewrite O1; exact Mo) ltac:(lia) L ltac:(lia)) as (z & A & B). exists z. split; auto. rewrite B, <- mus_conv. reflexivity.
    - destruct Mv as [<-|?]; [|contradiction]. exists (fun n m => get_coeff other n m). split; [reflexivity|]. intros n m L. exists (at_ other n m). split; [apply get_some; lia|]. apply O4; auto. }
  destruct Tm as (f & -> & Tm).
  set (g := fun n m => match f n m with Some z => z | None => RtoC 0 end).
  assert (Fg : forall n m, (m <= n <= p)%nat -> f n m = Some (g n m)) by (intros n m L; destruct (Tm n m L) as (z & A & _); unfold g; rewrite A; reflexivity).
  destruct (add_loop_some p f g (e_coeffs e) Fg) as (M & A & B & _). rewrite A. cbn [bind]. eexists. split; [reflexivity|].
  split; [exact E1|]. split; [exact E2|]. split; [apply sound_move; auto|]. split; [|apply Forall_app; auto].
  intros n m L. unfold at_. cbn [e_coeffs]. rewrite B by auto. destruct (Tm n m L) as (z & F & G). unfold g. rewrite F. rewrite mus_app, !Cmult_plus_distr_l, G. f_equal. apply E4; auto.
Qed.
Lemma carries_scaled p c l e l' other k : carries p c l e -> carries p c l' other ->
  exists e', m_add_scaled e other k = Some e' /\ carries p c (l ++ map (scale k) l') e'.
Proof.
  intros Ce Co. assert (Zr := carries_zero _ _ _ _ Co). destruct Ce as (E1 & E2 & E3 & E4 & E5). destruct Co as (O1 & O2 & O3 & O4 & O5).
  assert (Fl : List.Forall (fun s => strength s = 0 \/ match s with Charge _ _ => True | Dipole _ _ v => v <> Pt 0 0 0 end) (l ++ map (scale k) l')).
  { apply Forall_app. split; auto. rewrite Forall_forall in *. intros s Hs. apply in_map_iff in Hs as (t & <- & Ht). destruct (O5 t Ht) as [Z|Z]; destruct t; cbn in *; auto; left; rewrite Z; ring. }
  unfold m_add_scaled. destruct (e_zero other) eqn:Zo; [|destruct (Req_EM_T k 0) as [->|Nk]]; cbn [orb].
  - exists e. split; [reflexivity|]. repeat split; auto. intros n m L. rewrite mus_app, mus_scale, Zr by (auto; lia). rewrite Cmult_0_r, Cplus_0_r. auto.
  - exists e. split; [reflexivity|]. repeat split; auto. intros n m L. rewrite mus_app, mus_scale, Cmult_0_l, Cplus_0_r. auto.
  - destruct (add_loop_some (e_p e) (fun n m => bind (get_coeff other n m) (fun a => Some (Cmult a (RtoC k)))) (fun n m => (at_ other n m * RtoC k)%C) (e_coeffs e)) as (M & A & B & _).
    + intros n m L. rewrite get_some by lia. reflexivity.
    + rewrite A. cbn [bind]. eexists. split; [reflexivity|]. split; [exact E1|]. split; [exact E2|]. split; [apply sound_move; auto|]. split; [|auto].
      intros n m L. unfold at_. cbn [e_coeffs]. rewrite B by lia. rewrite mus_app, mus_scale, !Cmult_plus_distr_l. f_equal; [apply E4; auto|].
      rewrite Cmult_assoc, O4 by auto. ring.
Qed.
Lemma carries_source p c l e s : (p <= 20)%nat -> carries p c l e -> regular c s -> exists e', add_source e s = Some e' /\ carries p c (l ++ [s]) e'.
Proof.
  intros Lp (E1 & E2 & E3 & E4 & E5) Rg. destruct (add_source_ok e s ltac:(lia) ltac:(rewrite E2; auto)) as (e' & A & P & Cc & Zz & Co & _).
  exists e'. split; [exact A|]. split; [congruence|]. split; [congruence|]. split; [|split].
  - intros Z n m L. rewrite Zz in Z. apply andb_true_iff in Z as [Z1 Z2]. rewrite Co by lia. rewrite (E3 Z1 n m) by lia. rewrite contrib_0; [ring|].
    apply negb_true_iff in Z2. unfold nonzero in Z2. destruct (Req_EM_T (strength s) 0); [auto|discriminate].
  - intros n m L. rewrite Co by lia. rewrite mus_app, !Cmult_plus_distr_l, E4 by auto. f_equal. rewrite E2, contrib_mu by (auto; lia). unfold mus. cbn. ring.
  - apply Forall_app. split; auto. constructor; auto. destruct s; cbn in *; [destruct Rg; auto|]. destruct Rg as [?|[_ ?]]; auto.
Qed.
Lemma multipole_carries p c l e : (p <= 20)%nat -> multipole_of p c l e -> carries p c l e.
Proof.
  intros Lp M. induction M as [c|c l e s e' M IH Rg A|c l e l' other k e' M IH M' IH' A|c l e c' l' other e' M IH M' IH' Mv A].
  - repeat split; auto. intros n m L. unfold at_, mus. cbn. ring.
  - destruct (carries_source p c l e s Lp IH Rg) as (e2 & B & D). congruence.
  - destruct (carries_scaled p c l e l' other k IH IH') as (e2 & B & D). congruence.
  - destruct (carries_translate p c l e c' l' other Lp IH IH' Mv) as (e2 & B & D). congruence.
Qed.

(** ** Values *)
Lemma rho_unit v : v <> Pt 0 0 0 -> rho_ (unit v) = 1.
Proof.
  intros N. apply square_nz in N. assert (P := square_nonneg v). unfold rho_, unit, square. cbn. unfold norm. set (s := sqrt (square v)).
  assert (SS : s * s = square v) by (apply sqrt_sqrt; auto). assert (Ns : s <> 0) by (intros Q; rewrite Q in SS; lra).
  replace (cx v / s * (cx v / s) + cy v / s * (cy v / s) + cz v / s * (cz v / s)) with (square v / (s * s)) by (unfold square; field; auto). rewrite SS.
  unfold Rdiv. rewrite Rinv_r by auto. apply sqrt_1.
Qed.
Lemma unit_vector_unit v : unit_vector v = unit v.
Proof. unfold unit_vector, unit, norm, square. replace (cx v ^ 2 + cy v ^ 2 + cz v ^ 2) with (cx v * cx v + cy v * cy v + cz v * cz v) by ring. reflexivity. Qed.
Lemma potential_dpot q y v x : potential (Dipole q y v) x = q * dpot (psub x y) (unit v).
Proof. unfold potential. cbv zeta. rewrite unit_vector_unit, distance_rho. unfold dpot, dot, Rdiv, psub. cbn [cx cy cz]. ring. Qed.
(** the term of degree n of the multipole series of a source *)
Definition sterm (c x : pt) (s : source) (n : nat) : R := tm (psub x c) n (mu1 c s n).
Lemma tm_mus c x l n : tm (psub x c) n (mus c l n) = rsum l (fun s => sterm c x s n).
Proof. unfold mus. rewrite (tm_csum (psub x c) n l (fun s m => mu1 c s n m)). reflexivity. Qed.
Lemma source_error p c x s : (strength s = 0 \/ match s with Charge _ _ => True | Dipole _ _ v => v <> Pt 0 0 0 end) -> distance (position s) c < distance x c ->
  Rabs (rsum (seq 0 (p + 1)) (sterm c x s) - potential s x) <= error s p (distance (position s) c) (distance x c).
Proof.
  intros Nz L. rewrite !distance_rho in *. assert (Ps : forall y, psub (psub x c) (psub y c) = psub x y) by (intros y; unfold psub; cbn; f_equal; ring).
  destruct s as [q y|q y v]; cbn [position strength error unit_error] in *; unfold error; cbn [strength unit_error].
  - assert (T := newton_tail (psub x c) (psub y c) p L). rewrite Ps in T.
    rewrite (rsum_ext _ _ (fun n => q * nb (psub x c) (psub y c) n)).
    + rewrite rsum_scal. unfold potential. rewrite distance_rho. replace (q * rsum (seq 0 (p + 1)) (nb (psub x c) (psub y c)) - q / rho_ (psub x y)) with (- q * (/ rho_ (psub x y) - rsum (seq 0 (p + 1)) (nb (psub x c) (psub y c)))) by (unfold Rdiv; ring).
      rewrite Rabs_mult, Rabs_Ropp. apply Rmult_le_compat_l; [apply Rabs_pos|auto].
    + intros n _. transitivity (tm (psub x c) n (fun m => RtoC q * H (psub y c) n m)%C); [reflexivity|]. rewrite (tm_scal _ _ q (H (psub y c) n)), tm_charge. reflexivity.
  - assert (T := dRem_bound (psub x c) (psub y c) (unit v) p L). rewrite Ps in T.
    rewrite (rsum_ext _ _ (fun n => q * dnb (psub x c) (psub y c) (unit v) n)).
    + rewrite rsum_scal, potential_dpot. replace (q * rsum (seq 0 (p + 1)) (dnb (psub x c) (psub y c) (unit v)) - q * dpot (psub x y) (unit v)) with (- q * (dpot (psub x y) (unit v) - rsum (seq 0 (p + 1)) (dnb (psub x c) (psub y c) (unit v)))) by ring.
      rewrite Rabs_mult, Rabs_Ropp. destruct Nz as [->|Nv]; [rewrite Rabs_R0, !Rmult_0_l; lra|]. apply Rmult_le_compat_l; [apply Rabs_pos|]. eapply Rle_trans; [exact T|]. rewrite rho_unit by auto. right. unfold s2, G. ring.
    + intros n _. transitivity (tm (psub x c) n (fun m => RtoC q * dH (psub y c) (unit v) n m)%C); [reflexivity|]. rewrite (tm_scal _ _ q (dH (psub y c) (unit v) n)). reflexivity.
Qed.
Lemma rsum_diff {A} (l : list A) f g e : (forall a, In a l -> Rabs (f a - g a) <= e a) -> Rabs (rsum l f - rsum l g) <= rsum l e.
Proof. intros B. rewrite <- rsum_minus. eapply Rle_trans; [apply rsum_abs|]. apply rsum_le. exact B. Qed.
Lemma multipole_accuracy p c l e x : (p <= 20)%nat -> carries p c l e -> x <> c -> List.Forall (fun s => distance (position s) c < distance x c) l ->
  exists v, m_evaluate e x = Some v /\ Rabs (v - potentials l x) <= sum_over l (fun s => error s p (distance (position s) c) (distance x c)).
Proof.
  intros Lp Ca Nx Fa. assert (Mo := carries_moments _ _ _ _ Ca). destruct Ca as (E1 & E2 & E3 & E4 & E5). rewrite m_eval_ok by (rewrite ?E1, ?E2; auto; lia).
  eexists. split; [reflexivity|]. rewrite E1, E2. rewrite (full_mom p (at_ e) (mus c l)) by (auto; intros k j; apply mus_conj).
  rewrite (rsum_ext _ _ (fun n => rsum l (fun s => sterm c x s n))) by (intros; apply tm_mus). rewrite rsum_swap. unfold potentials. change (@sum_over source) with (@rsum source). apply rsum_diff.
  intros s Hs. rewrite Forall_forall in Fa, E5. apply source_error; auto.
Qed.

(** ** Local expansions *)
Definition mval (p : nat) (x : pt) (t : pt * pt * list source) : R :=
  let '(cm, cl, l) := t in rsum (seq 0 (p + 1)) (fun n => rsum (seq 0 (p + 1)) (tv (psub cm cl) (psub x cl) (mus cm l) n)).
Definition lcarries (p : nat) (c : pt) (g : list (pt * pt * list source)) (e : expansion) : Prop :=
  e_p e = p /\ e_center e = c /\ sound e /\ forall x, fst (full (at_ e) (fun _ => 1) (psub x c) p) = rsum g (mval p x).
Lemma mus_csym c l : csym (mus c l). Proof. intros k j. apply mus_conj. Qed.
Lemma mus_supp c l k : supp k (mus c l k). Proof. intros j. apply mus_support. Qed.
Lemma tv_zero D x mu n k : (forall j, mu k j = RtoC 0) -> tv D x mu n k = 0.
Proof.
  intros Z. unfold tv. assert (S0 : forall m, star n (H x n) (mu k) m = RtoC 0) by (intros m; unfold star; apply csum_zero; intros l _; rewrite Z; ring).
  rewrite (tm_ext D (n + k) _ (fun m => RtoC 0 * RtoC 0)%C) by (intros; rewrite S0; ring). rewrite (tm_scal D (n + k) 0 (fun _ => RtoC 0)). ring.
Qed.
Lemma lcarries_convert p c g e c' l m : (p <= 10)%nat -> lcarries p c g e -> carries p c' l m -> c' <> c ->
  exists e', l_convert e m = Some e' /\ lcarries p c (g ++ [(c', c, l)]) e'.
Proof.
  intros Lp (E1 & E2 & E3 & E4) Cm Nc. assert (Mo := carries_moments _ _ _ _ Cm). assert (Zr := carries_zero _ _ _ _ Cm). assert (Re := fun k => carries_real p c' l m k Cm).
  destruct Cm as (M1 & M2 & M3 & M4 & M5). unfold l_convert. destruct (e_zero m) eqn:Zm.
  - exists e. split; [reflexivity|]. repeat split; auto. intros x. rewrite rsum_app, E4. cbn [rsum mval]. rewrite (rsum_zero (seq 0 (p + 1))); [ring|].
    intros n _. apply rsum_zero. intros k Hk. apply in_seq in Hk. apply tv_zero. intros j. apply Zr; auto. lia.
  - rewrite M2, E2. assert (ND : rho_ (psub c' c) <> 0) by (apply rho_sub; auto). rewrite spher_some by auto. cbn [bind]. rewrite E1.
    destruct (add_loop_some p _ _ (e_coeffs e) (fun n k L => m2l_coeff_ok (mus c' l) (psub c' c) p (mus_csym c' l) m n k ltac:(rewrite M1; exact Mo) ltac:(rewrite M1; exact Re) ND ltac:(lia) Lp L)) as (M & A & B & _).
    rewrite A. cbn [bind]. eexists. split; [reflexivity|]. split; [reflexivity|]. split; [reflexivity|]. split; [apply sound_move; auto|].
    intros x. rewrite rsum_app. cbn [rsum mval]. rewrite Rplus_0_r.
    set (h := fun n k => (RtoC (aa n k * ((-1) ^ n * sigma (Z.of_nat k))) * Lc (mus c' l) (psub c' c) p n (Z.of_nat k))%C).
    rewrite (full_ext _ (fun n k => at_ e n k + h n k)%C) by (intros n k L; unfold at_; cbn [e_coeffs]; apply B; auto). rewrite full_plus, fst_plus, E4. f_equal.
    rewrite <- Lc_full by (intros; apply mus_supp). unfold full. apply fst_csum. intros n Hn. apply in_seq in Hn. rewrite Cmult_1_l. f_equal. apply csum_ext. intros j Hj. apply sym_in in Hj. f_equal.
    apply (lam_of h (Lc (mus c' l) (psub c' c) p)); [reflexivity| |lia]. intros i. apply Lc_conj. apply mus_csym.
Qed.
Lemma lcarries_translate p c g e c' g' other : (p <= 10)%nat -> lcarries p c g e -> lcarries p c' g' other -> movable c' c ->
  exists e', l_translate e other = Some e' /\ lcarries p c (g ++ g') e'.
Proof.
  intros Lp (E1 & E2 & E3 & E4) (O1 & O2 & O3 & O4) Mv. unfold l_translate. destruct (e_zero other) eqn:Zo.
  - exists e. split; [reflexivity|]. repeat split; auto. intros x. rewrite rsum_app, E4.
    assert (Q := O4 x). rewrite (full_ext (at_ other) (fun _ _ => RtoC 0)) in Q by (intros; apply O3; auto; lia). rewrite full_zero in Q. cbn in Q. rewrite <- Q. ring.
  - rewrite O2, E2, E1. destruct (Rlt_dec (1 / 10000000) (distance c' c)) as [Ds|Ds].
    + assert (ND : rho_ (psub c' c) <> 0) by (unfold distance in Ds; unfold rho_; lra). rewrite spher_some by auto. cbn [bind].
      destruct (add_loop_some p _ _ (e_coeffs e) (fun n m L => l2l_coeff_ok other (psub c' c) p n m ND ltac:(lia) Lp L)) as (M & A & B & _). rewrite A. cbn [bind].
      eexists. split; [reflexivity|]. split; [reflexivity|]. split; [reflexivity|]. split; [apply sound_move; auto|]. intros x. rewrite rsum_app.
      set (h := fun n k => (RtoC (aa n k * ((-1) ^ n * sigma (Z.of_nat k))) * Lam (at_ other) (psub c' c) p n (Z.of_nat k))%C).
      rewrite (full_ext _ (fun n k => at_ e n k + h n k)%C) by (intros n k L; unfold at_; cbn [e_coeffs]; apply B; auto). rewrite full_plus, fst_plus, E4. f_equal.
      rewrite (L2L_full (at_ other) h (psub c' c)) by reflexivity. rewrite <- O4. f_equal. f_equal. unfold psub, padd3, pneg. cbn. f_equal; ring.
    + destruct Mv as [<-|?]; [|contradiction]. destruct (add_loop_some p (fun n m => get_coeff other n m) (at_ other) (e_coeffs e)) as (M & A & B & _); [intros; apply get_some; lia|]. rewrite A. cbn [bind].
      eexists. split; [reflexivity|]. split; [reflexivity|]. split; [reflexivity|]. split; [apply sound_move; auto|]. intros x. rewrite rsum_app.
      rewrite (full_ext _ (fun n k => at_ e n k + at_ other n k)%C) by (intros n k L; unfold at_; cbn [e_coeffs]; apply B; auto). rewrite full_plus, fst_plus, E4, O4. reflexivity.
Qed.
Lemma local_carries p c g e : (p <= 10)%nat -> List.Forall (fun t => fst (fst t) <> snd (fst t)) g -> local_of p c g e -> lcarries p c g e.
Proof.
  intros Lp Fa M. induction M as [c|c g e c' l m e' M IH Mm A|c g e c' g' other e' M IH M' IH' Mv A].
  - repeat split; auto. intros x. unfold at_. cbn [fresh e_coeffs]. rewrite full_zero. reflexivity.
  - apply Forall_app in Fa as [F1 F2]. inversion F2 as [|? ? N _]; subst. cbn in N. destruct (lcarries_convert p c g e c' l m Lp (IH F1) (multipole_carries p c' l m ltac:(lia) Mm) N) as (e2 & B & D). congruence.
  - apply Forall_app in Fa as [F1 F2]. destruct (lcarries_translate p c g e c' g' other Lp (IH F1) (IH' F2) Mv) as (e2 & B & D). congruence.
Qed.
(** the truncated double series of a source *)
Definition dterm (cm cl x : pt) (s : source) (n k : nat) : R := tv (psub cm cl) (psub x cl) (mu1 cm s) n k.
Lemma tv_mus D x c l n k : tv D x (mus c l) n k = rsum l (fun s => tv D x (mu1 c s) n k).
Proof.
  transitivity (tv D x (fun k j => csum l (fun s => RtoC 1 * mu1 c s k j)%C) n k).
  - unfold tv. f_equal. apply tm_ext. intros m. unfold star. apply csum_ext. intros j _. f_equal. unfold mus. apply csum_ext. intros s _. ring.
  - rewrite (tv_sum l (fun _ => 1) (mu1 c)). apply rsum_ext. intros s _. ring.
Qed.
Lemma mval_sum p x cm cl l : mval p x (cm, cl, l) = rsum l (fun s => rsum (seq 0 (p + 1)) (fun n => rsum (seq 0 (p + 1)) (dterm cm cl x s n))).
Proof.
  cbn [mval]. rewrite (rsum_swap l). apply rsum_ext. intros n _. rewrite (rsum_swap l). apply rsum_ext. intros k _. apply tv_mus.
Qed.
Lemma tv_q D x q f n k : tv D x (fun k j => RtoC q * f k j)%C n k = q * tv D x f n k.
Proof.
  assert (E := tv_sum [tt] (fun _ => q) (fun _ => f) D x n k). cbn [csum rsum] in E. rewrite Rplus_0_r in E. rewrite <- E. unfold tv. f_equal. apply tm_ext. intros m. unfold star. apply csum_ext. intros j _. cbn. ring.
Qed.
Lemma source_m2l p cm cl x s : (strength s = 0 \/ match s with Charge _ _ => True | Dipole _ _ v => v <> Pt 0 0 0 end) ->
  distance x cl + distance (position s) cm < distance cm cl ->
  Rabs (rsum (seq 0 (p + 1)) (fun n => rsum (seq 0 (p + 1)) (dterm cm cl x s n)) - potential s x) <= INR (p + 1) * error s p (distance x cl + distance (position s) cm) (distance cm cl).
Proof.
  intros Nz L. rewrite !distance_rho in *.
  assert (Ps : forall y, psub (psub cm cl) (psub (psub x cl) (psub y cm)) = pneg (psub x y)) by (intros y; unfold psub, pneg; cbn; f_equal; ring).
  unfold dterm. destruct s as [q y|q y v]; cbn [position strength] in *; unfold error; cbn [strength unit_error mu1].
  - assert (T := charge_m2l (psub cm cl) (psub x cl) (psub y cm) _ p (Rle_refl _) L). rewrite Ps, rho_neg in T.
    rewrite (rsum_ext _ _ (fun n => q * rsum (seq 0 (p + 1)) (tv (psub cm cl) (psub x cl) (H (psub y cm)) n))).
    + rewrite rsum_scal. unfold potential. rewrite distance_rho. set (S1 := rsum _ _) in *. replace (q * S1 - q / rho_ (psub x y)) with (- q * (/ rho_ (psub x y) - S1)) by (unfold Rdiv; ring).
      rewrite Rabs_mult, Rabs_Ropp. rewrite <- Rmult_assoc, (Rmult_comm (INR (p + 1))), Rmult_assoc. apply Rmult_le_compat_l; [apply Rabs_pos|auto].
    + intros n _. rewrite <- rsum_scal. apply rsum_ext. intros k _. apply tv_q.
  - assert (T := dipole_m2l (psub cm cl) (psub x cl) (psub y cm) (unit v) _ p (Rle_refl _) L). rewrite Ps in T.
    assert (Dp : forall d w, dpot (pneg d) (pneg w) = dpot d w) by (intros d w; unfold dpot; rewrite rho_neg; unfold dot, pneg; cbn; unfold Rdiv; f_equal; ring). rewrite Dp in T.
    rewrite (rsum_ext _ _ (fun n => q * rsum (seq 0 (p + 1)) (tv (psub cm cl) (psub x cl) (dH (psub y cm) (unit v)) n))).
    + rewrite rsum_scal, potential_dpot. set (S1 := rsum _ _) in *. replace (q * S1 - q * dpot (psub x y) (unit v)) with (- q * (dpot (psub x y) (unit v) - S1)) by ring.
      rewrite Rabs_mult, Rabs_Ropp. rewrite <- Rmult_assoc, (Rmult_comm (INR (p + 1))), Rmult_assoc. destruct Nz as [->|Nv]; [rewrite Rabs_R0, !Rmult_0_l; lra|]. apply Rmult_le_compat_l; [apply Rabs_pos|].
      eapply Rle_trans; [exact T|]. rewrite rho_unit by auto. right. unfold s2, G. ring.
    + intros n _. rewrite <- rsum_scal. apply rsum_ext. intros k _. apply tv_q.
Qed.
Lemma local_sources p c g e : (p <= 20)%nat -> local_of p c g e -> List.Forall (fun s => strength s = 0 \/ match s with Charge _ _ => True | Dipole _ _ v => v <> Pt 0 0 0 end) (all_sources g).
Proof.
  intros Lp M. unfold all_sources. induction M as [c|c g e c' l m e' M IH Mm A|c g e c' g' other e' M IH M' IH' Mv A]; [constructor| |].
  - rewrite flat_map_app. apply Forall_app. split; auto. cbn. rewrite app_nil_r. apply multipole_carries in Mm; [|auto]. apply Mm.
  - rewrite flat_map_app. apply Forall_app. split; auto.
Qed.
Lemma local_accuracy p c g e x : (p <= 10)%nat -> local_of p c g e -> x <> c -> List.Forall (separated x) g ->
  exists v, l_evaluate e x = Some v /\ Rabs (v - potentials (all_sources g) x) <= sum_over g (group_error p x).
Proof.
  intros Lp Lo Nx Se. assert (So := local_sources p c g e ltac:(lia) Lo).
  assert (Ca : lcarries p c g e). { apply local_carries; auto. eapply Forall_impl; [|exact Se]. intros [[cm cl] l] [N _]. exact N. }
  destruct Ca as (E1 & E2 & E3 & E4). rewrite l_eval_ok by (rewrite ?E1, ?E2; auto; lia). eexists. split; [reflexivity|]. rewrite E1, E2.
  replace (full (at_ e) (wl (psub x c)) (psub x c) p) with (full (at_ e) (fun _ => 1) (psub x c) p) by reflexivity. rewrite E4.
  assert (Pt : potentials (all_sources g) x = rsum g (fun t => potentials (snd t) x)).
  { unfold potentials, all_sources. clear. induction g as [|t g IH]; [reflexivity|]. cbn [flat_map rsum]. change (@sum_over source) with (@rsum source) in *. rewrite rsum_app, IH. reflexivity. }
  rewrite Pt. change (@sum_over (pt * pt * list source)) with (@rsum (pt * pt * list source)). apply rsum_diff. intros [[cm cl] l] Ht. rewrite Forall_forall in Se. destruct (Se _ Ht) as [_ Fa]. cbn [snd group_error]. rewrite mval_sum. unfold potentials. change (@sum_over source) with (@rsum source). apply rsum_diff.
  intros s Hs. rewrite Forall_forall in Fa, So. apply source_m2l; auto. apply So. unfold all_sources. apply in_flat_map. exists (cm, cl, l). auto.
Qed.
