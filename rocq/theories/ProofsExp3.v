(** * Sources: charges and dipoles, their moments, and their translation. *)
From Coq Require Import ZArith List Reals Lia Lra Bool Permutation.
From Coquelicot Require Import Coquelicot.
From Verif Require Import ModelLegendre ModelLegApi ModelExp SpecLegendre ProofsLegendre ProofsLegCheck PropLegendre ProofsHarm ProofsHarm2 ProofsHarm3 SpecExp ProofsExp ProofsExp2.
Import ListNotations.
Local Open Scope R_scope.

Lemma dK_H d v n m dP : r2 d <> 0 -> is_derive (Plm n m) (cos_ d) dP ->
  (RtoC (aa n m) * dK d v n m dP = RtoC ((-1) ^ n) * dH d v n (- Z.of_nat m))%C.
Proof.
  intros N DP. apply (cder_unique (fun s => RtoC ((-1) ^ n) * H (along d v s) n (- Z.of_nat m))%C 0).
  - apply (cder_ext_loc (fun s => RtoC (aa n m) * K (along d v s) n m)%C).
    + eapply filter_imp; [|apply (off_loc d v N)]. intros s Ns. apply aa_K, off_rho, Ns.
    + apply cder_scal, cder_K; auto.
  - apply cder_scal, cder_H.
Qed.
(** the derivative that the table holds *)
Definition dPlm (n m : nat) (x : R) : R := Derive (Plm n m) x.
Lemma der_ok n m x : (m <= n <= 20)%nat -> -1 < x < 1 -> GetAssLegFunSphDeriv n m x = Some (dPlm n m x) /\ is_derive (Plm n m) x (dPlm n m x).
Proof.
  intros L X. destruct (C12_table_derivatives n m x L X) as (y & A & B). unfold dPlm. rewrite (is_derive_unique _ _ _ B). auto.
Qed.
Definition dKc (d v : pt) (n m : nat) : C := dK d v n m (dPlm n m (cos_ d)).
Lemma dKc_der d v n m : (m <= n <= 20)%nat -> r2 d <> 0 -> cder (fun s => K (along d v s) n m) 0 (dKc d v n m).
Proof. intros L N. apply cder_K; auto. apply der_ok; auto. apply cos_open; auto. Qed.
Lemma dKc_H d v n m : (m <= n <= 20)%nat -> r2 d <> 0 -> (RtoC (aa n m) * dKc d v n m = RtoC ((-1) ^ n) * dH d v n (- Z.of_nat m))%C.
Proof. intros L N. apply dK_H; auto. apply der_ok; auto. apply cos_open; auto. Qed.

Definition norm (v : pt) : R := sqrt (square v).
Definition unit (v : pt) : pt := Pt (cx v / norm v) (cy v / norm v) (cz v / norm v).
Lemma dipole_ok s d v n m : r2 d <> 0 -> (m <= n <= 20)%nat ->
  dipole_term s (rho_ d) (cos_ d) (beta_ d) (dot (Pt (cx d / rho_ d) (cy d / rho_ d) (cz d / rho_ d)) v)
    (dot (Pt (cos_ d * cos (beta_ d) / rho_ d) (cos_ d * sin (beta_ d) / rho_ d) (- sqrt (1 - cos_ d ^ 2) / rho_ d)) v)
    (dot (Pt (- cy d / (cx d ^ 2 + cy d ^ 2)) (cx d / (cx d ^ 2 + cy d ^ 2)) (0 / (cx d ^ 2 + cy d ^ 2))) v) n m
  = Some (RtoC s * dKc d v n m)%C.
Proof.
  intros N L. assert (O := off_rho d N). destruct (der_ok n m (cos_ d) L (cos_open d N)) as [G _]. unfold dipole_term.
  rewrite C11_table_values by (auto; apply cos_range; auto). cbn [bind]. rewrite G. cbn [bind]. f_equal. unfold dKc, dK.
  replace (sqrt (1 - cos_ d ^ 2)) with (sin_ d) by (unfold sin_; f_equal; ring).
  replace (cx d ^ 2 + cy d ^ 2) with (r2 d) by (unfold r2; ring). rewrite Cmult_comm. f_equal. f_equal. unfold dot. cbn [cx cy cz]. f_equal.
  - f_equal; [f_equal; field; auto|f_equal; field; auto].
  - unfold dB. f_equal. field. auto.
Qed.
Definition at_ (e : expansion) (n m : nat) : C := e_coeffs e (tri n m).
Lemma normder_ok e s x v : s <> 0 -> square v <> 0 -> r2 (psub x (e_center e)) <> 0 -> (e_p e <= 20)%nat ->
  exists e', m_add_normder e s x v = Some e' /\ e_p e' = e_p e /\ e_center e' = e_center e /\ e_zero e' = false /\
    (forall n m, (m <= n <= e_p e)%nat -> at_ e' n m = (at_ e n m + RtoC s * dKc (psub x (e_center e)) (unit v) n m)%C) /\
    (forall i, (size (e_p e) <= i)%nat -> e_coeffs e' i = e_coeffs e i).
Proof.
  intros Ns Nv N Lp. set (d := psub x (e_center e)) in *. assert (O := off_rho d N). unfold m_add_normder.
  destruct (Req_EM_T s 0) as [Z|_]; [contradiction|]. fold d. cbv zeta. unfold pdivs at 1. fold (square v). fold (norm v).
  assert (Nn : norm v <> 0) by (unfold norm; intros E; apply sqrt_eq_0 in E; [auto|apply square_nonneg]).
  destruct (Req_EM_T (norm v) 0) as [Z|_]; [contradiction|]. cbn [bind]. fold (unit v). fold (rho_ d).
  unfold pdivs at 1. destruct (Req_EM_T (rho_ d) 0) as [Z|_]; [contradiction|]. cbn [bind].
  unfold pdivs at 1. destruct (Req_EM_T (cx d ^ 2 + cy d ^ 2) 0) as [Z|_]; [exfalso; apply N; rewrite <- Z; unfold r2; ring|]. cbn [bind].
  unfold rdiv. destruct (Req_EM_T (rho_ d) 0) as [Z|_]; [contradiction|]. cbn [bind]. fold (cos_ d).
  unfold pdivs. destruct (Req_EM_T (rho_ d) 0) as [Z|_]; [contradiction|]. cbn [bind cx cy cz]. fold (beta_ d).
  destruct (add_loop_some (e_p e) _ (fun n m => (RtoC s * dKc d (unit v) n m)%C) (e_coeffs e) (fun n m L => dipole_ok s d (unit v) n m N ltac:(lia))) as (M & A & B & D).
  match goal with |- context [add_loop (e_p e) ?f (e_coeffs e)] => assert (A' : add_loop (e_p e) f (e_coeffs e) = Some M) by exact A end.
  rewrite A'. cbn [bind]. eexists. split; [reflexivity|]. unfold at_. cbn. auto 10.
Qed.
Lemma charge_ok e s x : s <> 0 -> rho_ (psub x (e_center e)) <> 0 -> (e_p e <= 20)%nat ->
  exists e', m_add_charge e s x = Some e' /\ e_p e' = e_p e /\ e_center e' = e_center e /\ e_zero e' = false /\
    (forall n m, (m <= n <= e_p e)%nat -> at_ e' n m = (at_ e n m + RtoC s * K (psub x (e_center e)) n m)%C) /\
    (forall i, (size (e_p e) <= i)%nat -> e_coeffs e' i = e_coeffs e i).
Proof.
  intros Ns N Lp. unfold m_add_charge. destruct (Req_EM_T s 0) as [Z|_]; [contradiction|]. rewrite spher_some by auto. cbn [bind].
  destruct (add_loop_some (e_p e) _ (fun n m => (RtoC s * K (psub x (e_center e)) n m)%C) (e_coeffs e) (fun n m L => charge_term_ok s _ n m N ltac:(lia))) as (M & A & B & D).
  rewrite A. cbn [bind]. eexists. split; [reflexivity|]. unfold at_. cbn. auto 10.
Qed.

(** ** Lists of sources *)
Definition contrib (c : pt) (s : source) (n m : nat) : C :=
  match s with
  | Charge q x => (RtoC q * K (psub x c) n m)%C
  | Dipole q x v => (RtoC q * dKc (psub x c) (unit v) n m)%C
  end.
Definition mu1 (c : pt) (s : source) (n : nat) (l : Z) : C :=
  match s with
  | Charge q x => (RtoC q * H (psub x c) n l)%C
  | Dipole q x v => (RtoC q * dH (psub x c) (unit v) n l)%C
  end.
Lemma pt_dec (a b : pt) : {a = b} + {a <> b}.
Proof.
  destruct a as [a1 a2 a3], b as [b1 b2 b3]. destruct (Req_EM_T a1 b1), (Req_EM_T a2 b2), (Req_EM_T a3 b3); subst; [left; reflexivity|..]; right; intros E; inversion E; contradiction.
Qed.
Lemma rho_0 d : rho_ d = 0 <-> d = Pt 0 0 0.
Proof.
  split.
  - intros E. assert (Q := rho_sq d). rewrite E in Q. unfold square in Q. destruct d as [x y z]. cbn in Q.
    assert (A := Rle_0_sqr x). assert (B := Rle_0_sqr y). assert (D := Rle_0_sqr z). unfold Rsqr in *.
    assert (X : x * x = 0) by lra. assert (Y : y * y = 0) by lra. assert (Z : z * z = 0) by lra.
    apply Rmult_integral in X. apply Rmult_integral in Y. apply Rmult_integral in Z. f_equal; tauto.
  - intros ->. unfold rho_, square. cbn. replace (0 * 0 + 0 * 0 + 0 * 0) with 0 by ring. apply sqrt_0.
Qed.
Lemma psub_0 x c : psub x c = Pt 0 0 0 <-> x = c.
Proof.
  unfold psub. destruct x, c; cbn. split; intros E; inversion E; f_equal; lra.
Qed.
Lemma rho_sub x c : rho_ (psub x c) <> 0 <-> x <> c.
Proof. rewrite rho_0, psub_0. tauto. Qed.
Lemma square_nz v : square v <> 0 <-> v <> Pt 0 0 0.
Proof.
  rewrite <- rho_0. unfold rho_. split; intros N E; apply N.
  - apply sqrt_eq_0 in E; [auto|apply square_nonneg].
  - rewrite E. apply sqrt_0.
Qed.
Lemma r2_sub x c : r2 (psub x c) <> 0 <-> (cx x <> cx c \/ cy x <> cy c).
Proof.
  unfold r2, psub. cbn. split.
  - intros N. destruct (Req_EM_T (cx x) (cx c)) as [E|]; [|auto]. destruct (Req_EM_T (cy x) (cy c)) as [F|]; [|auto]. exfalso. apply N. rewrite E, F. ring.
  - intros N E. assert (A := Rle_0_sqr (cx x - cx c)). assert (B := Rle_0_sqr (cy x - cy c)). unfold Rsqr in *.
    assert (X : (cx x - cx c) * (cx x - cx c) = 0) by lra. assert (Y : (cy x - cy c) * (cy x - cy c) = 0) by lra.
    apply Rmult_integral in X. apply Rmult_integral in Y. destruct N as [N|N]; apply N; lra.
Qed.
Definition nonzero (s : source) : bool := if Req_EM_T (strength s) 0 then false else true.
Lemma contrib_0 c s n m : strength s = 0 -> contrib c s n m = RtoC 0.
Proof. destruct s; cbn; intros ->; ring. Qed.
Lemma add_source_ok e s : (e_p e <= 20)%nat -> regular (e_center e) s ->
  exists e', add_source e s = Some e' /\ e_p e' = e_p e /\ e_center e' = e_center e /\ e_zero e' = (e_zero e && negb (nonzero s))%bool /\
    (forall n m, (m <= n <= e_p e)%nat -> at_ e' n m = (at_ e n m + contrib (e_center e) s n m)%C) /\
    (forall i, (size (e_p e) <= i)%nat -> e_coeffs e' i = e_coeffs e i).
Proof.
  intros Lp Rg. unfold nonzero. destruct (Req_EM_T (strength s) 0) as [Z|Z].
  - exists e. assert (E : add_source e s = Some e). { destruct s; cbn in *; [unfold m_add_charge|unfold m_add_normder]; rewrite Z; destruct (Req_EM_T 0 0); congruence. }
    rewrite E. cbn. rewrite andb_true_r. repeat split; auto. intros. rewrite contrib_0 by auto. ring.
  - cbn [negb]. rewrite andb_false_r. destruct s as [q x|q x v]; cbn in *.
    + destruct Rg as [?|Rg]; [contradiction|]. apply charge_ok; auto. apply rho_sub; auto.
    + destruct Rg as [?|[Rg Nv]]; [contradiction|]. apply normder_ok; auto. apply square_nz; auto. apply r2_sub; auto.
Qed.
Lemma sources_none l : fold_left (fun o s => bind o (fun e => add_source e s)) l None = None.
Proof. induction l; auto. Qed.
Lemma add_sources_ok (l : list source) : forall e, (e_p e <= 20)%nat -> List.Forall (regular (e_center e)) l ->
  exists e', add_sources e l = Some e' /\ e_p e' = e_p e /\ e_center e' = e_center e /\ e_zero e' = (e_zero e && negb (existsb nonzero l))%bool /\
    (forall n m, (m <= n <= e_p e)%nat -> at_ e' n m = (at_ e n m + csum l (fun s => contrib (e_center e) s n m))%C) /\
    (forall i, (size (e_p e) <= i)%nat -> e_coeffs e' i = e_coeffs e i).
Proof.
  induction l as [|s l IH]; intros e Lp F.
  - exists e. cbn. rewrite andb_true_r. repeat split; auto. intros. ring.
  - inversion F as [|? ? Fs Fl]; subst. destruct (add_source_ok e s Lp Fs) as (e1 & A & P & Ce & Ze & Co & Ou).
    destruct (IH e1) as (e2 & A2 & P2 & C2 & Z2 & Co2 & Ou2); [lia|rewrite Ce; auto|].
    exists e2. unfold add_sources in *. cbn [fold_left bind]. rewrite A. rewrite P, Ce in *. repeat split; auto.
    + rewrite Z2, Ze. cbn [existsb]. destruct (e_zero e), (nonzero s), (existsb nonzero l); reflexivity.
    + intros n m L. rewrite Co2, Co by auto. cbn [csum]. ring.
    + intros i L. rewrite Ou2, Ou by auto. reflexivity.
Qed.
Lemma contrib_mu c s n m : (m <= n <= 20)%nat -> regular c s -> (RtoC (aa n m) * contrib c s n m = RtoC ((-1) ^ n) * mu1 c s n (- Z.of_nat m))%C.
Proof.
  intros L Rg. destruct s as [q x|q x v]; cbn in *.
  - destruct (Req_EM_T q 0) as [->|N]; [ring|]. destruct Rg as [?|Rg]; [contradiction|]. apply rho_sub in Rg.
    transitivity (RtoC q * (RtoC (aa n m) * K (psub x c) n m))%C; [ring|]. rewrite aa_K by auto. ring.
  - destruct (Req_EM_T q 0) as [->|N]; [ring|]. destruct Rg as [?|[Rg _]]; [contradiction|]. apply r2_sub in Rg.
    transitivity (RtoC q * (RtoC (aa n m) * dKc (psub x c) (unit v) n m))%C; [ring|]. rewrite dKc_H by auto. ring.
Qed.
Lemma mu1_conj c s n l : Cconj (mu1 c s n l) = (RtoC (sgz l) * mu1 c s n (- l))%C.
Proof. destruct s; cbn [mu1]; rewrite Cconj_mult, Cconj_R, ?H_conj, ?dH_conj; ring. Qed.
Lemma mu1_support c s n l : (Z.of_nat n < Z.abs l)%Z -> mu1 c s n l = RtoC 0.
Proof. intros L. destruct s; cbn [mu1]; rewrite ?H_support, ?dH_support by auto; ring. Qed.
Lemma psub_shift x c1 c2 : psub x c2 = padd3 (psub c1 c2) (psub x c1).
Proof. unfold psub, padd3. cbn. f_equal; ring. Qed.
Lemma mu1_conv c1 c2 s n l : mu1 c2 s n l = conv (psub c1 c2) (mu1 c1 s) n l.
Proof.
  destruct s as [q x|q x v]; cbn [mu1]; rewrite (psub_shift x c1 c2), ?dH_add, ?H_add; unfold conv; rewrite <- csum_scal; apply csum_ext; intros; rewrite <- csum_scal; apply csum_ext; intros; cbn [mu1]; ring.
Qed.
Definition mus (c : pt) (l : list source) (n : nat) (j : Z) : C := csum l (fun s => mu1 c s n j).
Lemma conj_csum {A} (l : list A) f : Cconj (csum l f) = csum l (fun a => Cconj (f a)).
Proof. induction l as [|a l IH]; cbn [csum]; [apply Cconj_R|]. rewrite Cconj_plus, IH. reflexivity. Qed.
Lemma mus_conj c l n j : Cconj (mus c l n j) = (RtoC (sgz j) * mus c l n (- j))%C.
Proof. unfold mus. rewrite conj_csum, <- csum_scal. apply csum_ext. intros. apply mu1_conj. Qed.
Lemma mus_support c l n j : (Z.of_nat n < Z.abs j)%Z -> mus c l n j = RtoC 0.
Proof. intros L. apply csum_zero. intros. apply mu1_support, L. Qed.
Lemma mus_conv c1 c2 l n j : mus c2 l n j = conv (psub c1 c2) (mus c1 l) n j.
Proof.
  unfold mus. rewrite (csum_ext l _ (fun s => conv (psub c1 c2) (mu1 c1 s) n j)) by (intros; apply mu1_conv).
  unfold conv. rewrite csum_swap. apply csum_ext. intros k _. rewrite csum_swap. apply csum_ext. intros i _. rewrite csum_scal. reflexivity.
Qed.
Lemma moments_intro p g mu :
  (forall k m, (m <= k <= p)%nat -> (RtoC (aa k m) * g k m = RtoC ((-1) ^ k) * mu k (- Z.of_nat m)%Z)%C) ->
  (forall k l, Cconj (mu k l) = (RtoC (sgz l) * mu k (- l)%Z)%C) -> (forall k l, (Z.of_nat k < Z.abs l)%Z -> mu k l = RtoC 0) -> moments p g mu.
Proof.
  intros G Cj Su. split; [|exact Su]. intros k l Lk Ll.
  destruct (Z.lt_trichotomy l 0) as [S|[S|S]].
  - assert (E := G k (absn l) ltac:(unfold absn; lia)). replace (- Z.of_nat (absn l))%Z with l in E by (unfold absn; lia).
    assert (F : ext g k l = Cconj (g k (absn l))).
    { rewrite <- (Z.opp_involutive l) at 1. rewrite <- ext_neg. f_equal. replace (- l)%Z with (Z.of_nat (absn l)) by (unfold absn; lia). apply ext_pos. unfold absn. lia. }
    rewrite F. assert (E' := f_equal Cconj E). rewrite !Cconj_mult, !Cconj_R, Cj in E'. rewrite E'. unfold sigma. destruct (Z.leb_spec 0 (- l)); [|lia].
    rewrite sgz_neg, RtoC_mult. ring.
  - subst l. change (absn 0) with 0%nat. rewrite ext_0. change (- 0)%Z with 0%Z. assert (E := G k 0%nat ltac:(lia)). change (- Z.of_nat 0)%Z with 0%Z in E.
    change (sigma 0) with 1. rewrite Rmult_1_r, <- E. f_equal.
    assert (Re : Cconj (RtoC (aa k 0) * g k 0%nat)%C = (RtoC (aa k 0) * g k 0%nat)%C).
    { rewrite E, Cconj_mult, Cconj_R, Cj. change (- 0)%Z with 0%Z. change (sgz 0) with 1. ring. }
    rewrite Cconj_mult, Cconj_R in Re. apply Ceq_reg_l in Re; [|apply aaC_nz]. destruct (g k 0%nat) as [a b]. unfold Cconj in Re. cbn in Re. inversion Re as [Hb].
    unfold RtoC. cbn. f_equal. lra.
  - assert (E := G k (absn l) ltac:(unfold absn; lia)). replace (Z.of_nat (absn l)) with l in E by (unfold absn; lia).
    assert (F : ext g k l = g k (absn l)). { replace l with (Z.of_nat (absn l)) at 1 by (unfold absn; lia). apply ext_pos. unfold absn. lia. }
    rewrite F, E. f_equal. f_equal. replace l with (Z.of_nat (absn l)) by (unfold absn; lia). rewrite sigma_neg. ring.
Qed.
(** Translating an expansion whose coefficients are those of a list of sources. *)
Lemma translate_ok (l : list source) other e : (e_p e <= e_p other)%nat -> (e_p other <= 20)%nat ->
  List.Forall (regular (e_center other)) l -> List.Forall (regular (e_center e)) l ->
  1 / 10000000 < distance (e_center other) (e_center e) -> e_zero other = false ->
  (forall n m, (m <= n <= e_p other)%nat -> at_ other n m = csum l (fun s => contrib (e_center other) s n m)) ->
  exists e', m_translate e other = Some e' /\ e_p e' = e_p e /\ e_center e' = e_center e /\ e_zero e' = false /\
    (forall n m, (m <= n <= e_p e)%nat -> at_ e' n m = (at_ e n m + csum l (fun s => contrib (e_center e) s n m))%C) /\
    (forall i, (size (e_p e) <= i)%nat -> e_coeffs e' i = e_coeffs e i).
Proof.
  intros Lp L20 R1 R2 Ds Zo Co. rewrite Forall_forall in R1, R2. unfold m_translate. rewrite Zo.
  destruct (Rlt_dec (1 / 10000000) (distance (e_center other) (e_center e))) as [_|?]; [|contradiction].
  set (D := psub (e_center other) (e_center e)) in *. assert (ND : rho_ D <> 0). { unfold distance in Ds. fold D in Ds. unfold rho_. lra. }
  rewrite spher_some by auto. cbn [bind].
  assert (Mo : moments (e_p other) (coeffs other) (mus (e_center other) l)).
  { apply moments_intro; [|apply mus_conj|apply mus_support]. intros k m L. change (coeffs other k m) with (at_ other k m). rewrite Co by auto.
    unfold mus. rewrite <- !csum_scal. apply csum_ext. intros s Hs. apply contrib_mu; auto. lia. }
  assert (Tm : forall n m, (m <= n <= e_p e)%nat -> m2m_coeff other (rho_ D) (cos_ D) (beta_ D) n m = Some (csum l (fun s => contrib (e_center e) s n m))).
  { intros n m L. destruct (m2m_coeff_ok other D _ (e_p e) n m ND Mo Lp L ltac:(lia)) as (z & E & F). rewrite E. f_equal.
    apply (Ceq_reg_l (RtoC (aa n m))); [apply aaC_nz|]. rewrite F. unfold D. rewrite <- mus_conv. unfold mus. rewrite <- !csum_scal. apply csum_ext.
    intros s Hs. symmetry. apply contrib_mu; auto. lia. }
  destruct (add_loop_some (e_p e) _ _ (e_coeffs e) Tm) as (M & A & B & Ou). rewrite A. cbn [bind]. eexists. split; [reflexivity|]. unfold at_. cbn. auto 10.
Qed.
