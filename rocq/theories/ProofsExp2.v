(** * Dipole sources: derivatives of the charge coefficients. *)
From Coq Require Import ZArith List Reals Lia Lra Bool.
From Coquelicot Require Import Coquelicot.
From Verif Require Import ModelLegendre ModelLegApi ModelExp SpecLegendre ProofsLegendre ProofsLegCheck PropLegendre ProofsHarm ProofsHarm2 ProofsHarm3 ProofsExp.
Import ListNotations.
Local Open Scope R_scope.

(** ** Derivative of a complex function of a real variable *)
Definition cder (f : R -> C) (t : R) (l : C) : Prop := is_derive (fun s => fst (f s)) t (fst l) /\ is_derive (fun s => snd (f s)) t (snd l).
Lemma cder_unique f t l l' : cder f t l -> cder f t l' -> l = l'.
Proof.
  intros [A B] [A' B']. apply Ceq.
  - rewrite <- (is_derive_unique _ _ _ A). apply is_derive_unique, A'.
  - rewrite <- (is_derive_unique _ _ _ B). apply is_derive_unique, B'.
Qed.
Lemma cder_ext f g t l : (forall s, f s = g s) -> cder f t l -> cder g t l.
Proof. intros E [A B]. split; [eapply is_derive_ext; [|exact A]|eapply is_derive_ext; [|exact B]]; intros s; cbv beta; rewrite E; reflexivity. Qed.
Lemma cder_ext_loc f g t l : locally t (fun s => f s = g s) -> cder f t l -> cder g t l.
Proof.
  intros E [A B]. split; [eapply is_derive_ext_loc; [|exact A]|eapply is_derive_ext_loc; [|exact B]]; (eapply filter_imp; [|exact E]); intros s Es; cbv beta; rewrite Es; reflexivity.
Qed.
Lemma cder_const a t : cder (fun _ => a) t (RtoC 0).
Proof. split; apply (is_derive_const (K:=R_AbsRing) (V:=R_NormedModule)). Qed.
Lemma cder_plus f g t a b : cder f t a -> cder g t b -> cder (fun s => f s + g s)%C t (a + b)%C.
Proof. intros [A B] [A' B']. split; apply (is_derive_plus (K:=R_AbsRing) (V:=R_NormedModule)); assumption. Qed.
Lemma d_mult (f g : R -> R) (t a b : R) : is_derive f t a -> is_derive g t b -> is_derive (fun s => f s * g s) t (a * g t + f t * b).
Proof. intros A B. apply (is_derive_mult (K:=R_AbsRing)); auto. intros; apply Rmult_comm. Qed.
Lemma d_plus (f g : R -> R) (t a b : R) : is_derive f t a -> is_derive g t b -> is_derive (fun s => f s + g s) t (a + b).
Proof. apply (is_derive_plus (K:=R_AbsRing) (V:=R_NormedModule)). Qed.
Lemma d_minus (f g : R -> R) (t a b : R) : is_derive f t a -> is_derive g t b -> is_derive (fun s => f s - g s) t (a - b).
Proof. apply (is_derive_minus (K:=R_AbsRing) (V:=R_NormedModule)). Qed.
Lemma d_eq (f : R -> R) (t a b : R) : is_derive f t a -> a = b -> is_derive f t b. Proof. intros; subst; auto. Qed.
Lemma cder_eq f t a b : cder f t a -> a = b -> cder f t b. Proof. intros; subst; auto. Qed.
Lemma cder_mult f g t a b : cder f t a -> cder g t b -> cder (fun s => f s * g s)%C t (a * g t + f t * b)%C.
Proof.
  intros [A B] [A' B']. split; cbn [Cmult fst snd].
  - eapply d_eq; [apply d_minus; apply d_mult; eassumption|]. cbv beta. unfold Cplus, Cmult. cbn [fst snd]. ring.
  - eapply d_eq; [apply d_plus; apply d_mult; eassumption|]. cbv beta. unfold Cplus, Cmult. cbn [fst snd]. ring.
Qed.
Lemma cder_scal k f t a : cder f t a -> cder (fun s => k * f s)%C t (k * a)%C.
Proof. intros A. apply (cder_eq _ t (RtoC 0 * f t + k * a)%C); [exact (cder_mult (fun _ => k) f t _ a (cder_const k t) A)|ring]. Qed.
Lemma cder_R (f : R -> R) (t a : R) : is_derive f t a -> cder (fun s => RtoC (f s)) t (RtoC a).
Proof. intros A. split; [exact A|]. change (is_derive (fun _ : R => 0) t 0). exact (is_derive_const (K:=R_AbsRing) (V:=R_NormedModule) 0 t). Qed.
Lemma cder_csum {A} (l : list A) f g t : (forall a, In a l -> cder (f a) t (g a)) -> cder (fun s => csum l (fun a => f a s)) t (csum l g).
Proof.
  induction l as [|a l IH]; intros Hf; cbn [csum]; [exact (cder_const (RtoC 0) t)|].
  exact (cder_plus (f a) (fun s => csum l (fun a => f a s)) t (g a) (csum l g) (Hf a (or_introl eq_refl)) (IH (fun b Hb => Hf b (or_intror Hb)))).
Qed.

(** ** Derivative of the harmonics along a direction *)
Definition along (d v : pt) (t : R) : pt := Pt (cx d + t * cx v) (cy d + t * cy v) (cz d + t * cz v).
Fixpoint DT (d v : pt) (t : R) (n : nat) (m : Z) : C :=
  match n with
  | O => RtoC 0
  | S k => (/ nC (S k) * ((uP v * H (along d v t) k (m - 1) + uP (along d v t) * DT d v t k (m - 1)) +
              (zP v * H (along d v t) k m + zP (along d v t) * DT d v t k m) +
              (wP v * H (along d v t) k (m + 1) + wP (along d v t) * DT d v t k (m + 1))))%C
  end.
Definition dH (d v : pt) (n : nat) (m : Z) : C := DT d v 0 n m.
Lemma d_line a b t : is_derive (fun s => a + s * b) t b.
Proof. auto_derive; [auto|ring]. Qed.
Lemma H_S d n m : H d (S n) m = (/ nC (S n) * (uP d * H d n (m - 1) + zP d * H d n m + wP d * H d n (m + 1)))%C.
Proof. apply (Ceq_reg_l (nC (S n))); [apply nC_nz|]. unfold H. rewrite T_S. field. apply nC_nz. Qed.
Lemma cder_u d v t : cder (fun s => uP (along d v s)) t (uP v).
Proof. split; cbn; (eapply d_eq; [auto_derive; auto|field]). Qed.
Lemma cder_w d v t : cder (fun s => wP (along d v s)) t (wP v).
Proof. split; cbn; (eapply d_eq; [auto_derive; auto|field]). Qed.
Lemma cder_z d v t : cder (fun s => zP (along d v s)) t (zP v).
Proof. apply cder_R, d_line. Qed.
Lemma cder_H d v n : forall m t, cder (fun s => H (along d v s) n m) t (DT d v t n m).
Proof.
  induction n as [|n IH]; intros m t.
  - eapply cder_ext; [|apply (cder_const (if (m =? 0)%Z then RtoC 1 else RtoC 0))]. intros s. reflexivity.
  - eapply cder_ext; [intros s; symmetry; apply H_S|]. cbn [DT]. apply cder_scal.
    assert (A := cder_mult _ _ t _ _ (cder_u d v t) (IH (m - 1)%Z t)). assert (B := cder_mult _ _ t _ _ (cder_z d v t) (IH m t)).
    assert (D := cder_mult _ _ t _ _ (cder_w d v t) (IH (m + 1)%Z t)). exact (cder_plus _ _ t _ _ (cder_plus _ _ t _ _ A B) D).
Qed.
Lemma along_0 d v : along d v 0 = d.
Proof. unfold along. destruct d; simpl. f_equal; ring. Qed.
Lemma dH_support d v n m : (Z.of_nat n < Z.abs m)%Z -> dH d v n m = RtoC 0.
Proof.
  intros L. eapply cder_unique; [apply cder_H|]. eapply cder_ext; [|apply (cder_const (RtoC 0))]. intros s. symmetry. apply H_support. auto.
Qed.
Lemma dH_add D d v n m : dH (padd3 D d) v n m = conv D (dH d v) n m.
Proof.
  eapply cder_unique; [apply cder_H|]. apply (cder_ext (fun s => conv D (fun k l => H (along d v s) k l) n m)).
  - intros s. unfold conv. rewrite <- H_add. f_equal. unfold padd3, along; cbn. f_equal; ring.
  - unfold conv. apply cder_csum. intros k _. apply cder_csum. intros l _. apply cder_scal. apply cder_H.
Qed.
Lemma dH_conj d v n m : Cconj (dH d v n m) = (RtoC (sgz m) * dH d v n (- m))%C.
Proof.
  eapply (cder_unique (fun s => RtoC (sgz m) * H (along d v s) n (- m))%C 0).
  - eapply cder_ext; [intros s; apply H_conj|]. destruct (cder_H d v n m 0) as [A B]. split; [exact A|]. cbn.
    apply (is_derive_opp (K:=R_AbsRing) (V:=R_NormedModule)). exact B.
  - apply cder_scal, cder_H.
Qed.

(** ** Points off the vertical axis *)
Definition r2 (d : pt) : R := cx d * cx d + cy d * cy d.
Lemma r2_pos d : r2 d <> 0 -> 0 < r2 d.
Proof. unfold r2. assert (A := Rle_0_sqr (cx d)). assert (B := Rle_0_sqr (cy d)). unfold Rsqr in *. lra. Qed.
Lemma off_rho d : r2 d <> 0 -> rho_ d <> 0.
Proof.
  intros N E. assert (P := r2_pos d N). assert (Q := rho_sq d). rewrite E in Q. unfold square, r2 in *.
  assert (A := Rle_0_sqr (cz d)). unfold Rsqr in *. lra.
Qed.
Lemma off_loc d v : r2 d <> 0 -> locally 0 (fun s => r2 (along d v s) <> 0).
Proof.
  intros N. assert (Q : continuous (fun s => r2 (along d v s)) 0).
  { apply (ex_derive_continuous (K:=R_AbsRing) (V:=R_NormedModule)). unfold r2, along; cbn. auto_derive. auto. }
  apply (Q (fun y => y <> 0)). rewrite along_0. apply open_neq. auto.
Qed.
Definition Eb (d : pt) : C := (cx d / sqrt (r2 d), - cy d / sqrt (r2 d)).
Lemma Eb_cis d : r2 d <> 0 -> cis (- beta_ d) = Eb d.
Proof.
  intros N. assert (P := r2_pos d N). assert (Q := sqrt_lt_R0 _ P). destruct (atan2_polar (cx d) (cy d)) as [A B]. fold (r2 d) in A, B.
  unfold cis, Eb, beta_. rewrite cos_neg, sin_neg. f_equal.
  - rewrite A at 2. field. lra.
  - rewrite B at 2. field. lra.
Qed.
Lemma cis_pow b m : cis (- INR m * b) = cpow (cis (- b)) m.
Proof.
  induction m as [|m IH].
  - simpl. replace (- 0 * b) with 0 by ring. apply cis_0.
  - cbn [cpow]. rewrite <- IH, <- cis_add. f_equal. rewrite S_INR. ring.
Qed.
Definition dB (d v : pt) : R := (cx d * cy v - cy d * cx v) / r2 d.
Lemma d_sqrt (f : R -> R) (t a : R) : is_derive f t a -> 0 < f t -> is_derive (fun s => sqrt (f s)) t (a / (2 * sqrt (f t))).
Proof. intros A P. apply is_derive_sqrt; auto. Qed.
Lemma d_div (f g : R -> R) (t a b : R) : is_derive f t a -> is_derive g t b -> g t <> 0 -> is_derive (fun s => f s / g s) t ((a * g t - f t * b) / (g t * g t)).
Proof. intros A B N. eapply d_eq; [apply is_derive_div; eauto|]. field. auto. Qed.
Lemma d_r d v : r2 d <> 0 -> is_derive (fun s => sqrt (r2 (along d v s))) 0 ((cx d * cx v + cy d * cy v) / sqrt (r2 d)).
Proof.
  intros N. assert (P := r2_pos d N). eapply d_eq; [apply (d_sqrt _ 0 (2 * (cx d * cx v + cy d * cy v)))|]; rewrite ?along_0; auto.
  - unfold r2, along; cbn. auto_derive; [auto|ring].
  - cbv beta. rewrite along_0. field. apply Rgt_not_eq, sqrt_lt_R0, P.
Qed.
Lemma cder_Eb d v : r2 d <> 0 -> cder (fun s => Eb (along d v s)) 0 (((0, (- dB d v)%R) : C) * Eb d)%C.
Proof.
  intros N. assert (P := r2_pos d N). assert (Q := sqrt_lt_R0 _ P). assert (S := sqrt_sqrt _ (Rlt_le _ _ P)).
  assert (DR := d_r d v N). unfold dB. set (q := sqrt (r2 d)) in *. rewrite <- S. unfold r2 in S.
  split; unfold Eb; cbn [fst snd Cmult]; fold q.
  - eapply d_eq; [apply (d_div (fun s => cx (along d v s)) _ 0 (cx v) _ (d_line _ _ _) DR); rewrite along_0; fold q; lra|]. cbv beta. rewrite along_0. fold q.
    transitivity ((cx v * (q * q) - cx d * (cx d * cx v + cy d * cy v)) / (q * q * q)); [field; lra|]. rewrite S at 1. field. lra.
  - assert (L : is_derive (fun s => - cy (along d v s)) 0 (- cy v)) by (unfold along; cbn; auto_derive; [auto|ring]).
    eapply d_eq; [apply (d_div (fun s => - cy (along d v s)) _ 0 _ _ L DR); rewrite along_0; fold q; lra|]. cbv beta. rewrite along_0. fold q.
    transitivity ((- cy v * (q * q) + cy d * (cx d * cx v + cy d * cy v)) / (q * q * q)); [field; lra|]. rewrite S at 1. field. lra.
Qed.
Lemma cder_pow f t (k : C) m : cder f t (k * f t)%C -> cder (fun s => cpow (f s) m) t (nC m * k * cpow (f t) m)%C.
Proof.
  intros A. induction m as [|m IH].
  - cbn [cpow]. eapply cder_eq; [exact (cder_const (RtoC 1) t)|]. rewrite nC_0. ring.
  - cbn [cpow]. eapply cder_eq; [exact (cder_mult f (fun s => cpow (f s) m) t _ _ A IH)|]. rewrite nC_S. cbv beta. ring.
Qed.
(** radius and cosine *)
Lemma d_rho d v : rho_ d <> 0 -> is_derive (fun s => rho_ (along d v s)) 0 (dot d v / rho_ d).
Proof.
  intros N. assert (P := rho_pos d N). assert (Sq := rho_sq d). unfold rho_ in *. eapply d_eq; [apply (d_sqrt _ 0 (2 * dot d v))|]; rewrite ?along_0.
  - unfold square, dot, along; cbn. auto_derive; [auto|ring].
  - rewrite <- Sq. apply Rmult_lt_0_compat; auto.
  - cbv beta. rewrite along_0. field. auto.
Qed.
Lemma d_cos d v : rho_ d <> 0 -> is_derive (fun s => cos_ (along d v s)) 0 (cz v / rho_ d - cz d * dot d v / rho_ d ^ 3).
Proof.
  intros N. unfold cos_. eapply d_eq; [apply (d_div (fun s => cz (along d v s)) _ 0 (cz v) _ (d_line _ _ _) (d_rho d v N)); rewrite along_0; auto|].
  cbv beta. rewrite along_0. field. auto.
Qed.
Lemma cos_open d : r2 d <> 0 -> -1 < cos_ d < 1.
Proof.
  intros N. assert (O := off_rho d N). assert (P := r2_pos d N). assert (Rp := rho_pos d O). destruct (cos_range d O) as [A B].
  assert (E : cos_ d * cos_ d * (rho_ d * rho_ d) = cz d * cz d) by (unfold cos_; field; auto).
  rewrite rho_sq in E. unfold square in E. unfold r2 in P. split.
  - destruct A as [A|A]; [auto|]. rewrite <- A in E. lra.
  - destruct B as [B|B]; [auto|]. rewrite B in E. lra.
Qed.
(** ** The directional derivative of the unit charge coefficients, in the terms of the code *)
Definition dK (d v : pt) (n m : nat) (dP : R) : C :=
  let nrho := match n with O => 0 * / rho_ d | S k => INR n * rho_ d ^ k end in
  let dRho := dot d v / rho_ d in
  let dAlpha := (cos_ d * cos (beta_ d) * cx v + cos_ d * sin (beta_ d) * cy v - sin_ d * cz v) / rho_ d in
  Cmult (cis (- INR m * beta_ d)) (nrho * Plm n m (cos_ d) * dRho - rho_ d ^ n * (dP * sin_ d) * dAlpha, - INR m * rho_ d ^ n * Plm n m (cos_ d) * dB d v).
Lemma d_comp (f g : R -> R) (t a b : R) : is_derive f (g t) a -> is_derive g t b -> is_derive (fun s => f (g s)) t (a * b).
Proof. intros A B. eapply d_eq; [apply (is_derive_comp f g t a b A B)|]. unfold scal; cbn. unfold mult; cbn. ring. Qed.
Lemma d_powR (g : R -> R) (t b : R) n : is_derive g t b -> is_derive (fun s => g s ^ n) t (match n with O => 0 | S k => INR n * g t ^ k end * b).
Proof. intros B. eapply d_eq; [apply is_derive_pow, B|]. destruct n; simpl Nat.pred; cbn [INR]; ring. Qed.
Lemma cder_K d v n m dP : r2 d <> 0 -> is_derive (Plm n m) (cos_ d) dP -> cder (fun s => K (along d v s) n m) 0 (dK d v n m dP).
Proof.
  intros N DP. assert (O := off_rho d N). assert (Rp := rho_pos d O).
  apply (cder_ext_loc (fun s => (cpow (Eb (along d v s)) m * RtoC (Plm n m (cos_ (along d v s)) * rho_ (along d v s) ^ n))%C)).
  { eapply filter_imp; [|apply (off_loc d v N)]. intros s Ns. cbv beta. unfold K. rewrite cis_pow, Eb_cis by auto. reflexivity. }
  assert (A : cder (fun s => cpow (Eb (along d v s)) m) 0 (nC m * ((0, (- dB d v)%R) : C) * cpow (Eb d) m)%C).
  { assert (A := cder_pow (fun s => Eb (along d v s)) 0 ((0, (- dB d v)%R) : C) m). cbv beta in A. rewrite along_0 in A. apply A. apply cder_Eb, N. }
  assert (B1 : is_derive (fun s => Plm n m (cos_ (along d v s))) 0 (dP * (cz v / rho_ d - cz d * dot d v / rho_ d ^ 3))).
  { apply (d_comp (Plm n m) (fun s => cos_ (along d v s))); [rewrite along_0; exact DP|apply d_cos, O]. }
  assert (B2 := d_powR (fun s => rho_ (along d v s)) 0 _ n (d_rho d v O)).
  assert (B := d_mult _ _ 0 _ _ B1 B2). cbv beta in B. rewrite along_0 in B.
  eapply cder_eq; [exact (cder_mult _ _ 0 _ _ A (cder_R _ _ _ B))|]. cbv beta. rewrite along_0. unfold dK. rewrite cis_pow, (Eb_cis d N).
  set (W := cpow (Eb d) m). set (p := Plm n m (cos_ d)).
  assert (Al : (cz v / rho_ d - cz d * dot d v / rho_ d ^ 3) = - sin_ d * ((cos_ d * cos (beta_ d) * cx v + cos_ d * sin (beta_ d) * cy v - sin_ d * cz v) / rho_ d)).
  { destruct (polar d O) as (X & Y & Z).
    transitivity ((sin_ d * sin_ d * cz v - cos_ d * ((rho_ d * sin_ d * cos (beta_ d)) * cx v + (rho_ d * sin_ d * sin (beta_ d)) * cy v) / rho_ d) / rho_ d); [|field; auto].
    rewrite <- X, <- Y, sin_sq by auto. unfold dot. unfold cos_. field. auto. }
  rewrite Al. set (da := (cos_ d * _ * _ + _ - _) / _).
  destruct W as [w1 w2]. unfold nC, RtoC, Cmult, Cplus. destruct n as [|k]; cbn [fst snd]; f_equal; try ring.
  all: simpl pow; try ring.
Qed.
