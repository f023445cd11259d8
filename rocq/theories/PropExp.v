(** * C05 - C09: accumulation, translation and evaluation of multipole and local expansions. *)
From Coq Require Import ZArith List Reals Lia Lra Bool Permutation.
From Coquelicot Require Import Coquelicot.
From Verif Require Import ModelLegendre ModelLegApi ModelExp SpecLegendre PropLegendre SpecExp ProofsLegendre ProofsHarm ProofsHarm2 ProofsHarm3 ProofsExp ProofsExp2 ProofsExp3 ProofsExp4 ProofsExp5.
Import ListNotations.
Local Open Scope R_scope.

(** ** C05 *)
Lemma additive_sound r e e' : additive r -> r e = Some e' -> (e_zero e = true -> all_zero e) -> (e_zero e' = true -> all_zero e').
Proof.
  intros A E S Z. destruct (A (e_p e) (e_center e)) as [N|(b & a & Ef & _ & Q)]; [rewrite N in E by auto; discriminate|].
  destruct (Ef e eq_refl eq_refl) as (e1 & A1 & P1 & C1 & F1 & M1). rewrite A1 in E. inversion E; subst e1. rewrite F1 in Z. apply andb_prop in Z as [Z1 Z2].
  destruct b; [discriminate|]. intros n m L. rewrite P1 in L. unfold coeff. rewrite M1, Q by auto. rewrite (S Z1 n m L : e_coeffs e (tri n m) = RtoC 0). ring.
Qed.
Lemma m_reachable_sound e : m_reachable e -> e_zero e = true -> all_zero e.
Proof.
  induction 1 as [p c|e q x e' R IH E|e q x v e' R IH E|e o s e' R IH Ro IHo E|e o e' R IH Ro IHo E].
  - intros _ n m _. reflexivity.
  - apply (additive_sound _ e e' (charge_additive q x) E IH).
  - apply (additive_sound _ e e' (dipole_additive q x v) E IH).
  - apply (additive_sound _ e e' (scaled_additive o s) E IH).
  - apply (additive_sound _ e e' (m_translate_additive o) E IH).
Qed.
(** Whatever the history, a multipole that reports zero has only zero coefficients and evaluates to 0. *)
Theorem C05_multipole_flag : forall e, m_reachable e -> e_zero e = true -> all_zero e /\ forall x, m_evaluate e x = Some 0.
Proof. intros e R Z. split; [apply m_reachable_sound; auto|]. intros x. unfold m_evaluate. rewrite Z. reflexivity. Qed.
Theorem C05_local_flag : forall e, l_reachable e -> e_zero e = true -> all_zero e /\ forall x, l_evaluate e x = Some 0.
Proof.
  intros e R Z. split; [|intros x; unfold l_evaluate; rewrite Z; reflexivity].
  induction R as [p c|e o e' R IH Ro IHo E|e o e' R IH Ro E].
  - intros n m _. reflexivity.
  - revert Z. apply (additive_sound _ e e' (l_translate_additive o) E IH).
  - revert Z. apply (additive_sound _ e e' (l_convert_additive o) E IH).
Qed.
(** Adding nothing changes nothing: zero expansions, zero strengths, zero solution values. *)
Theorem C05_adding_nothing : forall e other x v sol,
  m_add_charge e 0 x = Some e /\ m_add_normder e 0 x v = Some e /\ m_add_scaled e other 0 = Some e /\
  (e_zero other = true -> m_add_scaled e other sol = Some e /\ same_result (m_translate e other) (Some e) /\ l_translate e other = Some e /\ l_convert e other = Some e).
Proof.
  intros e other x v sol. unfold m_add_charge, m_add_normder, m_add_scaled, l_translate, l_convert, m_translate.
  destruct (Req_EM_T 0 0) as [_|N]; [|congruence]. rewrite orb_true_r. split; [reflexivity|]. split; [reflexivity|]. split; [reflexivity|].
  intros Z. rewrite Z. cbn. rewrite andb_true_r. repeat split; auto.
Qed.
(** The flag after direct expansion of sources is exact: it stays set iff every strength is zero. *)
Theorem C05_flag_exact : forall p c l, (p <= 20)%nat -> List.Forall (regular c) l ->
  exists e, add_sources (fresh p c) l = Some e /\ (e_zero e = true <-> List.Forall (fun s => strength s = 0) l).
Proof.
  intros p c l Lp F. destruct (add_sources_ok l (fresh p c) Lp F) as (e & A & _ & _ & Z & _). exists e. split; auto. rewrite Z. cbn. clear.
  rewrite negb_true_iff. induction l as [|s l IH]; cbn; [split; auto|]. unfold nonzero at 1. destruct (Req_EM_T (strength s) 0) as [E|E]; cbn.
  - rewrite IH. split; [intros Q; constructor; auto|intros Q; inversion Q; auto].
  - split; [discriminate|]. intros Q. inversion Q; contradiction.
Qed.
(** The exception: LocalExpansion::Add(real, imag) keeps the flag set when the sum of squares is at most
    1e-20, although the coefficients are not zero ... *)
Theorem C05_vectors_break_the_flag : forall c x y, x <> 0 -> x * x + y * y <= 1 / 10 ^ 20 ->
  exists e, l_add_vectors (fresh 0 c) [x] [y] = Some e /\ e_zero e = true /\ ~ all_zero e.
Proof.
  intros c x y Nx Le. unfold l_add_vectors, l_add_vectors_step, mn_pairs. cbn [fresh e_p e_center e_zero e_coeffs seq flat_map map app plus Nat.sub fold_left bind nth_error].
  unfold add_to. change (Nat.ltb (tri 0 0) (size 0)) with true. change (Nat.ltb (tri 0 0) (size 0)) with true. cbn [bind].
  eexists. split; [reflexivity|]. split; [cbn [e_zero]; destruct (Rlt_dec (1 / 10 ^ 20) (0 + (x * x + y * y))) as [G|_]; [lra|reflexivity]|]. intros Q. specialize (Q 0%nat 0%nat ltac:(cbn; lia)). unfold coeff in Q. cbn [e_coeffs] in Q.
  cbn in Q. inversion Q as [[E1 E2]]. apply Nx. lra.
Qed.
(** Exactly: for order 0 the only coefficient gets a + conj a = 2 x, and the flag is kept iff it was set and the
    sum of squares does not exceed 1e-20. *)
Theorem C05_vectors_order_zero : forall e x y, e_p e = 0%nat ->
  exists e', l_add_vectors e [x] [y] = Some e' /\ e_p e' = 0%nat /\ e_center e' = e_center e /\
    coeff e' 0 0 = (fst (coeff e 0 0) + 2 * x, snd (coeff e 0 0)) /\
    (e_zero e' = true <-> e_zero e = true /\ x * x + y * y <= 1 / 10 ^ 20).
Proof.
  intros [p c z M] x y E. cbn in E. subst p. unfold l_add_vectors, l_add_vectors_step, mn_pairs. cbn [e_p e_center e_zero e_coeffs seq flat_map map app plus Nat.sub fold_left bind nth_error].
  unfold add_to. change (Nat.ltb (tri 0 0) (size 0)) with true. cbn [bind].
  eexists. split; [reflexivity|]. split; [reflexivity|]. split; [reflexivity|]. split.
  - unfold coeff. cbn [e_coeffs]. cbn. unfold Cplus. cbn. f_equal; lra.
  - cbn [e_zero]. destruct (Rlt_dec (1 / 10 ^ 20) (0 + (x * x + y * y))) as [G|G].
    + split; [discriminate|]. intros [_ L]. lra.
    + split; [intros ->; split; auto; lra|tauto].
Qed.
(** ... and for every order at least 1 it writes outside the coefficient array. *)
Theorem C05_vectors_out_of_bounds : forall e re im, (1 <= e_p e)%nat -> l_add_vectors e re im = None.
Proof.
  intros e re im L. unfold l_add_vectors.
  assert (N : forall l, fold_left (l_add_vectors_step (e_p e) re im) l None = None) by (induction l; auto).
  assert (I : In (e_p e, e_p e) (mn_pairs (e_p e))).
  { unfold mn_pairs. apply in_flat_map. exists (e_p e). split; [apply in_seq; lia|]. apply in_map_iff. exists (e_p e). split; auto. apply in_seq. lia. }
  assert (B : forall st, l_add_vectors_step (e_p e) re im st (e_p e, e_p e) = None).
  { intros [[[k s] M]|]; [|reflexivity]. unfold l_add_vectors_step. cbn [bind]. destruct (nth_error re k); [|reflexivity]. cbn [bind]. destruct (nth_error im k); [|reflexivity]. cbn [bind].
    unfold add_to at 1. destruct (Nat.ltb_spec (tri (e_p e) (e_p e + e_p e)) (size (e_p e))) as [Lt|_]; [|reflexivity].
    rewrite size_tri, tri_S in Lt. rewrite (tri_row (e_p e) (e_p e + e_p e)), (tri_row (e_p e) (e_p e)) in Lt. lia. }
  assert (F : forall l st, In (e_p e, e_p e) l -> fold_left (l_add_vectors_step (e_p e) re im) l st = None).
  { induction l as [|a l IH]; intros st J; [destruct J|]. destruct J as [->|J]; cbn [fold_left]; [rewrite B; apply N|apply IH, J]. }
  rewrite F by auto. reflexivity.
Qed.
Example C05_nonvacuous : exists e, m_reachable e /\ e_zero e = true /\ e_p e = 3%nat.
Proof. exists (fresh 3 (Pt 0 0 0)). split; [constructor|auto]. Qed.

(** ** C06 *)
(** The outcome of a list of calls does not depend on their order (including whether it is defined). *)
Theorem C06_order_multipole : forall e l l', Permutation l l' -> same_result (run m_apply e l) (run m_apply e l').
Proof. intros. apply run_perm; auto. intros; apply m_apply_additive. Qed.
Theorem C06_order_local : forall e l l', Permutation l l' -> same_result (run l_apply e l) (run l_apply e l').
Proof. intros. apply run_perm; auto. intros; apply l_apply_additive. Qed.
(** The coefficients are the initial ones plus what each call alone leaves in an empty expansion. *)
Lemma run_total {K} (apply : expansion -> K -> option expansion) : (forall k, additive (fun e => apply e k)) -> forall l e e',
  run apply e l = Some e' -> adds e e' (fun n m => total l (fun k => alone apply (e_p e) (e_center e) k n m)).
Proof.
  intros Ad l e e' E. assert (Q := run_ok K apply Ad l e). destruct (forallb _ l).
  - destruct Q as (e1 & A & P1 & C1 & _ & M1). rewrite A in E. inversion E; subst e1. unfold adds. split; [auto|]. split; [auto|]. intros n m _. unfold coeff. rewrite M1. reflexivity.
  - congruence.
Qed.
Theorem C06_accumulation_multipole : forall l e e', run m_apply e l = Some e' ->
  adds e e' (fun n m => total l (fun k => alone m_apply (e_p e) (e_center e) k n m)).
Proof. intros. eapply run_total; eauto using m_apply_additive. Qed.
Theorem C06_accumulation_local : forall l e e', run l_apply e l = Some e' ->
  adds e e' (fun n m => total l (fun k => alone l_apply (e_p e) (e_center e) k n m)).
Proof. intros. eapply run_total; eauto using l_apply_additive. Qed.
(** It is defined exactly when each call is defined on an empty expansion of that order and center. *)
Lemma run_defined {K} (apply : expansion -> K -> option expansion) : (forall k, additive (fun e => apply e k)) -> forall l e,
  (exists e', run apply e l = Some e') <-> List.Forall (fun k => exists f, apply (fresh (e_p e) (e_center e)) k = Some f) l.
Proof.
  intros Ad l e. assert (Q := run_ok K apply Ad l e). destruct (forallb (defined_at K apply (e_p e) (e_center e)) l) eqn:F.
  - split; intros _; [|destruct Q as (e1 & A & _); eauto]. apply List.Forall_forall. intros k Hk. assert (G := proj1 (forallb_forall _ _) F k Hk). unfold defined_at in G.
    destruct (apply _ k) as [f|]; [eauto|discriminate].
  - split; [intros (e' & E); congruence|]. intros G. exfalso. assert (T : forallb (defined_at K apply (e_p e) (e_center e)) l = true).
    { apply forallb_forall. intros k Hk. rewrite List.Forall_forall in G. destruct (G k Hk) as (f & Ef). unfold defined_at. rewrite Ef. reflexivity. }
    congruence.
Qed.
Theorem C06_defined_multipole : forall l e, (exists e', run m_apply e l = Some e') <-> List.Forall (fun k => exists f, m_apply (fresh (e_p e) (e_center e)) k = Some f) l.
Proof. intros. apply run_defined, m_apply_additive. Qed.
Theorem C06_defined_local : forall l e, (exists e', run l_apply e l = Some e') <-> List.Forall (fun k => exists f, l_apply (fresh (e_p e) (e_center e)) k = Some f) l.
Proof. intros. apply run_defined, l_apply_additive. Qed.
(** Linearity of each call in its strength or solution value. *)
Theorem C06_linear_in_charge : forall p c q x n m, (p <= 20)%nat -> x <> c -> (m <= n <= p)%nat ->
  alone m_apply p c (MCharge q x) n m = (RtoC q * alone m_apply p c (MCharge 1 x) n m)%C.
Proof.
  intros p c q x n m Lp Nx L. unfold alone. assert (A : forall s, match m_apply (fresh p c) (MCharge s x) with Some e => coeff e n m | None => RtoC 0 end = (RtoC s * K (psub x c) n m)%C).
  { intros s. destruct (add_source_ok (fresh p c) (Charge s x) Lp (or_intror Nx)) as (e & E & P & _ & _ & Co & _). cbn [m_apply]. cbn [add_source] in E. rewrite E.
    unfold coeff. rewrite (Co n m L : e_coeffs e (tri n m) = _). cbn. ring. }
  rewrite !A. ring.
Qed.
Theorem C06_linear_in_dipole : forall p c q x v n m, (p <= 20)%nat -> (cx x <> cx c \/ cy x <> cy c) -> v <> Pt 0 0 0 -> (m <= n <= p)%nat ->
  alone m_apply p c (MDipole q x v) n m = (RtoC q * alone m_apply p c (MDipole 1 x v) n m)%C.
Proof.
  intros p c q x v n m Lp Nx Nv L. unfold alone. assert (A : forall s, match m_apply (fresh p c) (MDipole s x v) with Some e => coeff e n m | None => RtoC 0 end = (RtoC s * dKc (psub x c) (unit v) n m)%C).
  { intros s. destruct (add_source_ok (fresh p c) (Dipole s x v) Lp (or_intror (conj Nx Nv))) as (e & E & P & _ & _ & Co & _). cbn [m_apply]. cbn [add_source] in E. rewrite E.
    unfold coeff. rewrite (Co n m L : e_coeffs e (tri n m) = _). cbn. ring. }
  rewrite !A. ring.
Qed.
Lemma scaled_ok e other sol : (e_p e <= e_p other)%nat -> e_zero other = false -> sol <> 0 ->
  exists e', m_add_scaled e other sol = Some e' /\ e_p e' = e_p e /\ e_center e' = e_center e /\ e_zero e' = false /\
    forall n m, (m <= n <= e_p e)%nat -> at_ e' n m = (at_ e n m + RtoC sol * at_ other n m)%C.
Proof.
  intros Lp Z Ns. unfold m_add_scaled. rewrite Z. destruct (Req_EM_T sol 0) as [?|_]; [contradiction|]. cbn [orb].
  destruct (add_loop_some (e_p e) (fun n m => bind (get_coeff other n m) (fun a => Some (Cmult a (RtoC sol)))) (fun n m => (at_ other n m * RtoC sol)%C) (e_coeffs e)) as (M & A & B & _).
  - intros n m L. rewrite get_some by lia. reflexivity.
  - rewrite A. cbn [bind]. eexists. split; [reflexivity|]. cbn. repeat split; auto. intros n m L. rewrite (Cmult_comm (RtoC sol)). exact (B n m L).
Qed.
Theorem C06_linear_in_solution : forall p c other sol n m, (p <= e_p other)%nat -> m_reachable other -> (m <= n <= p)%nat ->
  alone m_apply p c (MScaled other sol) n m = (RtoC sol * coeff other n m)%C.
Proof.
  intros p c other sol n m Lp R L. unfold alone. cbn [m_apply]. destruct (e_zero other) eqn:Z.
  - unfold m_add_scaled. rewrite Z. cbn [orb]. rewrite (m_reachable_sound other R Z n m ltac:(lia)). cbn. ring.
  - destruct (Req_EM_T sol 0) as [->|N].
    + unfold m_add_scaled. destruct (Req_EM_T 0 0); [|congruence]. rewrite orb_true_r. cbn. ring.
    + destruct (scaled_ok (fresh p c) other sol Lp Z N) as (e & E & _ & _ & _ & Co). rewrite E. unfold coeff at 1. rewrite (Co n m L : e_coeffs e (tri n m) = _). cbn. unfold coeff, at_. ring.
Qed.
(** Evaluation is linear: if the coefficients of e are those of e1 plus k times those of e2, so are the values. *)
Theorem C06_evaluate_multipole : forall e e1 e2 k x, (e_p e <= 20)%nat -> e_p e1 = e_p e -> e_p e2 = e_p e -> e_center e1 = e_center e -> e_center e2 = e_center e ->
  m_reachable e -> m_reachable e1 -> m_reachable e2 -> x <> e_center e ->
  (forall n m, (m <= n <= e_p e)%nat -> coeff e n m = (coeff e1 n m + RtoC k * coeff e2 n m)%C) ->
  exists r1 r2, m_evaluate e1 x = Some r1 /\ m_evaluate e2 x = Some r2 /\ m_evaluate e x = Some (r1 + k * r2).
Proof.
  intros e e1 e2 k x Lp P1 P2 C1 C2 R R1 R2 Nx E. rewrite !m_eval_ok by (try rewrite ?P1, ?P2; try rewrite ?C1, ?C2; auto; intros Z; apply m_reachable_sound; auto).
  rewrite P1, P2, C1, C2. do 2 eexists. split; [reflexivity|]. split; [reflexivity|]. f_equal. rewrite (full_ext _ (fun n m => at_ e1 n m + RtoC k * at_ e2 n m)%C) by (intros; apply E; auto).
  rewrite full_plus, full_scal, fst_plus, fst_scal. reflexivity.
Qed.
Lemma l_reachable_sound e : l_reachable e -> sound e.
Proof. intros R Z. apply (proj1 (C05_local_flag e R Z)). Qed.
Theorem C06_evaluate_local : forall e e1 e2 k x, (e_p e <= 20)%nat -> e_p e1 = e_p e -> e_p e2 = e_p e -> e_center e1 = e_center e -> e_center e2 = e_center e ->
  l_reachable e -> l_reachable e1 -> l_reachable e2 -> x <> e_center e ->
  (forall n m, (m <= n <= e_p e)%nat -> coeff e n m = (coeff e1 n m + RtoC k * coeff e2 n m)%C) ->
  exists r1 r2, l_evaluate e1 x = Some r1 /\ l_evaluate e2 x = Some r2 /\ l_evaluate e x = Some (r1 + k * r2).
Proof.
  intros e e1 e2 k x Lp P1 P2 C1 C2 R R1 R2 Nx E. rewrite !l_eval_ok by (try rewrite ?P1, ?P2; try rewrite ?C1, ?C2; auto using l_reachable_sound).
  rewrite P1, P2, C1, C2. do 2 eexists. split; [reflexivity|]. split; [reflexivity|]. f_equal. rewrite (full_ext _ (fun n m => at_ e1 n m + RtoC k * at_ e2 n m)%C) by (intros; apply E; auto).
  rewrite full_plus, full_scal, fst_plus, fst_scal. reflexivity.
Qed.
(** Hence the value of two batches of calls together is the sum of the values of the batches. *)
Lemma run_reachable_p {K} (apply : expansion -> K -> option expansion) : (forall k, additive (fun e => apply e k)) -> forall l e e', run apply e l = Some e' -> e_p e' = e_p e /\ e_center e' = e_center e.
Proof. intros Ad l e e' E. destruct (run_total apply Ad l e e' E) as (A & B & _). auto. Qed.
Lemma run_sound {K} (apply : expansion -> K -> option expansion) : (forall k, additive (fun e => apply e k)) -> forall l e e', run apply e l = Some e' -> sound e -> sound e'.
Proof. intros Ad l e e' E S. intros Z. apply (additive_sound _ e e' (run_additive K apply Ad l) E S Z). Qed.
Theorem C06_batches : forall p c l1 l2 x, (p <= 20)%nat -> x <> c ->
  forall e, run m_apply (fresh p c) (l1 ++ l2) = Some e ->
  exists e1 e2 r1 r2, run m_apply (fresh p c) l1 = Some e1 /\ run m_apply (fresh p c) l2 = Some e2 /\
    m_evaluate e1 x = Some r1 /\ m_evaluate e2 x = Some r2 /\ m_evaluate e x = Some (r1 + r2).
Proof.
  intros p c l1 l2 x Lp Nx e E. assert (D : exists e', run m_apply (fresh p c) (l1 ++ l2) = Some e') by eauto.
  apply C06_defined_multipole in D. apply Forall_app in D as [D1 D2]. apply C06_defined_multipole in D1 as (e1 & E1). apply C06_defined_multipole in D2 as (e2 & E2).
  exists e1, e2. destruct (C06_accumulation_multipole _ _ _ E) as (P & Cc & A). destruct (C06_accumulation_multipole _ _ _ E1) as (P1 & Cc1 & A1). destruct (C06_accumulation_multipole _ _ _ E2) as (P2 & Cc2 & A2).
  assert (S0 : sound (fresh p c)) by (intros _ n m _; reflexivity).
  cbn [fresh e_p e_center] in *. exists (fst (full (at_ e1) (wm (psub x c)) (psub x c) p)), (fst (full (at_ e2) (wm (psub x c)) (psub x c) p)).
  split; [auto|]. split; [auto|]. rewrite !m_eval_ok by (rewrite ?P, ?P1, ?P2, ?Cc, ?Cc1, ?Cc2; auto; eapply run_sound; eauto using m_apply_additive).
  rewrite P, P1, P2, Cc, Cc1, Cc2. split; [auto|]. split; [auto|]. f_equal. rewrite <- fst_plus, <- full_plus. f_equal. apply full_ext. intros n m L. unfold at_.
  change (coeff e n m = (coeff e1 n m + coeff e2 n m)%C). rewrite A, A1, A2 by auto. rewrite total_app. unfold coeff. cbn [fresh e_coeffs]. ring.
Qed.
(** Undefined cases: a non-zero source at the center, an order above 20, an operand of smaller order. *)
Theorem C06_undefined : 
  (forall e q, q <> 0 -> m_add_charge e q (e_center e) = None) /\
  (forall e q x, q <> 0 -> (20 < e_p e)%nat -> m_add_charge e q x = None) /\
  (forall e other sol, sol <> 0 -> e_zero other = false -> (e_p other < e_p e)%nat -> m_add_scaled e other sol = None).
Proof.
  repeat split.
  - intros e q N. unfold m_add_charge. destruct (Req_EM_T q 0); [contradiction|]. rewrite spher_none; [reflexivity|]. apply rho_0, psub_0. reflexivity.
  - intros e q x N L. unfold m_add_charge. destruct (Req_EM_T q 0); [contradiction|]. rewrite spher_bind. destruct (nz _); [|reflexivity].
    rewrite (add_loop_none _ _ _ 21 0); [reflexivity|lia|]. unfold charge_term. rewrite (proj1 (C11_outside_is_undefined 21 0 _ ltac:(lia))). reflexivity.
  - intros e other sol N Z L. unfold m_add_scaled. rewrite Z. destruct (Req_EM_T sol 0); [contradiction|]. cbn [orb].
    rewrite (add_loop_none _ _ _ (e_p e) 0); [reflexivity|lia|]. unfold get_coeff. destruct (Nat.ltb_spec (tri (e_p e) 0) (size (e_p other))) as [G|_]; [|reflexivity]. exfalso.
    rewrite size_tri in G. assert (Q : (tri (S (e_p other)) 0 <= tri (e_p e) 0)%nat); [|lia]. destruct (Nat.eq_dec (S (e_p other)) (e_p e)) as [<-|Ne]; [lia|]. apply Nat.lt_le_incl, tri_lt; lia.
Qed.
Example C06_nonvacuous : exists e, run m_apply (fresh 2 (Pt 0 0 0)) [MCharge 1 (Pt 1 0 0); MDipole 2 (Pt 0 1 0) (Pt 0 0 1)] = Some e.
Proof.
  apply C06_defined_multipole. repeat constructor; cbn.
  - destruct (add_source_ok (fresh 2 (Pt 0 0 0)) (Charge 1 (Pt 1 0 0))) as (e & E & _); [cbn; lia|right; intros Q; inversion Q; lra|eauto].
  - destruct (add_source_ok (fresh 2 (Pt 0 0 0)) (Dipole 2 (Pt 0 1 0) (Pt 0 0 1))) as (e & E & _); [cbn; lia|cbn; right; split; [right; lra|intros Q; inversion Q; lra]|eauto].
Qed.

(** ** C07 *)
(** Translating the expansion of sources about c1 to c2 adds exactly what expanding them about c2 adds. *)
Theorem C07_translation_is_exact : forall p c1 c2 sources, (p <= 20)%nat -> List.Forall (regular c1) sources -> List.Forall (regular c2) sources ->
  1 / 10000000 < distance c1 c2 ->
  exists e1 e2, add_sources (fresh p c1) sources = Some e1 /\ add_sources (fresh p c2) sources = Some e2 /\
    forall target, e_center target = c2 -> (e_p target <= p)%nat ->
      exists e', m_translate target e1 = Some e' /\ adds target e' (coeff e2).
Proof.
  intros p c1 c2 l Lp R1 R2 Ds. destruct (add_sources_ok l (fresh p c1) Lp R1) as (e1 & A1 & P1 & C1 & Z1 & Co1 & _).
  destruct (add_sources_ok l (fresh p c2) Lp R2) as (e2 & A2 & P2 & C2 & Z2 & Co2 & _). cbn [fresh e_p e_center e_zero] in *. exists e1, e2. split; [auto|]. split; [auto|].
  intros tg Ct Lt. destruct (e_zero e1) eqn:Z.
  - exists (Exp (e_p tg) (e_center tg) (e_zero tg && true) (e_coeffs tg)). split; [unfold m_translate; rewrite Z; reflexivity|]. repeat split; auto. intros n m L.
    unfold coeff at 3. rewrite (Co2 n m ltac:(lia) : e_coeffs e2 (tri n m) = _). rewrite csum_zero; [unfold coeff, at_; cbn [fresh e_coeffs]; ring|]. intros s Hs. apply contrib_0.
    cbn in Z1. symmetry in Z1. rewrite negb_true_iff in Z1. destruct (Req_EM_T (strength s) 0) as [E|E]; [auto|]. exfalso.
    assert (T : existsb nonzero l = true) by (apply existsb_exists; exists s; split; auto; unfold nonzero; destruct (Req_EM_T (strength s) 0); congruence). congruence.
  - destruct (translate_ok l e1 tg) as (e' & A & P & Cc & _ & Co & _); rewrite ?P1, ?C1, ?Ct; auto.
    { intros n m L. rewrite Co1 by auto. cbn. ring. }
    exists e'. split; auto. repeat split; auto. intros n m L. unfold coeff at 1 2. rewrite (Co n m L : e_coeffs e' (tri n m) = _). unfold at_. f_equal.
    unfold coeff. rewrite (Co2 n m ltac:(lia) : e_coeffs e2 (tri n m) = _). rewrite Ct. cbn. ring.
Qed.
(** Below the coincidence tolerance the coefficients are copied. *)
Theorem C07_close_centers_are_copied : forall e other, (e_p e <= e_p other)%nat -> distance (e_center other) (e_center e) <= 1 / 10000000 -> m_reachable other ->
  exists e', m_translate e other = Some e' /\ adds e e' (coeff other).
Proof.
  intros e other Lp Ds R. unfold m_translate. destruct (e_zero other) eqn:Z.
  - eexists. split; [reflexivity|]. repeat split; auto. intros n m L. rewrite (m_reachable_sound other R Z n m ltac:(lia)). unfold coeff. cbn. ring.
  - destruct (Rlt_dec _ _) as [?|_]; [lra|]. destruct (add_loop_some (e_p e) (fun n m => get_coeff other n m) (coeff other) (e_coeffs e)) as (M & A & B & _).
    + intros n m L. apply get_some. lia.
    + rewrite A. cbn [bind]. eexists. split; [reflexivity|]. repeat split; auto.
Qed.
(** ... which is exact for equal centers but not otherwise: the tolerance costs accuracy. *)
Lemma Plm_1_0 x : -1 <= x <= 1 -> Plm 1 0 x = x.
Proof. intros Hx. assert (E := C11_table_values 1 0 x ltac:(lia) Hx). unfold GetAssLegFunSph in E. cbn in E. injection E as E. symmetry. exact E. Qed.
Theorem C07_close_centers_refuted : exists c1 c2 s e1 e2 e',
  c1 <> c2 /\ regular c1 s /\ regular c2 s /\ add_sources (fresh 1 c1) [s] = Some e1 /\ add_sources (fresh 1 c2) [s] = Some e2 /\
  m_translate (fresh 1 c2) e1 = Some e' /\ coeff e' 1 0 <> coeff e2 1 0.
Proof.
  set (c1 := Pt 0 0 0). set (c2 := Pt 0 0 (1 / 100000000)). set (s := Charge 1 (Pt 0 0 1)). exists c1, c2, s.
  assert (R1 : regular c1 s) by (right; intros Q; inversion Q; lra). assert (R2 : regular c2 s) by (right; intros Q; inversion Q; lra).
  destruct (add_sources_ok [s] (fresh 1 c1) ltac:(cbn; lia) ltac:(constructor; auto)) as (e1 & A1 & P1 & C1 & _ & Co1 & _).
  destruct (add_sources_ok [s] (fresh 1 c2) ltac:(cbn; lia) ltac:(constructor; auto)) as (e2 & A2 & P2 & C2 & _ & Co2 & _). cbn [fresh e_p e_center] in *.
  assert (Rm : m_reachable e1). { unfold add_sources in A1. cbn [fold_left bind add_source s] in A1. eapply m_charge; [constructor|exact A1]. }
  assert (Ds : distance c1 c2 <= 1 / 10000000).
  { unfold distance, square, psub. cbn. replace (_ + _ + _) with ((1 / 100000000) * (1 / 100000000)) by field. rewrite sqrt_square by lra. lra. }
  destruct (C07_close_centers_are_copied (fresh 1 c2) e1) as (e' & T & _ & _ & Ad); [rewrite P1; cbn; lia|rewrite C1; exact Ds|exact Rm|].
  exists e1, e2, e'. repeat split; auto; [intros Q; inversion Q; lra|]. rewrite Ad by (cbn; lia).
  unfold coeff at 2 3. rewrite (Co1 1%nat 0%nat ltac:(lia) : e_coeffs e1 (tri 1 0) = _), (Co2 1%nat 0%nat ltac:(lia) : e_coeffs e2 (tri 1 0) = _).
  cbn [csum contrib s coeff fresh e_coeffs at_]. unfold K.
  assert (G : forall z, 0 < z -> rho_ (Pt 0 0 z) = z /\ cos_ (Pt 0 0 z) = 1).
  { intros z Hz. assert (Rz : rho_ (Pt 0 0 z) = z). { unfold rho_, square. cbn. replace (0 * 0 + 0 * 0 + z * z) with (z * z) by ring. apply sqrt_square. lra. }
    split; auto. unfold cos_. rewrite Rz. cbn. field. lra. }
  replace (psub (Pt 0 0 1) c1) with (Pt 0 0 1) by (unfold psub; cbn; f_equal; ring). replace (psub (Pt 0 0 1) c2) with (Pt 0 0 (99999999 / 100000000)) by (unfold psub; cbn; f_equal; field).
  destruct (G 1 ltac:(lra)) as [-> ->]. destruct (G (99999999 / 100000000) ltac:(lra)) as [-> ->]. rewrite Plm_1_0 by lra. simpl INR. replace (- 0) with 0 by ring. rewrite !Rmult_0_l, cis_0.
  intros Q. apply (f_equal fst) in Q. cbn in Q. lra.
Qed.
Example C07_nonvacuous : exists e1 e2 e', add_sources (fresh 3 (Pt 0 0 0)) [Charge 2 (Pt 1 0 0); Dipole 1 (Pt 0 1 1) (Pt 0 0 1)] = Some e1 /\
  add_sources (fresh 3 (Pt 5 0 0)) [Charge 2 (Pt 1 0 0); Dipole 1 (Pt 0 1 1) (Pt 0 0 1)] = Some e2 /\
  m_translate (fresh 3 (Pt 5 0 0)) e1 = Some e' /\ (forall n m, (m <= n <= 3)%nat -> coeff e' n m = coeff e2 n m).
Proof.
  assert (N : Pt 0 0 1 <> Pt 0 0 0) by (intros Q; inversion Q; lra).
  destruct (C07_translation_is_exact 3 (Pt 0 0 0) (Pt 5 0 0) [Charge 2 (Pt 1 0 0); Dipole 1 (Pt 0 1 1) (Pt 0 0 1)]) as (e1 & e2 & A & B & T); [lia|..].
  - constructor; [right; intros Q; inversion Q; lra|constructor; [right; cbn; split; [right; lra|auto]|constructor]].
  - constructor; [right; intros Q; inversion Q; lra|constructor; [right; cbn; split; [right; lra|auto]|constructor]].
  - unfold distance, square, psub. cbn. replace ((0 - 5) * (0 - 5) + (0 - 0) * (0 - 0) + (0 - 0) * (0 - 0)) with (5 * 5) by ring. rewrite sqrt_square; lra.
  - destruct (T (fresh 3 (Pt 5 0 0)) eq_refl ltac:(cbn; lia)) as (e' & E & _ & _ & Ad). exists e1, e2, e'. repeat split; auto. intros n m L. rewrite Ad by (cbn; lia). unfold coeff at 1. cbn [fresh e_coeffs]. ring.
Qed.

(** ** C08 *)
(** Translating a local expansion to another center adds, at every point, exactly its values. *)
Lemma l_translate_ok e other : e_p e = e_p other -> (e_p e <= 10)%nat -> e_zero other = false -> 1 / 10000000 < distance (e_center other) (e_center e) ->
  exists e', l_translate e other = Some e' /\ e_p e' = e_p e /\ e_center e' = e_center e /\ e_zero e' = false /\
    forall n m, (m <= n <= e_p e)%nat -> at_ e' n m = (at_ e n m + RtoC (aa n m * ((-1) ^ n * sigma (Z.of_nat m))) * Lam (at_ other) (psub (e_center other) (e_center e)) (e_p e) n (Z.of_nat m))%C.
Proof.
  intros Ep L10 Z Ds. unfold l_translate. rewrite Z. destruct (Rlt_dec _ _) as [_|?]; [|contradiction]. set (D := psub (e_center other) (e_center e)) in *.
  assert (ND : rho_ D <> 0). { unfold distance in Ds. fold D in Ds. unfold rho_. lra. } rewrite spher_some by auto. cbn [bind].
  destruct (add_loop_some (e_p e) _ _ (e_coeffs e) (fun n m L => l2l_coeff_ok other D (e_p e) n m ND ltac:(lia) L10 L)) as (M & A & B & _). rewrite A. cbn [bind].
  eexists. split; [reflexivity|]. cbn. auto.
Qed.
Lemma full_1 g d p : full g (wl d) d p = full g (fun _ => 1) d p. Proof. reflexivity. Qed.
Theorem C08_translation_is_exact : forall e other x, e_p e = e_p other -> (e_p e <= 10)%nat -> (e_zero e = true -> all_zero e) -> (e_zero other = true -> all_zero other) ->
  1 / 10000000 < distance (e_center other) (e_center e) -> x <> e_center e -> x <> e_center other ->
  exists e' r0 r, l_translate e other = Some e' /\ l_evaluate e x = Some r0 /\ l_evaluate other x = Some r /\ l_evaluate e' x = Some (r0 + r) /\
    e_p e' = e_p e /\ e_center e' = e_center e.
Proof.
  intros e other x Ep L10 Se So Ds N1 N2. rewrite (l_eval_ok e x), (l_eval_ok other x) by (auto; lia). destruct (e_zero other) eqn:Z.
  - exists e. do 2 eexists. split; [unfold l_translate; rewrite Z; reflexivity|]. split; [reflexivity|]. split; [reflexivity|]. split; [|auto].
    rewrite (full_ext (at_ other) (fun _ _ => RtoC 0)) by (intros; apply So; auto). rewrite full_zero. rewrite l_eval_ok by (auto; lia). f_equal. cbn. ring.
  - destruct (l_translate_ok e other Ep L10 Z Ds) as (e' & A & P & Cc & Zf & Co). exists e'. do 2 eexists. split; [exact A|]. split; [reflexivity|]. split; [reflexivity|]. split; [|auto].
    rewrite l_eval_ok by (rewrite ?P, ?Cc; auto; try lia; intros Q; congruence). f_equal. rewrite P, Cc, <- Ep.
    rewrite (full_ext (at_ e') _ _ _ _ Co), full_plus, fst_plus. f_equal.
    set (D := psub (e_center other) (e_center e)). rewrite full_1, (L2L_full (at_ other) _ D) by (intros; reflexivity).
    f_equal. unfold wl. f_equal. unfold D, psub, padd3, pneg. cbn. f_equal; ring.
Qed.
(** In particular for a new expansion the value at every point is unchanged. *)
Theorem C08_moved_expansion_has_the_same_values : forall other c' x, (e_p other <= 10)%nat -> (e_zero other = true -> all_zero other) ->
  1 / 10000000 < distance (e_center other) c' -> x <> c' -> x <> e_center other ->
  exists e' r, l_translate (fresh (e_p other) c') other = Some e' /\ l_evaluate other x = Some r /\ l_evaluate e' x = Some r.
Proof.
  intros other c' x L10 So Ds N1 N2. destruct (C08_translation_is_exact (fresh (e_p other) c') other x) as (e' & r0 & r & A & B & D & E & _); cbn; auto.
  - intros _ n m _. reflexivity.
  - exists e', r. unfold l_evaluate at 1 in B. cbn in B. inversion B; subst r0. rewrite Rplus_0_l in E. auto.
Qed.
(** Below the coincidence tolerance the coefficients are copied. *)
Theorem C08_close_centers_are_copied : forall e other, (e_p e <= e_p other)%nat -> distance (e_center other) (e_center e) <= 1 / 10000000 -> e_zero other = false ->
  exists e', l_translate e other = Some e' /\ adds e e' (coeff other).
Proof.
  intros e other Lp Ds Z. unfold l_translate. rewrite Z. destruct (Rlt_dec _ _) as [?|_]; [lra|].
  destruct (add_loop_some (e_p e) (fun n m => get_coeff other n m) (coeff other) (e_coeffs e)) as (M & A & B & _).
  - intros n m L. apply get_some. lia.
  - rewrite A. cbn [bind]. eexists. split; [reflexivity|]. repeat split; auto.
Qed.
(** Above order 10 the translation reads outside its table. *)
Theorem C08_beyond_order_10_is_undefined : forall e other, (10 < e_p e)%nat -> e_zero other = false -> 1 / 10000000 < distance (e_center other) (e_center e) -> l_translate e other = None.
Proof.
  intros e other L Z Ds. unfold l_translate. rewrite Z. destruct (Rlt_dec _ _) as [_|?]; [|contradiction]. set (D := psub (e_center other) (e_center e)) in *.
  assert (ND : rho_ D <> 0). { unfold distance in Ds. fold D in Ds. unfold rho_. lra. } rewrite spher_some by auto. cbn [bind].
  rewrite (add_loop_none _ _ _ 11 0); [reflexivity|lia|]. unfold l2l_coeff. apply (osum_none _ _ _ 11%nat); [apply in_seq; lia|]. apply (osum_none _ _ _ 0%Z); [apply sym_in; lia|].
  unfold l2l_term. cbv zeta. destruct (Nat.ltb_spec (11 - 11) (absn (0 - Z.of_nat 0))) as [G|_]; [cbn in G; lia|].
  unfold l2l_table. cbn [Nat.ltb Nat.leb andb]. destruct (get_coeff other 11 (absn 0)); [|reflexivity]. cbn [bind]. destruct (GetAssLegFunSph _ _ _); reflexivity.
Qed.
Example C08_nonvacuous : exists e' r, l_translate (fresh 2 (Pt 5 0 0)) (Exp 2 (Pt 0 0 0) false (fun i => (INR i, 1))) = Some e' /\
  l_evaluate (Exp 2 (Pt 0 0 0) false (fun i => (INR i, 1))) (Pt 1 1 1) = Some r /\ l_evaluate e' (Pt 1 1 1) = Some r.
Proof.
  apply (C08_moved_expansion_has_the_same_values (Exp 2 (Pt 0 0 0) false (fun i => (INR i, 1))) (Pt 5 0 0) (Pt 1 1 1)); cbn; [lia|discriminate| |intros Q; inversion Q; lra|intros Q; inversion Q; lra].
  unfold distance, square, psub. cbn. replace ((0 - 5) * (0 - 5) + (0 - 0) * (0 - 0) + (0 - 0) * (0 - 0)) with (5 * 5) by ring. rewrite sqrt_square; lra.
Qed.

(** ** C09 *)
Lemma unit_charge_K p c x n m : (p <= 20)%nat -> x <> c -> (m <= n <= p)%nat -> unit_charge_coeff p c x n m = K (psub x c) n m.
Proof.
  intros Lp Nx L. unfold unit_charge_coeff. destruct (add_source_ok (fresh p c) (Charge 1 x) Lp (or_intror Nx)) as (e & E & _ & _ & _ & Co & _). cbn [add_source] in E. rewrite E.
  unfold coeff. rewrite (Co n m L : e_coeffs e (tri n m) = _). cbn. ring.
Qed.
Lemma unit_unit v : unit_vector v = unit v.
Proof. unfold unit_vector, unit, norm, square. cbv zeta. replace (cx v ^ 2 + cy v ^ 2 + cz v ^ 2) with (cx v * cx v + cy v * cy v + cz v * cz v) by ring. reflexivity. Qed.
(** AddNormDer adds strength times the derivative, in the direction of the normal, of what a unit charge adds. *)
Theorem C09_dipole_is_derivative_of_charge : forall e q x v, (e_p e <= 20)%nat -> q <> 0 -> v <> Pt 0 0 0 ->
  (cx x <> cx (e_center e) \/ cy x <> cy (e_center e)) ->
  exists e' dre dim, m_add_normder e q x v = Some e' /\ adds e e' (fun n m => (q * dre n m, q * dim n m)) /\
    forall n m, (m <= n <= e_p e)%nat ->
      is_derive (fun t => fst (unit_charge_coeff (e_p e) (e_center e) (line x (unit_vector v) t) n m)) 0 (dre n m) /\
      is_derive (fun t => snd (unit_charge_coeff (e_p e) (e_center e) (line x (unit_vector v) t) n m)) 0 (dim n m).
Proof.
  intros e q x v Lp Nq Nv Nx. assert (N := proj2 (r2_sub x (e_center e)) Nx). apply square_nz in Nv.
  destruct (normder_ok e q x v Nq Nv N Lp) as (e' & A & P & Cc & _ & Co & _). set (d := psub x (e_center e)) in *.
  exists e', (fun n m => fst (dKc d (unit v) n m)), (fun n m => snd (dKc d (unit v) n m)). split; [auto|]. split.
  - repeat split; auto. intros n m L. unfold coeff. rewrite (Co n m L : e_coeffs e' (tri n m) = _). unfold at_. f_equal. destruct (dKc d (unit v) n m). unfold RtoC, Cmult. cbn. f_equal; ring.
  - intros n m L. rewrite unit_unit. apply (cder_ext_loc (fun t => K (along d (unit v) t) n m)); [|apply dKc_der; auto; lia].
    eapply filter_imp; [|apply (off_loc d (unit v) N)]. intros t Nt. cbv beta in *.
    assert (Ea : along d (unit v) t = psub (line x (unit v) t) (e_center e)) by (unfold d, along, line, psub; cbn; f_equal; ring). rewrite Ea in *.
    symmetry. apply unit_charge_K; auto. apply rho_sub, off_rho, Nt.
Qed.
(** On the vertical line through the center, and for a zero normal, the routine divides by zero. *)
Theorem C09_singular_cases : forall e q x v, q <> 0 -> ((cx x = cx (e_center e) /\ cy x = cy (e_center e)) \/ v = Pt 0 0 0) -> m_add_normder e q x v = None.
Proof.
  intros e q x v Nq Cs. unfold m_add_normder. destruct (Req_EM_T q 0); [contradiction|]. cbv zeta.
  destruct Cs as [[X Y]| ->].
  - destruct (pdivs v _); [|reflexivity]. cbn [bind]. destruct (pdivs (psub x (e_center e)) _); [|reflexivity]. cbn [bind]. unfold pdivs at 1.
    destruct (Req_EM_T (cx (psub x (e_center e)) ^ 2 + cy (psub x (e_center e)) ^ 2) 0) as [_|Z]; [reflexivity|]. exfalso. apply Z. unfold psub. cbn. rewrite X, Y. ring.
  - unfold pdivs at 1. cbn [cx cy cz]. replace (0 * 0 + 0 * 0 + 0 * 0) with 0 by ring. rewrite sqrt_0. destruct (Req_EM_T 0 0); [reflexivity|congruence].
Qed.
Example C09_nonvacuous : exists e', m_add_normder (fresh 4 (Pt 0 0 0)) 3 (Pt 1 2 3) (Pt 0 0 2) = Some e'.
Proof.
  destruct (C09_dipole_is_derivative_of_charge (fresh 4 (Pt 0 0 0)) 3 (Pt 1 2 3) (Pt 0 0 2)) as (e' & _ & _ & A & _); cbn; [lia|lra|intros Q; inversion Q; lra|left; lra|eauto].
Qed.
