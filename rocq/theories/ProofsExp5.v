(** * Histories of accumulations. *)
From Coq Require Import ZArith List Reals Lia Lra Bool Permutation.
From Coquelicot Require Import Coquelicot.
From Verif Require Import ModelLegendre ModelLegApi ModelExp SpecLegendre ProofsLegendre ProofsLegCheck PropLegendre ProofsHarm ProofsHarm2 ProofsHarm3 SpecExp ProofsExp ProofsExp2 ProofsExp3 ProofsExp4.
Import ListNotations.
Local Open Scope R_scope.

(** A call is additive: its effect depends only on the order and the center of the target. *)
Definition effect (r : expansion -> option expansion) (p : nat) (c : pt) (b : bool) (a : nat -> C) : Prop :=
  forall e, e_p e = p -> e_center e = c -> exists e', r e = Some e' /\ e_p e' = p /\ e_center e' = c /\ e_zero e' = (e_zero e && negb b)%bool /\
    (forall i, e_coeffs e' i = (e_coeffs e i + a i)%C).
Definition additive (r : expansion -> option expansion) : Prop :=
  forall p c, (forall e, e_p e = p -> e_center e = c -> r e = None) \/ exists b a, effect r p c b a /\ (forall i, (size p <= i)%nat -> a i = RtoC 0) /\ (b = false -> forall i, a i = RtoC 0).
Lemma untri p i : (i < size p)%nat -> exists n m, (m <= n <= p)%nat /\ i = tri n m.
Proof.
  rewrite size_tri. revert i. induction p as [|p IH]; intros i L.
  - exists 0%nat, 0%nat. split; [lia|]. cbn in *. lia.
  - rewrite tri_S in L. destruct (Nat.lt_ge_cases i (tri (S p) 0)) as [G|G].
    + destruct (IH i G) as (n & m & A & B). exists n, m. split; [lia|auto].
    + exists (S p), (i - tri (S p) 0)%nat. rewrite tri_row in L. rewrite (tri_row (S p) (i - _)). split; lia.
Qed.
(** the contribution of a loop, on flat indices *)
Definition pick (f : nat -> nat -> option C) (n m : nat) : C := match f n m with Some a => a | None => RtoC 0 end.
Definition flat (p : nat) (f : nat -> nat -> option C) (i : nat) : C :=
  csum (nm_pairs p) (fun nm => if Nat.eqb i (tri (fst nm) (snd nm)) then pick f (fst nm) (snd nm) else RtoC 0).
Lemma csum_one {A} (l : list A) (f : A -> C) (a : A) : NoDup l -> In a l -> (forall b, In b l -> b <> a -> f b = RtoC 0) -> csum l f = f a.
Proof.
  intros ND. induction ND as [|b l Hn Hl IH]; intros I Z; [destruct I|]. cbn [csum]. destruct I as [->|I].
  - rewrite (csum_zero l); [ring|]. intros b Hb. apply Z; [right; auto|]. intros ->. contradiction.
  - rewrite Z; [|left; auto|intros ->; contradiction]. rewrite IH; auto; [ring|]. intros d Hd. apply Z. right. auto.
Qed.
Lemma flat_in p f n m : (m <= n <= p)%nat -> flat p f (tri n m) = pick f n m.
Proof.
  intros L. unfold flat. rewrite (csum_one _ _ (n, m)); [cbn [fst snd]; rewrite Nat.eqb_refl; reflexivity|apply nm_nodup|apply nm_in, L|].
  intros [n' m'] I N. apply nm_in in I. cbn [fst snd]. destruct (Nat.eqb_spec (tri n m) (tri n' m')) as [E|]; [|reflexivity].
  apply tri_inj in E as [-> ->]; try lia. contradiction.
Qed.
Lemma flat_out p f i : (size p <= i)%nat -> flat p f i = RtoC 0.
Proof.
  intros L. apply csum_zero. intros [n m] I. apply nm_in in I. cbn [fst snd]. assert (Q := tri_size n m p I). destruct (Nat.eqb_spec i (tri n m)); [lia|reflexivity].
Qed.
Lemma loop_cases p f : (exists n m, (m <= n <= p)%nat /\ f n m = None) \/ (forall n m, (m <= n <= p)%nat -> f n m = Some (pick f n m)).
Proof.
  destruct (existsb (fun nm => match f (fst nm) (snd nm) with None => true | Some _ => false end) (nm_pairs p)) eqn:E.
  - left. apply existsb_exists in E as ([n m] & I & E). apply nm_in in I. cbn [fst snd] in E. exists n, m. split; auto. destruct (f n m); [discriminate|reflexivity].
  - right. intros n m L. unfold pick. destruct (f n m) eqn:F; [reflexivity|]. exfalso.
    assert (Q : existsb (fun nm => match f (fst nm) (snd nm) with None => true | Some _ => false end) (nm_pairs p) = true).
    { apply existsb_exists. exists (n, m). split; [apply nm_in, L|]. cbn [fst snd]. rewrite F. reflexivity. }
    congruence.
Qed.
Lemma add_loop_flat p f M : (forall n m, (m <= n <= p)%nat -> f n m = Some (pick f n m)) ->
  exists M', add_loop p f M = Some M' /\ forall i, M' i = (M i + flat p f i)%C.
Proof.
  intros F. destruct (add_loop_some p f (pick f) M F) as (M' & A & B & D). exists M'. split; auto. intros i.
  destruct (Nat.lt_ge_cases i (size p)) as [L|L].
  - destruct (untri p i L) as (n & m & Ln & ->). rewrite B, flat_in by auto. reflexivity.
  - rewrite D, flat_out by auto. ring.
Qed.
(** a routine made of one loop whose terms do not depend on the target's state *)
Lemma loop_additive (f : nat -> pt -> nat -> nat -> option C) :
  additive (fun e => bind (add_loop (e_p e) (f (e_p e) (e_center e)) (e_coeffs e)) (fun M => Some (Exp (e_p e) (e_center e) false M))).
Proof.
  intros p c. destruct (loop_cases p (f p c)) as [(n & m & L & E)|F].
  - left. intros e Ep Ec. rewrite Ep, Ec, (add_loop_none _ _ _ n m L E). reflexivity.
  - right. exists true, (flat p (f p c)). split; [|split; [apply flat_out|discriminate]]. intros e Ep Ec. rewrite Ep, Ec.
    destruct (add_loop_flat p (f p c) (e_coeffs e) F) as (M & A & B). rewrite A. eexists. split; [reflexivity|]. cbn. rewrite andb_false_r. auto.
Qed.
Lemma id_additive : additive (fun e => Some e).
Proof. intros p c. right. exists false, (fun _ => RtoC 0). split; [|auto]. intros e Ep Ec. exists e. cbn. rewrite andb_true_r. repeat split; auto. intros. ring. Qed.
Lemma none_additive : additive (fun e => None).
Proof. intros p c. left. auto. Qed.
Lemma additive_ext r r' : (forall e, r e = r' e) -> additive r -> additive r'.
Proof.
  intros E A p c. destruct (A p c) as [N|(b & a & Ef & Z)]; [left|right].
  - intros e Ep Ec. rewrite <- E. auto.
  - exists b, a. split; [|exact Z]. intros e Ep Ec. rewrite <- E. apply Ef; auto.
Qed.
(** a choice that depends only on order and center *)
Lemma if_additive (D : nat -> pt -> bool) r r' : additive r -> additive r' -> additive (fun e => if D (e_p e) (e_center e) then r e else r' e).
Proof.
  intros A B p c. specialize (A p c). specialize (B p c). destruct (D p c) eqn:E.
  - destruct A as [N|(b & a & Ef & Z)]; [left|right; exists b, a; split; [|exact Z]]; intros e Ep Ec; rewrite Ep, Ec, E; auto.
  - destruct B as [N|(b & a & Ef & Z)]; [left|right; exists b, a; split; [|exact Z]]; intros e Ep Ec; rewrite Ep, Ec, E; auto.
Qed.
Definition nz (d : pt) : bool := if Req_EM_T (rho_ d) 0 then false else true.
Lemma spher_bind {B} d (k : R * R * R -> option B) : bind (spher d) k = if nz d then k (rho_ d, cos_ d, beta_ d) else None.
Proof.
  unfold nz. destruct (Req_EM_T (rho_ d) 0) as [E|E]; [rewrite spher_none by auto|rewrite spher_some by auto]; reflexivity.
Qed.
Lemma bind_assoc {A B D} (o : option A) (f : A -> option B) (g : B -> option D) : bind (bind o f) g = bind o (fun a => bind (f a) g).
Proof. destruct o; reflexivity. Qed.
Lemma charge_additive q x : additive (fun e => m_add_charge e q x).
Proof.
  unfold m_add_charge. destruct (Req_EM_T q 0); [apply id_additive|].
  eapply additive_ext; [|apply (if_additive (fun _ c => nz (psub x c)) _ _ (loop_additive (fun _ c => charge_term q (rho_ (psub x c)) (cos_ (psub x c)) (beta_ (psub x c)))) none_additive)].
  intros e. rewrite spher_bind. reflexivity.
Qed.
Definition osome {A} (o : option A) : bool := match o with Some _ => true | None => false end.
Lemma dipole_additive q x v : additive (fun e => m_add_normder e q x v).
Proof.
  unfold m_add_normder. destruct (Req_EM_T q 0); [apply id_additive|]. cbv zeta.
  destruct (pdivs v _) as [nv|] eqn:E; [|apply none_additive]. cbn [bind].
  set (ok := fun c : pt => (osome (pdivs (psub x c) (sqrt (square (psub x c)))) && osome (pdivs (Pt (- cy (psub x c)) (cx (psub x c)) 0) (cx (psub x c) ^ 2 + cy (psub x c) ^ 2)))%bool).
  eapply additive_ext; [|apply (if_additive (fun _ c => ok c) _ _ (loop_additive (fun _ c =>
    let d := psub x c in
    dipole_term q (rho_ d) (cos_ d) (beta_ d) (dot (Pt (cx d / rho_ d) (cy d / rho_ d) (cz d / rho_ d)) nv)
    (dot (Pt (cos_ d * cos (beta_ d) / rho_ d) (cos_ d * sin (beta_ d) / rho_ d) (- sqrt (1 - cos_ d ^ 2) / rho_ d)) nv)
    (dot (Pt (- cy d / (cx d ^ 2 + cy d ^ 2)) (cx d / (cx d ^ 2 + cy d ^ 2)) (0 / (cx d ^ 2 + cy d ^ 2))) nv))) none_additive)].
  intros e. unfold ok. set (d := psub x (e_center e)). unfold pdivs, rdiv. fold (rho_ d). destruct (Req_EM_T (rho_ d) 0) as [Z|Z]; [reflexivity|]. cbn [osome andb bind].
  destruct (Req_EM_T (cx d ^ 2 + cy d ^ 2) 0) as [Z2|Z2]; reflexivity.
Qed.
Lemma scaled_additive other sol : additive (fun e => m_add_scaled e other sol).
Proof.
  unfold m_add_scaled. destruct (e_zero other || _)%bool; [apply id_additive|].
  apply (loop_additive (fun _ _ n m => bind (get_coeff other n m) (fun a => Some (Cmult a (RtoC sol))))).
Qed.
Definition far (a b : pt) : bool := if Rlt_dec (1 / 10000000) (distance a b) then true else false.
Lemma m_translate_additive other : additive (fun e => m_translate e other).
Proof.
  unfold m_translate. destruct (e_zero other) eqn:Z.
  - eapply additive_ext; [|apply id_additive]. intros [p c z M]. cbn. rewrite andb_true_r. reflexivity.
  - eapply additive_ext; [|apply (if_additive (fun _ c => far (e_center other) c) _ _
      (if_additive (fun _ c => nz (psub (e_center other) c)) _ _ (loop_additive (fun _ c => let D := psub (e_center other) c in m2m_coeff other (rho_ D) (cos_ D) (beta_ D))) none_additive)
      (loop_additive (fun _ _ n m => get_coeff other n m)))].
    intros e. unfold far. destruct (Rlt_dec _ _) as [L|L]; [|reflexivity]. rewrite spher_bind. destruct (nz _); reflexivity.
Qed.
Lemma l_translate_additive other : additive (fun e => l_translate e other).
Proof.
  unfold l_translate. destruct (e_zero other) eqn:Z; [apply id_additive|].
  eapply additive_ext; [|apply (if_additive (fun _ c => far (e_center other) c) _ _
      (if_additive (fun _ c => nz (psub (e_center other) c)) _ _ (loop_additive (fun p c => let D := psub (e_center other) c in l2l_coeff other (rho_ D) (cos_ D) (beta_ D) p)) none_additive)
      (loop_additive (fun _ _ n m => get_coeff other n m)))].
  intros e. unfold far. destruct (Rlt_dec _ _) as [L|L]; [|reflexivity]. rewrite spher_bind. destruct (nz _); reflexivity.
Qed.
Lemma l_convert_additive other : additive (fun e => l_convert e other).
Proof.
  unfold l_convert. destruct (e_zero other) eqn:Z; [apply id_additive|].
  eapply additive_ext; [|apply (if_additive (fun _ c => nz (psub (e_center other) c)) _ _ (loop_additive (fun p c => let D := psub (e_center other) c in m2l_coeff other (rho_ D) (cos_ D) (beta_ D) p)) none_additive)].
  intros e. rewrite spher_bind. reflexivity.
Qed.
Lemma m_apply_additive k : additive (fun e => m_apply e k).
Proof. destruct k; cbn; [apply charge_additive|apply dipole_additive|apply scaled_additive|apply m_translate_additive]. Qed.
Lemma l_apply_additive k : additive (fun e => l_apply e k).
Proof. destruct k; cbn; [apply l_translate_additive|apply l_convert_additive]. Qed.

(** ** Runs of additive calls *)
Section RUN.
Variables (K : Type) (apply : expansion -> K -> option expansion).
Hypothesis Add : forall k, additive (fun e => apply e k).
Lemma run_none l : fold_left (fun o k => bind o (fun e => apply e k)) l None = None.
Proof. induction l; auto. Qed.
Lemma run_cons e k l : run apply e (k :: l) = bind (apply e k) (fun e' => run apply e' l).
Proof. unfold run. cbn [fold_left bind]. destruct (apply e k); [reflexivity|]. cbn [bind]. apply run_none. Qed.
Lemma run_additive l : additive (fun e => run apply e l).
Proof.
  induction l as [|k l IH]; [apply id_additive|].
  eapply additive_ext; [intros e; symmetry; apply run_cons|]. intros p c.
  destruct (Add k p c) as [N|(b & a & Ef & Z & Q)]; [left; intros e Ep Ec; rewrite N by auto; reflexivity|].
  destruct (IH p c) as [N|(b' & a' & Ef' & Z' & Q')].
  - left. intros e Ep Ec. destruct (Ef e Ep Ec) as (e1 & A & P1 & C1 & _). rewrite A. cbn [bind]. apply N; auto.
  - right. exists (b || b')%bool, (fun i => (a i + a' i)%C). split; [|split].
    + intros e Ep Ec. destruct (Ef e Ep Ec) as (e1 & A & P1 & C1 & F1 & M1). destruct (Ef' e1 P1 C1) as (e2 & A2 & P2 & C2 & F2 & M2).
      exists e2. rewrite A. cbn [bind]. repeat split; auto.
      * rewrite F2, F1. destruct (e_zero e), b, b'; reflexivity.
      * intros i. rewrite M2, M1. ring.
    + intros i L. rewrite Z, Z' by auto. ring.
    + intros E i. apply orb_false_iff in E as [E1 E2]. rewrite Q, Q' by auto. ring.
Qed.
Definition defined_at (p : nat) (c : pt) (k : K) : bool := osome (apply (fresh p c) k).
Definition clears (p : nat) (c : pt) (k : K) : bool := match apply (fresh p c) k with Some e => negb (e_zero e) | None => false end.
Definition part (p : nat) (c : pt) (k : K) (i : nat) : C := match apply (fresh p c) k with Some e => e_coeffs e i | None => RtoC 0 end.
Lemma one_step e k : if defined_at (e_p e) (e_center e) k then
    exists e', apply e k = Some e' /\ e_p e' = e_p e /\ e_center e' = e_center e /\ e_zero e' = (e_zero e && negb (clears (e_p e) (e_center e) k))%bool /\
      (forall i, e_coeffs e' i = (e_coeffs e i + part (e_p e) (e_center e) k i)%C)
  else apply e k = None.
Proof.
  unfold defined_at, clears, part. destruct (Add k (e_p e) (e_center e)) as [N|(b & a & Ef & Z)].
  - rewrite (N (fresh (e_p e) (e_center e)) eq_refl eq_refl). cbn. apply N; reflexivity.
  - destruct (Ef (fresh (e_p e) (e_center e)) eq_refl eq_refl) as (f & A & P1 & C1 & F1 & M1). rewrite A. cbn [osome].
    destruct (Ef e eq_refl eq_refl) as (e1 & A' & P' & C' & F' & M'). exists e1. repeat split; auto.
    + rewrite F', F1. cbn. destruct (e_zero e), b; reflexivity.
    + intros i. rewrite M', M1. cbn. ring.
Qed.
Lemma run_ok l : forall e, if forallb (defined_at (e_p e) (e_center e)) l then
    exists e', run apply e l = Some e' /\ e_p e' = e_p e /\ e_center e' = e_center e /\ e_zero e' = (e_zero e && negb (existsb (clears (e_p e) (e_center e)) l))%bool /\
      (forall i, e_coeffs e' i = (e_coeffs e i + csum l (fun k => part (e_p e) (e_center e) k i))%C)
  else run apply e l = None.
Proof.
  induction l as [|k l IH]; intros e.
  - cbn. exists e. rewrite andb_true_r. repeat split; auto. intros. ring.
  - rewrite run_cons. assert (S := one_step e k). cbn [forallb existsb csum]. destruct (defined_at (e_p e) (e_center e) k); cbn [andb].
    + destruct S as (e1 & A & P1 & C1 & F1 & M1). rewrite A. cbn [bind]. specialize (IH e1). rewrite P1, C1 in IH. destruct (forallb _ l).
      * destruct IH as (e2 & A2 & P2 & C2 & F2 & M2). exists e2. repeat split; auto.
        -- rewrite F2, F1. destruct (e_zero e), (clears (e_p e) (e_center e) k), (existsb (clears (e_p e) (e_center e)) l); reflexivity.
        -- intros i. rewrite M2, M1. ring.
      * exact IH.
    + rewrite S. reflexivity.
Qed.
Lemma csum_perm {A} (l l' : list A) f : Permutation l l' -> csum l f = csum l' f.
Proof. induction 1; cbn [csum]; [reflexivity|congruence|ring|congruence]. Qed.
Lemma perm_bool {A} (f : A -> bool) l l' : Permutation l l' -> forallb f l = forallb f l' /\ existsb f l = existsb f l'.
Proof.
  induction 1 as [| a l l' P [IH1 IH2]|a b l|l1 l2 l3 P1 [A1 A2] P2 [B1 B2]]; cbn; split; auto; try congruence.
  - destruct (f a), (f b); reflexivity.
  - destruct (f a), (f b); reflexivity.
Qed.
Lemma run_perm e l l' : Permutation l l' -> same_result (run apply e l) (run apply e l').
Proof.
  intros P. assert (A := run_ok l e). assert (B := run_ok l' e). destruct (perm_bool (defined_at (e_p e) (e_center e)) l l' P) as [D _].
  rewrite <- D in B. destruct (forallb _ l).
  - destruct A as (e1 & A & P1 & C1 & F1 & M1). destruct B as (e2 & B & P2 & C2 & F2 & M2). rewrite A, B. cbn. repeat split; try congruence.
    + rewrite F1, F2. destruct (perm_bool (clears (e_p e) (e_center e)) l l' P) as [_ X]. rewrite X. reflexivity.
    + intros i. rewrite M1, M2. f_equal. apply csum_perm, P.
  - rewrite A, B. exact I.
Qed.
End RUN.
Lemma total_csum {K} (l : list K) f : total l f = csum l f.
Proof. induction l; cbn; congruence. Qed.
Lemma total_app {K} (l l' : list K) f : total (l ++ l') f = (total l f + total l' f)%C.
Proof. induction l as [|a l IH]; cbn [total app]; [ring|]. rewrite IH. ring. Qed.
