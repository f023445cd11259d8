(** * A verified normaliser for the straight-line programs of the Legendre table. *)
From Coq Require Import ZArith List Reals Lra Lia Bool.
From Coquelicot Require Import Coquelicot.
From Verif Require Import ModelLegendre.
Import ListNotations.
Local Open Scope R_scope.

(** ** Polynomials with integer coefficients *)
Definition poly := list Z.
Fixpoint peval (p : poly) (x : R) : R := match p with [] => 0 | a :: r => IZR a + x * peval r x end.
Fixpoint padd (p q : poly) : poly :=
  match p, q with [], _ => q | _, [] => p | a :: p', b :: q' => (a + b)%Z :: padd p' q' end.
Definition pscale (k : Z) (p : poly) : poly := map (Z.mul k) p.
Fixpoint pmul (p q : poly) : poly := match p with [] => [] | a :: p' => padd (pscale a q) (0%Z :: pmul p' q) end.
Fixpoint ppow (p : poly) (n : nat) : poly := match n with O => [1%Z] | S k => pmul p (ppow p k) end.
Fixpoint pder_aux (k : Z) (p : poly) : poly := match p with [] => [] | a :: r => (k * a)%Z :: pder_aux (k + 1) r end.
Definition pder (p : poly) : poly := match p with [] => [] | _ :: r => pder_aux 1 r end.
Fixpoint pdern (n : nat) (p : poly) : poly := match n with O => p | S k => pder (pdern k p) end.
Fixpoint pzero (p : poly) : bool := match p with [] => true | a :: r => (Z.eqb a 0 && pzero r)%bool end.
Fixpoint peqb (p q : poly) : bool :=
  match p, q with [], _ => pzero q | _, [] => pzero p | a :: p', b :: q' => (Z.eqb a b && peqb p' q')%bool end.
Definition pw : poly := [1%Z; 0%Z; (-1)%Z].   (* 1 - x^2 *)
Definition px : poly := [0%Z; 1%Z].

Lemma peval_add p q x : peval (padd p q) x = peval p x + peval q x.
Proof. revert q. induction p as [|a p IH]; intros [|b q]; simpl; try ring. rewrite IH, plus_IZR. ring. Qed.
Lemma peval_scale k p x : peval (pscale k p) x = IZR k * peval p x.
Proof. induction p as [|a p IH]; cbn [pscale map peval]; [ring|]. unfold pscale in IH. rewrite IH, mult_IZR. ring. Qed.
Lemma peval_mul p q x : peval (pmul p q) x = peval p x * peval q x.
Proof. induction p as [|a p IH]; cbn [pmul peval]; [ring|]. rewrite peval_add, peval_scale. cbn [peval]. rewrite IH. ring. Qed.
Lemma peval_pow p n x : peval (ppow p n) x = peval p x ^ n.
Proof. induction n as [|n IH]; cbn [ppow peval pow]; [ring|]. rewrite peval_mul, IH. ring. Qed.
Lemma peval_w x : peval pw x = 1 - x * x.
Proof. unfold pw. cbn [peval]. ring. Qed.
Lemma pzero_ok p x : pzero p = true -> peval p x = 0.
Proof. induction p as [|a p IH]; cbn [pzero peval]; intros H; [reflexivity|]. apply andb_prop in H as [A B]. apply Z.eqb_eq in A. subst. rewrite IH by auto. ring. Qed.
Lemma peqb_ok p q x : peqb p q = true -> peval p x = peval q x.
Proof.
  revert q. induction p as [|a p IH]; intros [|b q] H; cbn [peqb] in H.
  - reflexivity.
  - symmetry. apply pzero_ok; auto.
  - apply pzero_ok; auto.
  - apply andb_prop in H as [A B]. apply Z.eqb_eq in A. subst. cbn [peval]. rewrite (IH q B). reflexivity.
Qed.
Lemma pder_aux_ok p k x : peval (pder_aux (k + 1) p) x = peval (pder_aux k p) x + peval p x.
Proof.
  revert k. induction p as [|a p IH]; intros k; cbn [pder_aux peval]; [ring|]. rewrite (IH (k + 1)%Z).
  rewrite !mult_IZR, plus_IZR. ring.
Qed.
Lemma pder_cons a p x : peval (pder (a :: p)) x = peval p x + x * peval (pder p) x.
Proof.
  cbn [pder]. destruct p as [|b p]; [cbn [pder_aux pder peval]; ring|]. cbn [pder_aux peval pder]. rewrite pder_aux_ok.
  rewrite !mult_IZR. ring.
Qed.
Lemma pder_ok p x : is_derive (peval p) x (peval (pder p) x).
Proof.
  induction p as [|a p IH].
  - cbn [pder]. cbn [peval]. apply (is_derive_const 0).
  - rewrite pder_cons. cbn [peval].
    auto_derive; [exists (peval (pder p) x); exact IH|]. replace (Derive (fun y : R => peval p y) x) with (peval (pder p) x) by (symmetry; apply is_derive_unique; exact IH). ring.
Qed.
Lemma pdern_ok n p x : Derive_n (peval p) n x = peval (pdern n p) x.
Proof.
  revert x. induction n as [|n IH]; intros x; [reflexivity|]. cbn [pdern Derive_n].
  rewrite (Derive_ext _ (peval (pdern n p))) by (intros; apply IH). apply is_derive_unique, pder_ok.
Qed.

(** ** Normal forms: sqrt(c)^a * sqrt(1-x^2)^b * p(x) / (d * (1-x^2)^i) *)
Record nf := NF { na : bool; nb : bool; ni : nat; np : poly; nd : positive }.
Definition sq (b : bool) (u : R) : R := if b then sqrt u else 1.
Definition den (c : Z) (x : R) (v : nf) : R :=
  sq (na v) (IZR c) * sq (nb v) (1 - x * x) * peval (np v) x / (IZR (Zpos (nd v)) * (1 - x * x) ^ ni v).

Definition nmul (c : Z) (u v : nf) : nf :=
  let p := pmul (np u) (np v) in
  let p := if (na u && na v)%bool then pscale c p else p in
  let p := if (nb u && nb v)%bool then pmul pw p else p in
  NF (xorb (na u) (na v)) (xorb (nb u) (nb v)) (ni u + ni v) p (nd u * nd v).
Definition nadd (u v : nf) : option nf :=
  if (eqb (na u) (na v) && eqb (nb u) (nb v))%bool then
    let p := pmul (ppow pw (ni v)) (np u) in
    let q := pmul (ppow pw (ni u)) (np v) in
    if Pos.eqb (nd u) (nd v)
    then Some (NF (na u) (nb u) (ni u + ni v) (padd p q) (nd u))
    else Some (NF (na u) (nb u) (ni u + ni v) (padd (pscale (Zpos (nd v)) p) (pscale (Zpos (nd u)) q)) (nd u * nd v))
  else None.
Definition nneg (u : nf) : nf := NF (na u) (nb u) (ni u) (pscale (-1) (np u)) (nd u).
Definition ndiv (allow : bool) (u v : nf) : option nf :=
  match na v, ni v, np v with
  | false, O, [Zpos z] =>
    if nb v then
      if allow then
        Some (if nb u then NF (na u) false (ni u) (pscale (Zpos (nd v)) (np u)) (nd u * z)
              else NF (na u) true (S (ni u)) (pscale (Zpos (nd v)) (np u)) (nd u * z))
      else None
    else Some (NF (na u) (nb u) (ni u) (pscale (Zpos (nd v)) (np u)) (nd u * z))
  | _, _, _ => None
  end.
Definition nsqrt (c : Z) (u : nf) : option nf :=
  if (negb (na u) && negb (nb u) && Nat.eqb (ni u) 0 && Pos.eqb (nd u) 1)%bool then
    if (peqb (np u) [c] && Z.ltb 0 c)%bool then Some (NF true false 0 [1%Z] 1)
    else if peqb (np u) pw then Some (NF false true 0 [1%Z] 1) else None
  else None.
Fixpoint nrm (allow : bool) (c : Z) (e : list (positive * nf)) (a : ex) : option nf :=
  match a with
  | Num z => Some (NF false false 0 [z] 1)
  | X => Some (NF false false 0 px 1)
  | Var k => get k e
  | Neg a => bind (nrm allow c e a) (fun u => Some (nneg u))
  | Add a b => bind (nrm allow c e a) (fun u => bind (nrm allow c e b) (fun v => nadd u v))
  | Sub a b => bind (nrm allow c e a) (fun u => bind (nrm allow c e b) (fun v => nadd u (nneg v)))
  | Mul a b => bind (nrm allow c e a) (fun u => bind (nrm allow c e b) (fun v => Some (nmul c u v)))
  | Div a b => bind (nrm allow c e a) (fun u => bind (nrm allow c e b) (fun v => ndiv allow u v))
  | Sqrt a => bind (nrm allow c e a) (fun u => nsqrt c u)
  | Pow2 a => bind (nrm allow c e a) (fun u => Some (nmul c u u))
  end.
Fixpoint nexec (allow : bool) (c : Z) (e : list (positive * nf)) (l : list (positive * ex)) : option (list (positive * nf)) :=
  match l with [] => Some e | (k, a) :: r => bind (nrm allow c e a) (fun v => nexec allow c ((k, v) :: e) r) end.
Definition nrun (allow : bool) (c : Z) (p : prog) : option nf := bind (nexec allow c [] (fst p)) (fun e => nrm allow c e (snd p)).

Definition dom (allow : bool) (x : R) : Prop := if allow then -1 < x < 1 else -1 <= x <= 1.
Definition ok (allow : bool) (v : nf) : Prop := allow = false -> ni v = O.

Lemma w_pos x : -1 < x < 1 -> 0 < 1 - x * x.
Proof. intros H. replace (1 - x * x) with ((1 - x) * (1 + x)) by ring. apply Rmult_lt_0_compat; lra. Qed.
Lemma w_nonneg x : -1 <= x <= 1 -> 0 <= 1 - x * x.
Proof. intros H. replace (1 - x * x) with ((1 - x) * (1 + x)) by ring. apply Rmult_le_pos; lra. Qed.
Lemma dom_nonneg allow x : dom allow x -> 0 <= 1 - x * x.
Proof. destruct allow; simpl; intros; apply w_nonneg; lra. Qed.
Lemma dom_pow allow x v : dom allow x -> ok allow v -> (1 - x * x) ^ ni v <> 0.
Proof.
  destruct allow; simpl; intros H Hv.
  - apply pow_nonzero. assert (P := w_pos x H). lra.
  - rewrite Hv by auto. simpl. lra.
Qed.
Lemma sq_mul a b u : 0 <= u -> sq a u * sq b u = sq (xorb a b) u * (if (a && b)%bool then u else 1).
Proof. intros H. destruct a, b; simpl; try ring. rewrite sqrt_sqrt by auto. ring. Qed.
Lemma posR d : IZR (Zpos d) <> 0.
Proof. apply IZR_neq. lia. Qed.
Lemma posmul a b : IZR (Zpos (a * b)) = IZR (Zpos a) * IZR (Zpos b).
Proof. rewrite Pos2Z.inj_mul. apply mult_IZR. Qed.

Section Sound.
Variables (allow : bool) (c : Z) (x : R).
Hypothesis Hx : dom allow x.
Hypothesis Hc : (0 <= c)%Z.
Let w := 1 - x * x.
Lemma Hc' : 0 <= IZR c. Proof. apply IZR_le. exact Hc. Qed.

Lemma nmul_ok u v : ok allow u -> ok allow v -> ok allow (nmul c u v) /\ den c x (nmul c u v) = den c x u * den c x v.
Proof.
  intros Hu Hv. split; [intros A; unfold nmul; cbn [ni]; rewrite Hu, Hv; auto|].
  assert (Wu := dom_pow _ _ _ Hx Hu). assert (Wv := dom_pow _ _ _ Hx Hv).
  unfold den, nmul. cbn [na nb ni np nd]. rewrite posmul, pow_add.
  assert (A := sq_mul (na u) (na v) (IZR c) Hc'). assert (B := sq_mul (nb u) (nb v) (1 - x * x) (dom_nonneg _ _ Hx)).
  transitivity ((sq (na u) (IZR c) * sq (na v) (IZR c)) * (sq (nb u) (1 - x * x) * sq (nb v) (1 - x * x)) * (peval (np u) x * peval (np v) x) / (IZR (Zpos (nd u)) * IZR (Zpos (nd v)) * ((1 - x * x) ^ ni u * (1 - x * x) ^ ni v))).
  2: { field. repeat split; auto; apply posR. }
  rewrite A, B. unfold Rdiv. f_equal.
  destruct (na u && na v)%bool, (nb u && nb v)%bool; rewrite ?peval_mul, ?peval_scale, ?peval_mul, ?peval_w; ring.
Qed.
Lemma nadd_ok u v r : ok allow u -> ok allow v -> nadd u v = Some r -> ok allow r /\ den c x r = den c x u + den c x v.
Proof.
  intros Hu Hv H. unfold nadd in H. destruct (eqb (na u) (na v) && eqb (nb u) (nb v))%bool eqn:E; [|discriminate].
  apply andb_prop in E as [E1 E2]. apply eqb_prop in E1, E2.
  assert (Wu := dom_pow _ _ _ Hx Hu). assert (Wv := dom_pow _ _ _ Hx Hv).
  destruct (Pos.eqb_spec (nd u) (nd v)) as [E3|E3]; inversion_clear H; (split; [intros A; cbn [ni]; rewrite Hu, Hv; auto|]);
    unfold den; cbn [na nb ni np nd]; rewrite <- ?E1, <- ?E2, <- ?E3, ?posmul, pow_add, !peval_add, ?peval_scale, !peval_mul, !peval_pow, !peval_w.
  - field. repeat split; auto; apply posR.
  - field. repeat split; auto; apply posR.
Qed.
Lemma nneg_ok u : ok allow u -> ok allow (nneg u) /\ den c x (nneg u) = - den c x u.
Proof.
  intros Hu. split; [exact Hu|]. assert (Wu := dom_pow _ _ _ Hx Hu). unfold den, nneg. cbn [na nb ni np nd]. rewrite peval_scale.
  field. split; auto; apply posR.
Qed.
Lemma ndiv_ok u v r : ok allow u -> ok allow v -> ndiv allow u v = Some r ->
  ok allow r /\ den c x v <> 0 /\ den c x r = den c x u / den c x v.
Proof.
  intros Hu Hv H. unfold ndiv in H. destruct v as [a b i p d]. cbn [na nb ni np nd] in H.
  destruct a; [discriminate|]. destruct i; [|discriminate]. destruct p as [|[|z|z] [|]]; try discriminate.
  assert (Wu := dom_pow _ _ _ Hx Hu).
  destruct b.
  - destruct allow eqn:Ea; [|discriminate]. assert (P := w_pos x Hx).
    assert (S0 : sqrt (1 - x * x) <> 0) by (assert (Q := sqrt_lt_R0 _ P); lra).
    assert (SS : sqrt (1 - x * x) * sqrt (1 - x * x) = 1 - x * x) by (apply sqrt_sqrt; lra).
    inversion_clear H. split; [intros A; discriminate|]. split.
    + unfold den; cbn [na nb ni np nd sq peval pow]. rewrite Rmult_0_r, Rplus_0_r. apply Rmult_integral_contrapositive. split.
      * apply Rmult_integral_contrapositive. split; [lra|apply posR].
      * apply Rinv_neq_0_compat. rewrite Rmult_1_r. apply posR.
    + destruct (nb u) eqn:Eb; unfold den; cbn [na nb ni np nd sq peval pow]; rewrite ?Eb, ?posmul, peval_scale; cbn [sq].
      * field. repeat split; auto; apply posR.
      * transitivity (sq (na u) (IZR c) * (sqrt (1 - x * x) * sqrt (1 - x * x)) * (IZR (Z.pos d) * peval (np u) x) / (IZR (Z.pos (nd u)) * IZR (Z.pos z) * ((1 - x * x) * (1 - x * x) ^ ni u)) / sqrt (1 - x * x)).
        -- field. repeat split; auto; try apply posR. lra.
        -- rewrite SS. field. repeat split; auto; try apply posR. lra.
  - inversion_clear H. split; [exact Hu|]. split.
    + unfold den; cbn [na nb ni np nd sq peval pow]. rewrite Rmult_0_r, Rplus_0_r. apply Rmult_integral_contrapositive. split.
      * assert (Q := posR z). lra.
      * apply Rinv_neq_0_compat. rewrite Rmult_1_r. apply posR.
    + unfold den; cbn [na nb ni np nd sq peval pow]. rewrite posmul, peval_scale. field. repeat split; auto; apply posR.
Qed.
Lemma nsqrt_ok u r : nsqrt c u = Some r -> ok allow r /\ 0 <= den c x u /\ den c x r = sqrt (den c x u).
Proof.
  intros H. unfold nsqrt in H.
  destruct (negb (na u) && negb (nb u) && Nat.eqb (ni u) 0 && Pos.eqb (nd u) 1)%bool eqn:E; [|discriminate].
  apply andb_prop in E as [E E4]. apply andb_prop in E as [E E3]. apply andb_prop in E as [E1 E2].
  apply Pos.eqb_eq in E4. apply Nat.eqb_eq in E3. apply negb_true_iff in E1, E2.
  assert (D : den c x u = peval (np u) x). { unfold den. rewrite E1, E2, E3, E4. cbn [sq pow]. field. }
  destruct (peqb (np u) [c] && Z.ltb 0 c)%bool eqn:F.
  - apply andb_prop in F as [F1 F2]. inversion_clear H. split; [intros _; reflexivity|].
    assert (D2 : den c x u = IZR c). { rewrite D, (peqb_ok _ _ x F1). cbn [peval]. ring. }
    rewrite D2. split; [apply Hc'|]. unfold den; cbn [na nb ni np nd sq peval pow]. field.
  - destruct (peqb (np u) pw) eqn:G; [|discriminate]. inversion_clear H. split; [intros _; reflexivity|].
    assert (D2 : den c x u = 1 - x * x). { rewrite D, (peqb_ok _ _ x G), peval_w. reflexivity. }
    rewrite D2. split; [exact (dom_nonneg _ _ Hx)|]. unfold den; cbn [na nb ni np nd sq peval pow]. field.
Qed.
Definition rel (e : env) (f : list (positive * nf)) : Prop :=
  Forall2 (fun a b => fst a = fst b /\ ok allow (snd b) /\ snd a = den c x (snd b)) e f.
Lemma rel_get e f k v : rel e f -> get k f = Some v -> ok allow v /\ get k e = Some (den c x v).
Proof.
  intros H. induction H as [|[i a] [j b] e f (A & B & C) H IH]; [discriminate|]. cbn [get fst snd] in *. subst j.
  destruct (Pos.eqb i k); [|exact IH]. intros E. inversion E; subst. auto.
Qed.
Lemma nrm_ok e f a v : rel e f -> nrm allow c f a = Some v -> ok allow v /\ eval x e a = Some (den c x v).
Proof.
  intros Hr. revert v. induction a; intros v H; cbn [nrm] in H; cbn [eval].
  - inversion_clear H. split; [intros _; reflexivity|]. unfold den; cbn [na nb ni np nd sq peval pow]. f_equal. field.
  - inversion_clear H. split; [intros _; reflexivity|]. unfold den, px; cbn [na nb ni np nd sq peval pow]. f_equal. field.
  - eapply rel_get; eauto.
  - destruct (nrm allow c f a) as [u|]; [|discriminate]. destruct (IHa u eq_refl) as [A B]. inversion_clear H. destruct (nneg_ok u A) as [C D].
    split; auto. rewrite B. cbn [bind]. rewrite D. reflexivity.
  - destruct (nrm allow c f a1) as [u|]; [|discriminate]. destruct (nrm allow c f a2) as [u'|]; [|discriminate]. cbn [bind] in H.
    destruct (IHa1 u eq_refl) as [A B]. destruct (IHa2 u' eq_refl) as [A' B']. destruct (nadd_ok u u' v A A' H) as [C D].
    split; auto. rewrite B, B'. cbn [bind]. rewrite D. reflexivity.
  - destruct (nrm allow c f a1) as [u|]; [|discriminate]. destruct (nrm allow c f a2) as [u'|]; [|discriminate]. cbn [bind] in H.
    destruct (IHa1 u eq_refl) as [A B]. destruct (IHa2 u' eq_refl) as [A' B']. destruct (nneg_ok u' A') as [N1 N2]. destruct (nadd_ok u (nneg u') v A N1 H) as [C D].
    split; auto. rewrite B, B'. cbn [bind]. rewrite D, N2. reflexivity.
  - destruct (nrm allow c f a1) as [u|]; [|discriminate]. destruct (nrm allow c f a2) as [u'|]; [|discriminate]. cbn [bind] in H.
    destruct (IHa1 u eq_refl) as [A B]. destruct (IHa2 u' eq_refl) as [A' B']. destruct (nmul_ok u u' A A') as [C D]. inversion_clear H.
    split; auto. rewrite B, B'. cbn [bind]. rewrite D. reflexivity.
  - destruct (nrm allow c f a1) as [u|]; [|discriminate]. destruct (nrm allow c f a2) as [u'|]; [|discriminate]. cbn [bind] in H.
    destruct (IHa1 u eq_refl) as [A B]. destruct (IHa2 u' eq_refl) as [A' B']. destruct (ndiv_ok u u' v A A' H) as (C & D & E).
    split; auto. rewrite B, B'. cbn [bind]. destruct (Req_EM_T (den c x u') 0); [contradiction|]. rewrite E. reflexivity.
  - destruct (nrm allow c f a) as [u|]; [|discriminate]. destruct (IHa u eq_refl) as [A B]. destruct (nsqrt_ok u v H) as (C & D & E).
    split; auto. rewrite B. cbn [bind]. destruct (Rlt_dec (den c x u) 0); [lra|]. rewrite E. reflexivity.
  - destruct (nrm allow c f a) as [u|]; [|discriminate]. destruct (IHa u eq_refl) as [A B]. destruct (nmul_ok u u A A) as [C D]. inversion_clear H.
    split; auto. rewrite B. cbn [bind]. rewrite D. f_equal. ring.
Qed.
Lemma nrun_ok p v : nrun allow c p = Some v -> ok allow v /\ run p x = Some (den c x v).
Proof.
  destruct p as [l a]. unfold nrun, run. cbn [fst snd].
  assert (K : forall l e f, rel e f -> forall f', nexec allow c f l = Some f' -> exists e', exec x e l = Some e' /\ rel e' f').
  { clear l. induction l as [|[k b] l IH]; intros e f Hr f' H; cbn [nexec exec] in *.
    - inversion H; subst. eauto.
    - destruct (nrm allow c f b) as [u|] eqn:E; [|discriminate]. destruct (nrm_ok e f b u Hr E) as [A B]. rewrite B. cbn [bind] in *.
      eapply IH; [|exact H]. constructor; auto. }
  destruct (nexec allow c [] l) as [f'|] eqn:E; [|discriminate]. cbn [bind]. intros H.
  destruct (K l [] [] (Forall2_nil _) f' E) as (e' & A & B). rewrite A. cbn [bind]. eapply nrm_ok; eauto.
Qed.
End Sound.
