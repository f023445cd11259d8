(** Races and termination on the concurrent machine. *)
From Coq Require Import Reals List Arith Bool Permutation Lia.
From Verif Require Import ModelConc ProofsConc SpecConc.
Import ListNotations.
Local Open Scope nat_scope.

Section R.
  Variables L V : Type.
  Variable leq : L -> L -> bool.
  Hypothesis leq_spec : forall a b, leq a b = true <-> a = b.
  Variable word : L -> bool.
  Notation mem := (mem L V). Notation prog := (prog L V). Notation tstate := (tstate L V).
  Notation exec := (exec L V leq). Notation tstep := (tstep L V leq word).
  Section C.
  Variable C : L -> option V.
  Notation fp := (fp L V word C).
  Notation fpt := (fpt L V word C).
  Notation consts := (consts L V C).
  Lemma fpt_writes : forall A (Rs Ws : L -> Prop) (t : tstate A) l, fpt Rs Ws t -> writes L V l t -> word l = false -> Ws l /\ C l = None.
  Proof.
    intros A Rs Ws [[a|l' k|l' v k]|l' v k] l Hf Hw Hn; cbn in *; try contradiction; subst.
    - inversion Hf; subst; auto. congruence.
    - tauto.
  Qed.
  Lemma fpt_accesses : forall A (Rs Ws : L -> Prop) (t : tstate A) l, fpt Rs Ws t -> accesses L V l t -> word l = false -> C l = None -> Rs l \/ Ws l.
  Proof.
    intros A Rs Ws t l Hf Ha Hn Hc. destruct t as [[a|l' k|l' v k]|l' v k]; cbn in *; try contradiction; subst.
    - inversion Hf; subst. tauto.
    - inversion Hf; subst; auto. congruence.
    - tauto.
  Qed.

  Section PF.
    Variable X : Type.
    Variable items : list X.
    Variable body : X -> prog unit.
    Variables (Rs Ws : nat -> L -> Prop).
    Hypothesis Hfp : forall j x, nth_error items j = Some x -> fp (Rs j) (Ws j) (body x).
    Hypothesis Hdisj : forall i j l, i < length items -> j < length items -> i <> j -> Ws i l -> ~ (Rs j l \/ Ws j l).
    Variable m0 : mem.
    Hypothesis C0 : consts m0.
    Theorem parallel_for_race_free : forall m' ts l, psteps L V leq word (m0, map (fun x => Run (body x)) items) (m', ts) -> word l = false -> ~ pf_conflict L V ts l.
    Proof.
      intros m' ts l Hs Hl (i & j & t & t' & N & Hi & Hj & Hw & Ha).
      pose proof (pinv_steps L V leq leq_spec word C X items body Rs Ws Hdisj m0 _ _ Hs (pinv_init L V leq word C X items body Rs Ws Hfp m0 C0)) as Inv. cbn in Inv. destruct Inv as (I1 & I2 & I3 & I4).
      assert (Li : i < length items) by (rewrite <- I1; apply nth_error_Some; congruence). assert (Lj : j < length items) by (rewrite <- I1; apply nth_error_Some; congruence).
      destruct (nth_error items i) as [x|] eqn:Ex; [|apply nth_error_None in Ex; lia]. destruct (nth_error items j) as [y|] eqn:Ey; [|apply nth_error_None in Ey; lia].
      destruct (I4 _ _ _ Hi Ex) as (F1 & _). destruct (I4 _ _ _ Hj Ey) as (F2 & _).
      destruct (fpt_writes _ _ _ _ _ F1 Hw Hl) as (W1 & W2). apply (Hdisj i j l); auto. eapply fpt_accesses; eauto.
    Qed.
  End PF.

  Section WS.
    Variables X D : Type.
    Variable worker : X -> D -> prog D.
    Variable copier : D -> prog unit.
    Variable sample : D.
    Variable items : list X.
    Variable n : nat.
    Variable m0 : mem.
    Hypothesis C0 : consts m0.
    Variable Wc : L -> Prop.
    Hypothesis Hworker : forall x d, In x items -> fp (fun _ => False) (fun _ => False) (worker x d).
    Hypothesis Hcopier : forall x d, In x items -> fp (fun _ => True) Wc (copier (snd (exec (worker x d) m0))).
    Definition sl2 (s : sstate L V X D) : Prop :=
      match s with
      | Free _ _ _ _ d => True
      | Working _ _ _ _ x t => In x items /\ fpt (fun _ => False) (fun _ => False) t /\ exists d, forall m, consts m -> snd (exec (rest L V t) m) = snd (exec (worker x d) m0)
      | Ready _ _ _ _ x d' => In x items /\ exists d, d' = snd (exec (worker x d) m0)
      | Copying _ _ _ _ x d' t => fpt (fun _ => True) Wc t
      end.
    Definition winv2 (s : wstate L V X D) : Prop :=
      consts (w_mem _ _ _ _ s) /\ incl (w_todo _ _ _ _ s) items /\ (forall k, k < n -> sl2 (w_slot _ _ _ _ s k)).
    Lemma winv2_step : forall s s', wstep L V leq word X D worker copier n s s' -> winv2 s -> winv2 s'.
    Proof.
      intros s s' Hs (I1 & I2 & I3). destruct Hs as [m l1 x l2 f dn s d Hn Hf|m m' td f dn s x t t' Hn Hf Ht|m td f dn s x d Hn Hf|m td f dn s x d Hn Hf Hnc|m m' td f dn s x d t t' Hn Hf Ht|m td f dn s x d Hn Hf];
        cbn [w_mem w_todo w_slot w_done] in *; unfold winv2; cbn [w_mem w_todo w_slot w_done].
      - assert (Hx : In x items) by (apply I2; apply in_or_app; right; left; auto). split; auto. split.
        + intros y Hy. apply I2. apply in_app_or in Hy. apply in_or_app. destruct Hy; [left|right; right]; auto.
        + intros k Hk. destruct (Nat.eq_dec k s) as [->|N]; [rewrite set_slot_eq|rewrite set_slot_neq by auto; auto]. cbn. split; auto. split; [apply Hworker; auto|]. exists d.
          intros m1 Hm1. apply (exec_agree L V leq leq_spec word C _ (fun _ => False) (fun _ => False)); auto; try (intros l [[]|[]]); apply Hworker; auto.
      - assert (S0 := I3 s Hn). rewrite Hf in S0. cbn in S0. destruct S0 as (Hx & F & d & R).
        destruct (tstep_facts L V leq leq_spec word C _ _ _ _ _ _ _ Ht F I1) as (F' & C' & _ & Es & _). split; auto. split; auto.
        intros k Hk. destruct (Nat.eq_dec k s) as [->|N]; [rewrite set_slot_eq|rewrite set_slot_neq by auto; auto]. cbn. split; auto. split; auto. exists d. intros m1 Hm1.
        rewrite <- (R m I1), <- Es. apply (exec_agree L V leq leq_spec word C _ (fun _ => False) (fun _ => False)); auto; [apply fpt_rest; auto|intros l [[]|[]]].
      - assert (S0 := I3 s Hn). rewrite Hf in S0. cbn in S0. destruct S0 as (Hx & F & d0 & R). split; auto. split; auto.
        intros k Hk. destruct (Nat.eq_dec k s) as [->|N]; [rewrite set_slot_eq|rewrite set_slot_neq by auto; auto]. cbn. split; auto. exists d0. apply (R m I1).
      - assert (S0 := I3 s Hn). rewrite Hf in S0. cbn in S0. destruct S0 as (Hx & d0 & ->). split; auto. split; auto.
        intros k Hk. destruct (Nat.eq_dec k s) as [->|N]; [rewrite set_slot_eq|rewrite set_slot_neq by auto; auto]. cbn. apply Hcopier; auto.
      - assert (S0 := I3 s Hn). rewrite Hf in S0. cbn in S0.
        destruct (tstep_facts L V leq leq_spec word C _ _ _ _ _ _ _ Ht S0 I1) as (F' & C' & _). split; auto. split; auto.
        intros k Hk. destruct (Nat.eq_dec k s) as [->|N]; [rewrite set_slot_eq|rewrite set_slot_neq by auto; auto]. cbn. auto.
      - split; auto. split; auto. intros k Hk. destruct (Nat.eq_dec k s) as [->|N]; [rewrite set_slot_eq|rewrite set_slot_neq by auto; auto]. cbn. auto.
    Qed.
    Lemma winv2_steps : forall s s', wsteps L V leq word X D worker copier n s s' -> winv2 s -> winv2 s'.
    Proof. induction 1; auto. intros. apply IHwsteps. eapply winv2_step; eauto. Qed.
    Theorem work_stream_race_free : forall s l, wsteps L V leq word X D worker copier n (w_init L V X D items sample m0) s -> word l = false -> ~ ws_conflict L V n s l.
    Proof.
      intros s l Hs Hl (i & j & Hi & Hj & N & Hw & Ha).
      assert (Inv : winv2 s). { apply (winv2_steps _ _ Hs). split; [exact C0|]. split; [intros y Hy; exact Hy|]. intros k Hk. exact I. }
      assert (One : one_copier L V X D n (w_slot _ _ _ _ s)). { eapply one_copier_steps; eauto. intros k k' _ _ Q. exfalso. apply Q. exact I. }
      destruct Inv as (I1 & I2 & I3). assert (Si := I3 i Hi). assert (Sj := I3 j Hj).
      destruct (w_slot _ _ _ _ s i) as [d|x t|x d|x d t] eqn:Ei; cbn in Hw, Si; try contradiction.
      - destruct Si as (_ & F & _). destruct (fpt_writes _ _ _ _ _ F Hw Hl). auto.
      - destruct (fpt_writes _ _ _ _ _ Si Hw Hl) as (W1 & W2).
        destruct (w_slot _ _ _ _ s j) as [d'|y t'|y d'|y d' t'] eqn:Ej; cbn in Ha, Sj; try contradiction.
        + destruct Sj as (_ & F & _). destruct (fpt_accesses _ _ _ _ _ F Ha Hl W2); auto.
        + apply N. apply One; auto; rewrite ?Ei, ?Ej; cbn; tauto.
    Qed.
  End WS.
  End C.

  (** ** Termination: no infinite execution *)
  Definition tlt {A} (t' t : tstate A) : Prop := exists m m', tstep m t m' t'.
  Lemma tlt_wf : forall A (t : tstate A), Acc tlt t.
  Proof.
    assert (G : forall A (p : prog A), Acc tlt (Run p)).
    { induction p as [a|l k IH|l v k IH]; constructor; intros t' (m & m' & Ht); inversion Ht; subst; auto.
      constructor. intros t'' (m1 & m1' & Ht'). inversion Ht'; subst. auto. }
    intros A [p|l v k]; auto. constructor. intros t' (m & m' & Ht). inversion Ht; subst. auto.
  Qed.
  (** one element of a list decreases *)
  Inductive llt {T} (lt : T -> T -> Prop) : list T -> list T -> Prop :=
  | llt_one : forall l1 t t' l2, lt t' t -> llt lt (l1 ++ t' :: l2) (l1 ++ t :: l2).
  Lemma llt_wf : forall T (lt : T -> T -> Prop) l, (forall t, In t l -> Acc lt t) -> Acc (llt lt) l.
  Proof.
    intros T lt. assert (G : forall l, Acc (llt lt) l -> forall t, Acc lt t -> Acc (llt lt) (t :: l)).
    { intros l Hl. induction Hl as [l Hl IH]. intros t Ht. induction Ht as [t Ht IHt]. constructor. intros l' Hl'.
      inversion Hl' as [l1 u u' l2 Hu E1 E2]. destruct l1 as [|a l1]; cbn [app] in *.
      - injection E2 as -> ->. apply IHt. auto.
      - injection E2 as -> <-. apply IH; [constructor; auto|]. constructor. auto. }
    induction l as [|t l IH]; intros Hl.
    - constructor. intros l' Hl'. inversion Hl' as [l1 u u' l2 Hu E1 E2]. destruct l1; discriminate E2.
    - apply G; [apply IH; intros; apply Hl; right; auto|apply Hl; left; auto].
  Qed.
  Theorem parallel_terminates : forall s, Acc (fun s' s => pstep L V leq word s s') s.
  Proof.
    intros (m, ts). assert (Ha : Acc (llt tlt) ts) by (apply llt_wf; intros; apply tlt_wf). revert m. induction Ha as [ts Ht IH]. intros m. constructor. intros (m', ts') Hs.
    inversion Hs; subst. apply IH. constructor. exists m, m'. auto.
  Qed.
  Section WST.
    Variables X D : Type.
    Variable worker : X -> D -> prog D.
    Variable copier : D -> prog unit.
    Variable n : nat.
    Inductive slt : sstate L V X D -> sstate L V X D -> Prop :=
    | slt_work : forall x t t', tlt t' t -> slt (Working _ _ _ _ x t') (Working _ _ _ _ x t)
    | slt_ready : forall x t d, slt (Ready _ _ _ _ x d) (Working _ _ _ _ x t)
    | slt_grab : forall x d t, slt (Copying _ _ _ _ x d t) (Ready _ _ _ _ x d)
    | slt_copy : forall x d t t', tlt t' t -> slt (Copying _ _ _ _ x d t') (Copying _ _ _ _ x d t)
    | slt_free : forall x d t, slt (Free _ _ _ _ d) (Copying _ _ _ _ x d t).
    Lemma slt_wf : forall s, Acc slt s.
    Proof.
      assert (F : forall d, Acc slt (Free _ _ _ _ d)) by (intros d; constructor; intros y Hy; inversion Hy).
      assert (Cp : forall x d t, Acc slt (Copying _ _ _ _ x d t)).
      { intros x d t. induction (tlt_wf _ t) as [t Ht IH]. constructor. intros y Hy. inversion Hy; subst; auto. }
      assert (Rd : forall x d, Acc slt (Ready _ _ _ _ x d)) by (intros x d; constructor; intros y Hy; inversion Hy; subst; auto).
      intros [d|x t|x d|x d t]; auto. induction (tlt_wf _ t) as [t Ht IH]. constructor. intros y Hy. inversion Hy; subst; auto.
    Qed.
    Lemma map_set : forall f s v, s < n -> slt v (f s) -> llt slt (map (set_slot L V X D f s v) (seq 0 n)) (map f (seq 0 n)).
    Proof.
      intros f s v Hs Hv. destruct (in_split s (seq 0 n)) as (l1 & l2 & E); [apply in_seq; lia|].
      assert (ND : NoDup (l1 ++ s :: l2)) by (rewrite <- E; apply seq_NoDup). apply NoDup_remove_2 in ND. rewrite E, !map_app. cbn [map]. rewrite set_slot_eq.
      assert (G : forall l, ~ In s l -> map (set_slot L V X D f s v) l = map f l).
      { intros l Hl. apply map_ext_in. intros k Hk. apply set_slot_neq. intros ->. auto. }
      rewrite !G by (intros Q; apply ND; apply in_or_app; auto). constructor. auto.
    Qed.
    Theorem work_stream_terminates : forall s, Acc (fun s' s => wstep L V leq word X D worker copier n s s') s.
    Proof.
      assert (G : forall k s, length (w_todo _ _ _ _ s) <= k -> Acc (fun s' s => wstep L V leq word X D worker copier n s s') s).
      { induction k as [|k IH]; intros [m td f dn]; cbn [w_todo]; intros Hk;
          assert (Ha : Acc (llt slt) (map f (seq 0 n))) by (apply llt_wf; intros; apply slt_wf);
          remember (map f (seq 0 n)) as sl eqn:Es; revert m f dn Es; induction Ha as [sl Hsl IHs]; intros m f dn Es; constructor; intros s' Hs';
          inversion Hs'; subst;
          try (eapply IHs; [|reflexivity]; apply map_set; auto; match goal with Q : _ = _ |- _ => rewrite Q end; constructor; unfold tlt; eauto).
        - rewrite app_length in Hk. cbn in Hk. lia.
        - apply IH. cbn. rewrite app_length in *. cbn in Hk. lia. }
      intros s. eapply G. apply le_n.
    Qed.
  End WST.
End R.
