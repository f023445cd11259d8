(** Generic facts about concurrent execution (see ModelConc). *)
From Coq Require Import List Arith Bool Permutation Lia.
From Verif Require Import ModelConc.
Import ListNotations.

Section P.
  Variables L V : Type.
  Variable leq : L -> L -> bool.
  Hypothesis leq_spec : forall a b, leq a b = true <-> a = b.
  Variable word : L -> bool.
  (** locations whose value never changes during the loop *)
  Variable C : L -> option V.
  Notation mem := (mem L V). Notation put := (put L V leq). Notation exec := (exec L V leq).
  Notation tstep := (tstep L V leq word). Notation prog := (prog L V). Notation tstate := (tstate L V).

  Lemma put_same : forall m l v, put m l v l = v.
  Proof. intros. unfold ModelConc.put. rewrite (proj2 (leq_spec l l) eq_refl). reflexivity. Qed.
  Lemma put_other : forall m l v l', l <> l' -> put m l v l' = m l'.
  Proof. intros m l v l' H. unfold ModelConc.put. destruct (leq l l') eqn:E; auto. apply leq_spec in E. contradiction. Qed.
  Lemma ldec : forall a b : L, a = b \/ a <> b.
  Proof. intros. destruct (leq a b) eqn:E; [left; apply leq_spec; auto|right; intros ->; rewrite (proj2 (leq_spec b b) eq_refl) in E; discriminate]. Qed.

  Definition consts (m : mem) : Prop := forall l c, C l = Some c -> m l = c.
  Inductive fp {A} (Rs Ws : L -> Prop) : prog A -> Prop :=
  | fp_ret : forall a, fp Rs Ws (Ret a)
  | fp_rd : forall l k, Rs l \/ C l <> None -> (forall v, (forall c, C l = Some c -> v = c) -> fp Rs Ws (k v)) -> fp Rs Ws (Rd l k)
  | fp_wr : forall l v k, Ws l -> C l = None -> fp Rs Ws k -> fp Rs Ws (Wr l v k)
  | fp_silent : forall l v k, C l = Some v -> word l = true -> fp Rs Ws k -> fp Rs Ws (Wr l v k).

  Lemma fp_weaken : forall A (Rs Ws Rs' Ws' : L -> Prop) (p : prog A), fp Rs Ws p ->
    (forall l, Rs l -> Rs' l) -> (forall l, Ws l -> Ws' l) -> fp Rs' Ws' p.
  Proof.
    intros A Rs Ws Rs' Ws' p Hp HR HW. induction Hp.
    - constructor.
    - apply fp_rd; [destruct H; auto|]. intros. apply H1; auto.
    - apply fp_wr; auto.
    - apply fp_silent; auto.
  Qed.
  Lemma fp_bind : forall A B Rs Ws (p : prog A) (f : A -> prog B), fp Rs Ws p -> (forall a, fp Rs Ws (f a)) -> fp Rs Ws (bind p f).
  Proof.
    intros A B Rs Ws p f Hp Hf. induction Hp; cbn [bind].
    - apply Hf.
    - apply fp_rd; auto.
    - apply fp_wr; auto.
    - apply fp_silent; auto.
  Qed.
  Lemma fp_for : forall A X Rs Ws (xs : list X) (body : A -> X -> prog A) a,
    (forall a x, In x xs -> fp Rs Ws (body a x)) -> fp Rs Ws (for_each xs body a).
  Proof.
    induction xs as [|x xs IH]; intros body a Hb; cbn [for_each]; [constructor|].
    apply fp_bind; [apply Hb; left; auto|]. intros. apply IH. intros. apply Hb. right; auto.
  Qed.

  Lemma consts_silent : forall m l v, consts m -> C l = Some v -> forall l', put m l v l' = m l'.
  Proof. intros m l v Hc E l'. destruct (ldec l l') as [->|N]; [rewrite put_same; symmetry; auto|rewrite put_other; auto]. Qed.
  Lemma consts_put : forall m l v, consts m -> (C l = None \/ C l = Some v) -> consts (put m l v).
  Proof.
    intros m l v Hc H l' c E. destruct (ldec l l') as [->|N]; [rewrite put_same|rewrite put_other; auto].
    destruct H; congruence.
  Qed.

  Lemma exec_ext : forall A (p : prog A) m m', (forall l, m l = m' l) ->
    snd (exec p m) = snd (exec p m') /\ forall l, fst (exec p m) l = fst (exec p m') l.
  Proof.
    induction p as [a|l k IH|l v k IH]; intros m m' E; cbn [ModelConc.exec]; auto.
    - rewrite <- (E l). apply IH. auto.
    - apply IH. intros l'. unfold ModelConc.put. destruct (leq l l'); auto.
  Qed.

  (** the result and the written locations depend only on the footprint *)
  Lemma exec_agree : forall A (Rs Ws : L -> Prop) (p : prog A), fp Rs Ws p -> forall m m', consts m -> consts m' ->
    (forall l, Rs l \/ Ws l -> m l = m' l) ->
    snd (exec p m) = snd (exec p m') /\ (forall l, Rs l \/ Ws l -> fst (exec p m) l = fst (exec p m') l).
  Proof.
    intros A Rs Ws p Hp. induction Hp as [a|l k Hr Hk IH|l v k Hw Hn Hk IH|l v k Hs Hw Hk IH]; intros m m' Cm Cm' E; cbn [ModelConc.exec].
    - auto.
    - assert (Em : m l = m' l).
      { destruct Hr as [Hr|Hr]; [auto|]. destruct (C l) as [c|] eqn:Ec; [|congruence]. rewrite (Cm _ _ Ec), (Cm' _ _ Ec). auto. }
      rewrite Em. apply IH; auto.
    - apply IH; [apply consts_put; auto|apply consts_put; auto|]. intros l' Hl'.
      destruct (ldec l l') as [->|N]; [rewrite !put_same; auto|rewrite !put_other; auto].
    - apply IH; [apply consts_put; auto|apply consts_put; auto|]. intros l' Hl'. rewrite !consts_silent; auto.
  Qed.
  Lemma exec_frame : forall A (Rs Ws : L -> Prop) (p : prog A), fp Rs Ws p -> forall m, consts m ->
    consts (fst (exec p m)) /\ forall l, ~ Ws l -> fst (exec p m) l = m l.
  Proof.
    intros A Rs Ws p Hp. induction Hp as [a|l k Hr Hk IH|l v k Hw Hn Hk IH|l v k Hs Hw Hk IH]; intros m Cm; cbn [ModelConc.exec].
    - auto.
    - apply IH; auto.
    - destruct (IH (put m l v)) as (A1 & A2); [apply consts_put; auto|]. split; auto. intros l' Hl'. rewrite A2 by auto.
      apply put_other. congruence.
    - destruct (IH (put m l v)) as (A1 & A2); [apply consts_put; auto|]. split; auto. intros l' Hl'. rewrite A2 by auto.
      apply consts_silent; auto.
  Qed.

  (** ** one task *)
  Definition rest {A} (t : tstate A) : prog A := match t with Run p => p | Mid l v k => Wr l v k end.
  Definition fpt {A} (Rs Ws : L -> Prop) (t : tstate A) : Prop :=
    match t with Run p => fp Rs Ws p | Mid l v k => Ws l /\ C l = None /\ fp Rs Ws k end.
  Lemma fpt_rest : forall A Rs Ws (t : tstate A), fpt Rs Ws t -> fp Rs Ws (rest t).
  Proof. intros A Rs Ws [p|l v k]; cbn; auto. intros (A1 & A2 & A3). apply fp_wr; auto. Qed.
  Lemma put_put : forall m l v g l', put (put m l g) l v l' = put m l v l'.
  Proof. intros. destruct (ldec l l') as [->|N]; [rewrite !put_same|rewrite !put_other by auto]; auto. Qed.

  (** a step changes only written locations and does not change what the task will do *)
  Lemma tstep_facts : forall A Rs Ws m (t : tstate A) m' t', tstep m t m' t' -> fpt Rs Ws t -> consts m ->
    fpt Rs Ws t' /\ consts m' /\ (forall l, ~ Ws l -> m' l = m l) /\
    snd (exec (rest t') m') = snd (exec (rest t) m) /\ forall l, fst (exec (rest t') m') l = fst (exec (rest t) m) l.
  Proof.
    intros A Rs Ws m t m' t' Hs Hf Cm. destruct Hs as [m l k|m l v k Hw|m l v k g Hw|m l v k]; cbn [rest fpt] in *.
    - inversion Hf as [|? ? Hr Hk| |]; subst. split; [|repeat split; auto]. apply Hk. intros. apply Cm. auto.
    - inversion Hf; subst.
      + repeat split; auto; [apply consts_put; auto|]. intros l' N. apply put_other. congruence.
      + repeat split; auto; [apply consts_put; auto|]. intros l' N. apply consts_silent; auto.
    - inversion Hf; subst; [|congruence].
      split; [auto|]. split; [apply consts_put; auto|]. split; [intros l' N; apply put_other; congruence|].
      cbn [ModelConc.exec]. apply exec_ext. intros. apply put_put.
    - destruct Hf as (A1 & A2 & A3). split; auto. split; [apply consts_put; auto|]. split; [intros l' N; apply put_other; congruence|].
      cbn [ModelConc.exec]. auto.
  Qed.

  Inductive tsteps {A} : mem -> tstate A -> mem -> tstate A -> Prop :=
  | ts_refl : forall m t, tsteps m t m t
  | ts_step : forall m t m1 t1 m2 t2, tstep m t m1 t1 -> tsteps m1 t1 m2 t2 -> tsteps m t m2 t2.
  (** a task can always run to its end *)
  Lemma task_runs : forall A (p : prog A) m, exists m', tsteps m (Run p) m' (Run (Ret (snd (exec p m)))) /\
     forall l, m' l = fst (exec p m) l.
  Proof.
    induction p as [a|l k IH|l v k IH]; intros m; cbn [ModelConc.exec].
    - exists m. split; [constructor|auto].
    - destruct (IH (m l) m) as (m' & H1 & H2). exists m'. split; auto. eapply ts_step; [constructor|]. exact H1.
    - destruct (word l) eqn:Ew.
      + destruct (IH (put m l v)) as (m' & H1 & H2). exists m'. split; auto. eapply ts_step; [constructor; auto|]. exact H1.
      + destruct (IH (put (put m l v) l v)) as (m' & H1 & H2). exists m'.
        assert (E : forall l', put (put m l v) l v l' = put m l v l') by (intros; apply put_put).
        destruct (exec_ext _ k _ _ E) as (E1 & E2). split; [|intros; rewrite H2; auto].
        rewrite E1 in H1. eapply ts_step; [apply t_tear with (g := v); auto|]. eapply ts_step; [apply t_mend|]. exact H1.
  Qed.
  Lemma task_runs_any : forall A (t : tstate A) m, exists m', tsteps m t m' (Run (Ret (snd (exec (rest t) m)))) /\
     forall l, m' l = fst (exec (rest t) m) l.
  Proof.
    intros A [p|l v k] m; [apply task_runs|]. cbn [rest ModelConc.exec].
    destruct (task_runs A k (put m l v)) as (m' & H1 & H2). exists m'. split; auto. eapply ts_step; [apply t_mend|]. exact H1.
  Qed.

  (** ** parallel_for *)
  Section PF.
    Variable X : Type.
    Variable items : list X.
    Variable body : X -> prog unit.
    Variables (Rs Ws : nat -> L -> Prop).
    Hypothesis Hfp : forall j x, nth_error items j = Some x -> fp (Rs j) (Ws j) (body x).
    Hypothesis Hdisj : forall i j l, i < length items -> j < length items -> i <> j -> Ws i l -> ~ (Rs j l \/ Ws j l).
    Variable m0 : mem.
    Hypothesis C0 : consts m0.

    Definition pinv (s : mem * list (tstate unit)) : Prop :=
      let (m, ts) := s in
      length ts = length items /\ consts m /\
      (forall l, (forall j, j < length items -> ~ Ws j l) -> m l = m0 l) /\
      forall j t x, nth_error ts j = Some t -> nth_error items j = Some x ->
        fpt (Rs j) (Ws j) t /\ forall l, Ws j l -> fst (exec (rest t) m) l = fst (exec (body x) m0) l.
    Lemma pinv_init : pinv (m0, map (fun x => Run (body x)) items).
    Proof.
      cbn. split; [rewrite map_length; auto|]. split; auto. split; auto. intros j t x Ht Hx.
      rewrite nth_error_map, Hx in Ht. cbn in Ht. injection Ht as <-. cbn. split; auto.
    Qed.
    Lemma nth_error_mid : forall T (l1 : list T) t l2 j, nth_error (l1 ++ t :: l2) j =
      if Nat.eqb j (length l1) then Some t else nth_error (l1 ++ t :: l2) j.
    Proof.
      intros. destruct (Nat.eqb_spec j (length l1)) as [->|N]; auto. rewrite nth_error_app2 by lia. rewrite Nat.sub_diag. reflexivity.
    Qed.
    Lemma nth_error_mid_other : forall T (l1 : list T) t t' l2 j, j <> length l1 -> nth_error (l1 ++ t :: l2) j = nth_error (l1 ++ t' :: l2) j.
    Proof.
      intros T l1 t t' l2 j N. destruct (Nat.lt_ge_cases j (length l1)) as [Hl|Hl].
      - rewrite !nth_error_app1 by lia. auto.
      - rewrite !nth_error_app2 by lia. destruct (j - length l1) eqn:E; [lia|]. reflexivity.
    Qed.
    Lemma pinv_step : forall s s', pstep L V leq word s s' -> pinv s -> pinv s'.
    Proof.
      intros s s' Hs Hi. destruct Hs as [m m' l1 t t' l2 Hs]. cbn in Hi. destruct Hi as (H1 & H2 & H3 & H4). cbn.
      assert (Hlen : length l1 < length items) by (rewrite <- H1, app_length; cbn; lia).
      destruct (nth_error items (length l1)) as [x|] eqn:Hx; [|apply nth_error_None in Hx; lia].
      assert (Ht : nth_error (l1 ++ t :: l2) (length l1) = Some t) by (rewrite nth_error_mid, Nat.eqb_refl; auto).
      destruct (H4 _ _ _ Ht Hx) as (F1 & F2).
      destruct (tstep_facts _ _ _ _ _ _ _ Hs F1 H2) as (G1 & G2 & G3 & _ & G5).
      split; [rewrite <- H1, !app_length; cbn; auto|]. split; auto. split.
      - intros l Hl. rewrite G3; auto.
      - intros j u y Hu Hy. rewrite nth_error_mid in Hu. destruct (Nat.eqb_spec j (length l1)) as [->|N].
        + injection Hu as <-. assert (y = x) by congruence. subst y. split; auto. intros l Hl. rewrite G5. auto.
        + rewrite (nth_error_mid_other _ l1 t' t l2 j N) in Hu. destruct (H4 _ _ _ Hu Hy) as (K1 & K2). split; auto.
          intros l Hl. rewrite <- K2 by auto.
          assert (Hj : j < length items) by (apply nth_error_Some; congruence).
          apply (exec_agree _ _ _ _ (fpt_rest _ _ _ _ K1)); auto. intros l' Hl'. apply G3. intros Hw. apply (Hdisj (length l1) j l'); auto.
    Qed.
    Lemma pinv_steps : forall s s', psteps L V leq word s s' -> pinv s -> pinv s'.
    Proof. induction 1; auto. intros. apply IHpsteps. eapply pinv_step; eauto. Qed.

    Theorem parallel_for_result : forall m', parallel_for L V leq word items body m0 m' ->
      consts m' /\
      (forall j x l, nth_error items j = Some x -> Ws j l -> m' l = fst (exec (body x) m0) l) /\
      (forall l, (forall j, j < length items -> ~ Ws j l) -> m' l = m0 l).
    Proof.
      intros m' (ts & Hs & Hf). pose proof (pinv_steps _ _ Hs pinv_init) as Hi. cbn in Hi. destruct Hi as (H1 & H2 & H3 & H4).
      split; auto. split; auto. intros j x l Hx Hl.
      assert (Hj : j < length ts) by (rewrite H1; apply nth_error_Some; congruence).
      destruct (nth_error ts j) as [t|] eqn:Ht; [|apply nth_error_None in Ht; lia].
      destruct (H4 _ _ _ Ht Hx) as (_ & E). rewrite <- E by auto. rewrite Forall_forall in Hf.
      rewrite (Hf t) by (eapply nth_error_In; eauto). reflexivity.
    Qed.
  End PF.
  (** every state of a parallel_for can run to the end *)
  Lemma psteps_trans : forall s1 s2 s3, psteps L V leq word s1 s2 -> psteps L V leq word s2 s3 -> psteps L V leq word s1 s3.
  Proof. induction 1; auto. intros. econstructor; eauto. Qed.
  Lemma psteps_task : forall m t m' t' l1 l2, tsteps m t m' t' -> psteps L V leq word (m, l1 ++ t :: l2) (m', l1 ++ t' :: l2).
  Proof. induction 1; [constructor|]. econstructor; [constructor; eauto|auto]. Qed.
  Lemma parallel_progress : forall ts m, exists m' ts', psteps L V leq word (m, ts) (m', ts') /\ Forall (finished L V) ts'.
  Proof.
    assert (G : forall l2 l1 m, Forall (finished L V) l1 -> exists m' ts', psteps L V leq word (m, l1 ++ l2) (m', ts') /\ Forall (finished L V) ts').
    { induction l2 as [|t l2 IH]; intros l1 m H1; [exists m, l1; rewrite app_nil_r; split; [constructor|auto]|].
      destruct (task_runs_any _ t m) as (m1 & S1 & _). destruct (snd (exec (rest t) m)).
      destruct (IH (l1 ++ [Run (Ret tt)]) m1) as (m' & ts' & S2 & F2); [apply Forall_app; split; auto; constructor; auto; reflexivity|].
      exists m', ts'. split; auto. eapply psteps_trans; [apply psteps_task; eauto|]. rewrite <- app_assoc in S2. exact S2. }
    intros ts m. apply (G ts [] m). constructor.
  Qed.

  (** ** WorkStream *)
  Section WS.
    Variables X D : Type.
    Variable worker : X -> D -> prog D.
    Variable copier : D -> prog unit.
    Variable sample : D.
    Variable items : list X.
    Variable n : nat.
    Variable m0 : mem.
    Hypothesis C0 : consts m0.
    Variables (Rw Wc : L -> Prop).      (* what workers read, what copiers write *)
    Notation loop := (seq_loop L V leq X D worker copier sample m0).
    Definition res (x : X) (d : D) : D := snd (exec (worker x d) m0).
    (** [P done d]: a CopyData that may lie in a free slot when [done] has been copied *)
    Variable P : list X -> D -> Prop.
    Hypothesis HRW : forall l, Wc l -> ~ Rw l.
    Hypothesis Hworker : forall x d, In x items -> fp Rw (fun _ => False) (worker x d).
    Hypothesis Hcopier : forall x d dn, In x items -> P dn d -> fp (fun _ => True) Wc (copier (res x d)).
    Hypothesis P0 : P [] sample.
    Hypothesis Pmono : forall dn z d, P dn d -> P (dn ++ z) d.
    Hypothesis Pstale : forall x d dn z, In x items -> P dn d -> incl (dn ++ z) items ->
      (forall l, fst (exec (copier (res x d)) (loop (dn ++ z))) l = fst (exec (copier (res x sample)) (loop (dn ++ z))) l) /\
      P (dn ++ z ++ [x]) (res x d).

    Definition held (x : sstate L V X D) : list X :=
      match x with Free _ _ _ _ _ => [] | Working _ _ _ _ i _ => [i] | Ready _ _ _ _ i _ => [i] | Copying _ _ _ _ i _ _ => [i] end.
    Definition from (dn : list X) (x : X) (d' : D) : Prop :=
      exists dn0 z d, dn = dn0 ++ z /\ P dn0 d /\ d' = res x d.
    Definition slot_ok (m : mem) (dn : list X) (x : sstate L V X D) : Prop :=
      match x with
      | Free _ _ _ _ d => P dn d
      | Working _ _ _ _ i t => fpt Rw (fun _ => False) t /\ from dn i (snd (exec (rest t) m))
      | Ready _ _ _ _ i d => from dn i d
      | Copying _ _ _ _ i d t => from dn i d /\ fpt (fun _ => True) Wc t /\
           (forall l, fst (exec (rest t) m) l = loop (dn ++ [i]) l)
      end.
    Definition winv (s : wstate L V X D) : Prop :=
      let m := w_mem _ _ _ _ s in let dn := w_done _ _ _ _ s in
      consts m /\ (forall l, ~ Wc l -> m l = m0 l) /\
      Permutation items (w_todo _ _ _ _ s ++ flat_map (fun k => held (w_slot _ _ _ _ s k)) (seq 0 n) ++ dn) /\
      (forall k, k < n -> slot_ok m dn (w_slot _ _ _ _ s k)) /\
      (forall k k', k < n -> k' < n -> ~ not_copying _ _ _ _ (w_slot _ _ _ _ s k) -> ~ not_copying _ _ _ _ (w_slot _ _ _ _ s k') -> k = k') /\
      ((forall k, k < n -> not_copying _ _ _ _ (w_slot _ _ _ _ s k)) -> forall l, m l = loop dn l).

    Lemma set_slot_eq : forall f s v, set_slot L V X D f s v s = v.
    Proof. intros. unfold set_slot. rewrite Nat.eqb_refl. auto. Qed.
    Lemma set_slot_neq : forall f s v k, k <> s -> set_slot L V X D f s v k = f k.
    Proof. intros. unfold set_slot. destruct (Nat.eqb_spec s k); congruence. Qed.

    Lemma held_set : forall f s v, s < n ->
      exists others, Permutation (flat_map (fun k => held (f k)) (seq 0 n)) (held (f s) ++ others) /\
        Permutation (flat_map (fun k => held (set_slot L V X D f s v k)) (seq 0 n)) (held v ++ others).
    Proof.
      intros f s v Hs. destruct (in_split s (seq 0 n)) as (l1 & l2 & E); [apply in_seq; lia|].
      assert (ND : NoDup (l1 ++ s :: l2)) by (rewrite <- E; apply seq_NoDup).
      apply NoDup_remove_2 in ND. rewrite E. exists (flat_map (fun k => held (f k)) (l1 ++ l2)).
      rewrite !flat_map_app. cbn [flat_map]. rewrite set_slot_eq.
      assert (G : forall l, ~ In s l -> flat_map (fun k => held (set_slot L V X D f s v k)) l = flat_map (fun k => held (f k)) l).
      { induction l as [|a l IH]; intros Hn; cbn; auto. rewrite IH by (intros Q; apply Hn; right; auto). rewrite set_slot_neq; auto. intros ->. apply Hn. left; auto. }
      rewrite !G by (intros Q; apply ND; apply in_or_app; auto). split; apply Permutation_app_swap_app.
    Qed.

    Lemma winv_init : winv (w_init L V X D items sample m0).
    Proof.
      unfold winv, w_init; cbn. split; auto. split; auto. split.
      - replace (flat_map _ _) with (@nil X); [rewrite !app_nil_r; auto|]. induction (seq 0 n); cbn; auto.
      - split; [intros; exact P0|]. split; [intros k k' _ _ Hk; exfalso; apply Hk; exact I|auto].
    Qed.
    Lemma loop_app : forall a x l, loop (a ++ [x]) l = seq1 L V leq X D worker copier sample (loop a) x l.
    Proof. intros. unfold seq_loop. rewrite fold_left_app. reflexivity. Qed.
    Lemma loop_frame : forall dn, incl dn items -> consts (loop dn) /\ forall l, ~ Wc l -> loop dn l = m0 l.
    Proof.
      intros dn. induction dn as [|x dn IH] using rev_ind; intros Hin.
      - split; auto.
      - destruct IH as (I1 & I2); [intros y Hy; apply Hin; apply in_or_app; auto|].
        assert (Hx : In x items) by (apply Hin; apply in_or_app; right; left; auto).
        assert (Hd : incl dn items) by (intros y Hy; apply Hin; apply in_or_app; auto).
        unfold seq_loop in *. rewrite fold_left_app. cbn [fold_left]. set (mm := fold_left _ dn m0) in *.
        unfold seq1 at 1 2. pose proof (exec_frame _ _ _ _ (Hworker x sample Hx) mm I1) as (F1 & F2).
        assert (Er : snd (exec (worker x sample) mm) = res x sample).
        { apply (exec_agree _ _ _ _ (Hworker x sample Hx)); auto. intros l [Hl|[]]. apply I2. intros Q. apply (HRW l Q Hl). }
        destruct (exec (worker x sample) mm) as (m1 & d) eqn:E1. cbn [fst snd] in *. subst d.
        pose proof (exec_frame _ _ _ _ (Hcopier x sample [] Hx P0) m1 F1) as (G1 & G2). split; auto.
        intros l Hl. rewrite G2, F2 by auto. auto.
    Qed.
    (** the sequential step in terms of the result of the worker *)
    Lemma seq1_copy : forall dn x, incl dn items -> In x items -> forall l,
      seq1 L V leq X D worker copier sample (loop dn) x l = fst (exec (copier (res x sample)) (loop dn)) l.
    Proof.
      intros dn x Hin Hx l. destruct (loop_frame dn Hin) as (I1 & I2). unfold seq1.
      pose proof (exec_frame _ _ _ _ (Hworker x sample Hx) (loop dn) I1) as (F1 & F2).
      assert (Er : snd (exec (worker x sample) (loop dn)) = res x sample).
      { apply (exec_agree _ _ _ _ (Hworker x sample Hx)); auto. intros l' [Hl|[]]. apply I2. intros Q. apply (HRW l' Q Hl). }
      destruct (exec (worker x sample) (loop dn)) as (m1 & d) eqn:E1. cbn [fst snd] in *. subst d.
      apply exec_ext. intros. apply F2. auto.
    Qed.

    Lemma winv_step : forall s s', wstep L V leq word X D worker copier n s s' -> winv s -> winv s'.
    Proof.
      intros s s' Hs Hi. unfold winv in *. destruct Hs as [m l1 x l2 f dn s d Hn Hf|m m' td f dn s x t t' Hn Hf Ht|m td f dn s x d Hn Hf|m td f dn s x d Hn Hf Hnc|m m' td f dn s x d t t' Hn Hf Ht|m td f dn s x d Hn Hf]; cbn [w_mem w_todo w_slot w_done] in *;
        destruct Hi as (I1 & I2 & I3 & I4 & I5 & I6); pose proof (I4 s Hn) as Is; rewrite Hf in Is; cbn [slot_ok] in Is.
      - (* start *)
        destruct (held_set f s (Working L V X D x (Run (worker x d))) Hn) as (oth & Q1 & Q2). rewrite Hf in Q1. cbn [held] in Q1, Q2.
        assert (Hx : In x items). { apply (Permutation_in _ (Permutation_sym I3)). apply in_or_app. left. apply in_or_app. right. left. auto. }
        split; auto. split; auto. split; [|split; [|split]].
        + rewrite I3. rewrite Q1, Q2. cbn [app]. rewrite <- !app_assoc. cbn [app]. apply Permutation_app_head.
          apply Permutation_trans with (x :: l2 ++ oth ++ dn); [auto|]. apply Permutation_middle.
        + intros k Hk. destruct (Nat.eq_dec k s) as [->|N]; [rewrite set_slot_eq|rewrite set_slot_neq by auto; auto]. cbn [slot_ok fpt rest].
          split; [auto|]. exists dn, [], d. rewrite app_nil_r. split; auto. split; auto.
          apply (exec_agree _ _ _ _ (Hworker x d Hx)); auto. intros l [Hl|[]]. apply I2. intros Q. apply (HRW l Q Hl).
        + intros k k' Hk Hk'. assert (G : forall j, ~ not_copying _ _ _ _ (set_slot L V X D f s (Working L V X D x (Run (worker x d))) j) -> ~ not_copying _ _ _ _ (f j)).
          { intros j. destruct (Nat.eq_dec j s) as [->|N]; [rewrite set_slot_eq; cbn; tauto|rewrite set_slot_neq; auto]. }
          intros A B. apply I5; auto.
        + intros Hc. apply I6. intros k Hk. specialize (Hc k Hk). destruct (Nat.eq_dec k s) as [->|N]; [rewrite Hf; exact I|rewrite set_slot_neq in Hc; auto].
      - (* work *)
        destruct Is as (F1 & F2). destruct (tstep_facts _ _ _ _ _ _ _ Ht F1 I1) as (G1 & G2 & G3 & G4 & G5).
        assert (Em : forall l, m' l = m l) by (intros; apply G3; tauto).
        destruct (held_set f s (Working L V X D x t') Hn) as (oth & Q1 & Q2). rewrite Hf in Q1. cbn [held] in Q1, Q2.
        split; auto. split; [intros; rewrite Em; auto|]. split; [rewrite Q2, <- Q1; exact I3|]. split; [|split].
        + intros k Hk. destruct (Nat.eq_dec k s) as [->|N]; [rewrite set_slot_eq|rewrite set_slot_neq by auto].
          * cbn [slot_ok]. split; auto. rewrite G4. auto.
          * specialize (I4 k Hk). destruct (f k) as [d0|y u|y d0|y d0 u]; cbn [slot_ok] in *; auto.
            -- destruct I4 as (A1 & A2). split; auto. destruct (exec_ext _ (rest u) m' m Em) as (E1 & _). rewrite E1. auto.
            -- destruct I4 as (A1 & A2 & A3). split; auto. split; auto. intros l. destruct (exec_ext _ (rest u) m' m Em) as (_ & E2). rewrite E2. auto.
        + intros k k' Hk Hk'. assert (G : forall j, ~ not_copying _ _ _ _ (set_slot L V X D f s (Working L V X D x t') j) -> ~ not_copying _ _ _ _ (f j)).
          { intros j. destruct (Nat.eq_dec j s) as [->|N]; [rewrite set_slot_eq; cbn; tauto|rewrite set_slot_neq; auto]. }
          intros A B. apply I5; auto.
        + intros Hc l. rewrite Em. apply I6. intros k Hk. specialize (Hc k Hk). destruct (Nat.eq_dec k s) as [->|N]; [rewrite Hf; exact I|rewrite set_slot_neq in Hc; auto].
      - (* worked *)
        destruct Is as (_ & F2). cbn [rest ModelConc.exec snd] in F2.
        destruct (held_set f s (Ready L V X D x d) Hn) as (oth & Q1 & Q2). rewrite Hf in Q1. cbn [held] in Q1, Q2.
        split; auto. split; auto. split; [rewrite Q2, <- Q1; exact I3|]. split; [|split].
        + intros k Hk. destruct (Nat.eq_dec k s) as [->|N]; [rewrite set_slot_eq; exact F2|rewrite set_slot_neq by auto; auto].
        + intros k k' Hk Hk'. assert (G : forall j, ~ not_copying _ _ _ _ (set_slot L V X D f s (Ready L V X D x d) j) -> ~ not_copying _ _ _ _ (f j)).
          { intros j. destruct (Nat.eq_dec j s) as [->|N]; [rewrite set_slot_eq; cbn; tauto|rewrite set_slot_neq; auto]. }
          intros A B. apply I5; auto.
        + intros Hc. apply I6. intros k Hk. specialize (Hc k Hk). destruct (Nat.eq_dec k s) as [->|N]; [rewrite Hf; exact I|rewrite set_slot_neq in Hc; auto].
      - (* grab *)
        destruct (held_set f s (Copying L V X D x d (Run (copier d))) Hn) as (oth & Q1 & Q2). rewrite Hf in Q1. cbn [held] in Q1, Q2.
        assert (Hx : In x items).
        { apply (Permutation_in _ (Permutation_sym I3)). apply in_or_app. right. apply in_or_app. left. apply (Permutation_in _ (Permutation_sym Q1)). left. auto. }
        assert (Hin : incl dn items).
        { intros y Hy. apply (Permutation_in _ (Permutation_sym I3)). apply in_or_app. right. apply in_or_app. right. auto. }
        split; auto. split; auto. split; [rewrite Q2, <- Q1; exact I3|]. split; [|split].
        + intros k Hk. destruct (Nat.eq_dec k s) as [->|N]; [rewrite set_slot_eq|rewrite set_slot_neq by auto; auto]. cbn [slot_ok fpt rest].
          split; auto. destruct Is as (dn0 & z & d1 & -> & F2 & ->). split; [eapply Hcopier; eauto|].
          intros l. rewrite loop_app. rewrite seq1_copy by auto. destruct (Pstale x d1 dn0 z Hx F2 Hin) as (S1 & _). rewrite <- S1.
          apply exec_ext. apply I6. auto.
        + intros k k' Hk Hk'. assert (G : forall j, j < n -> ~ not_copying _ _ _ _ (set_slot L V X D f s (Copying L V X D x d (Run (copier d))) j) -> j = s).
          { intros j Hj Q. destruct (Nat.eq_dec j s) as [->|N]; [auto|]. rewrite set_slot_neq in Q by auto. exfalso. apply Q. auto. }
          intros A B. rewrite (G k), (G k'); auto.
        + intros Hc. specialize (Hc s Hn). rewrite set_slot_eq in Hc. destruct Hc.
      - (* copy *)
        destruct Is as (F0 & F1 & F2). destruct (tstep_facts _ _ _ _ _ _ _ Ht F1 I1) as (G1 & G2 & G3 & G4 & G5).
        destruct (held_set f s (Copying L V X D x d t') Hn) as (oth & Q1 & Q2). rewrite Hf in Q1. cbn [held] in Q1, Q2.
        split; auto. split; [intros l Hl; rewrite G3; auto|]. split; [rewrite Q2, <- Q1; exact I3|]. split; [|split].
        + intros k Hk. destruct (Nat.eq_dec k s) as [->|N]; [rewrite set_slot_eq|rewrite set_slot_neq by auto].
          * cbn [slot_ok]. split; [exact F0|]. split; [exact G1|]. intros l. rewrite G5. auto.
          * assert (Nk : not_copying _ _ _ _ (f k)).
            { pose proof (I5 k s Hk Hn) as Q. rewrite Hf in Q. destruct (f k); cbn; auto; exfalso; apply N; apply Q; cbn; tauto. }
            specialize (I4 k Hk). destruct (f k) as [d0|y u|y d0|y d0 u]; cbn [slot_ok not_copying] in *; auto; try (exfalso; exact Nk).
            destruct I4 as (A1 & A2). split; auto.
            destruct (exec_agree _ _ _ _ (fpt_rest _ _ _ _ A1) m' m G2 I1) as (E1 & _).
            { intros l [Hl|[]]. apply G3. intros Q. apply (HRW l Q Hl). }
            rewrite E1. auto.
        + intros k k' Hk Hk'. assert (G : forall j, ~ not_copying _ _ _ _ (set_slot L V X D f s (Copying L V X D x d t') j) -> ~ not_copying _ _ _ _ (f j)).
          { intros j. destruct (Nat.eq_dec j s) as [->|N]; [rewrite Hf; cbn; tauto|rewrite set_slot_neq; auto]. }
          intros A B. apply I5; auto.
        + intros Hc. specialize (Hc s Hn). rewrite set_slot_eq in Hc. destruct Hc.
      - (* release *)
        destruct Is as (F0 & F1 & F2). cbn [rest ModelConc.exec fst] in F2.
        destruct (held_set f s (Free L V X D d) Hn) as (oth & Q1 & Q2). rewrite Hf in Q1. cbn [held] in Q1, Q2.
        assert (Hx : In x items).
        { apply (Permutation_in _ (Permutation_sym I3)). apply in_or_app. right. apply in_or_app. left. apply (Permutation_in _ (Permutation_sym Q1)). left. auto. }
        assert (Hin : incl dn items).
        { intros y Hy. apply (Permutation_in _ (Permutation_sym I3)). apply in_or_app. right. apply in_or_app. right. auto. }
        assert (Fmono : forall i d', from dn i d' -> from (dn ++ [x]) i d').
        { intros i d' (dn0 & z & d1 & -> & A & B). exists dn0, (z ++ [x]), d1. rewrite app_assoc. auto. }
        split; auto. split; auto. split; [|split; [|split]].
        + rewrite I3, Q1, Q2. cbn [app]. apply Permutation_app_head.
          rewrite app_assoc. apply Permutation_cons_append.
        + intros k Hk. destruct (Nat.eq_dec k s) as [->|N]; [rewrite set_slot_eq|rewrite set_slot_neq by auto].
          * cbn [slot_ok]. destruct F0 as (dn0 & z & d1 & -> & A & ->). rewrite <- app_assoc. apply Pstale; auto.
          * assert (Nk : not_copying _ _ _ _ (f k)).
            { pose proof (I5 k s Hk Hn) as Q. rewrite Hf in Q. destruct (f k); cbn; auto; exfalso; apply N; apply Q; cbn; tauto. }
            specialize (I4 k Hk). destruct (f k) as [d0|y u|y d0|y d0 u]; cbn [slot_ok not_copying] in *; auto; try (exfalso; exact Nk).
            destruct I4; auto.
        + intros k k' Hk Hk'. assert (G : forall j, ~ not_copying _ _ _ _ (set_slot L V X D f s (Free L V X D d) j) -> ~ not_copying _ _ _ _ (f j)).
          { intros j. destruct (Nat.eq_dec j s) as [->|N]; [rewrite set_slot_eq; cbn; tauto|rewrite set_slot_neq; auto]. }
          intros A B. apply I5; auto.
        + intros _. auto.
    Qed.
    Lemma winv_steps : forall s s', wsteps L V leq word X D worker copier n s s' -> winv s -> winv s'.
    Proof. induction 1; auto. intros. apply IHwsteps. eapply winv_step; eauto. Qed.

    Theorem work_stream_result : forall m' dn, work_stream L V leq word X D worker copier n items sample m0 m' dn ->
      Permutation dn items /\ forall l, m' l = loop dn l.
    Proof.
      intros m' dn (s & Hs & (Hc1 & Hc2) & E1 & E2). pose proof (winv_steps _ _ Hs winv_init) as Hi. unfold winv in Hi. cbv zeta in Hi.
      rewrite E1, E2, Hc1 in Hi. destruct Hi as (I1 & I2 & I3 & I4 & I5 & I6).
      assert (Z : flat_map (fun k => held (w_slot _ _ _ _ s k)) (seq 0 n) = []).
      { assert (G : forall l, (forall k, In k l -> k < n) -> flat_map (fun k => held (w_slot _ _ _ _ s k)) l = []).
        { induction l as [|k l IH]; intros Hl; cbn; auto. rewrite IH by (intros; apply Hl; right; auto).
          destruct (Hc2 k) as (d & ->); [apply Hl; left; auto|]. reflexivity. }
        apply G. intros k Hk. apply in_seq in Hk. lia. }
      rewrite Z in I3. cbn in I3. split; [apply Permutation_sym; auto|]. apply I6. intros k Hk. destruct (Hc2 k Hk) as (d & ->). exact I.
    Qed.
  End WS.

  (** ** a WorkStream with at least one CopyData never gets stuck: from every reachable state it
      can complete *)
  Section Live.
    Variables X D : Type.
    Variable worker : X -> D -> prog D.
    Variable copier : D -> prog unit.
    Variable n : nat.
    Notation wstep := (wstep L V leq word X D worker copier n).
    Notation wsteps := (wsteps L V leq word X D worker copier n).
    Lemma wsteps_trans : forall s1 s2 s3, wsteps s1 s2 -> wsteps s2 s3 -> wsteps s1 s3.
    Proof. induction 1; auto. intros. econstructor; eauto. Qed.
    Lemma set_set : forall f s a b k, set_slot L V X D (set_slot L V X D f s a) s b k = set_slot L V X D f s b k.
    Proof. intros. unfold set_slot. destruct (Nat.eqb s k); auto. Qed.
    (** slots are compared pointwise *)
    Definition seq_st (a b : wstate L V X D) : Prop :=
      w_mem _ _ _ _ a = w_mem _ _ _ _ b /\ w_todo _ _ _ _ a = w_todo _ _ _ _ b /\ w_done _ _ _ _ a = w_done _ _ _ _ b /\
      forall k, w_slot _ _ _ _ a k = w_slot _ _ _ _ b k.
    Lemma run_worker : forall m t m' t' td f dn s x, s < n -> tsteps m t m' t' -> f s = Working L V X D x t ->
      exists f', wsteps {| w_mem := m; w_todo := td; w_slot := f; w_done := dn |} {| w_mem := m'; w_todo := td; w_slot := f'; w_done := dn |} /\
        f' s = Working L V X D x t' /\ forall k, k <> s -> f' k = f k.
    Proof.
      intros m t m' t' td f dn s x Hs Ht. revert f. induction Ht; intros f Hf.
      - exists f. split; [constructor|auto].
      - destruct (IHHt (set_slot L V X D f s (Working L V X D x t1))) as (f' & A & B & E); [apply set_slot_eq|].
        exists f'. split; [econstructor; [eapply w_work; eauto|exact A]|]. split; auto. intros k Hk. rewrite E by auto. apply set_slot_neq. auto.
    Qed.
    Lemma run_copier : forall m t m' t' td f dn s x d, s < n -> tsteps m t m' t' -> f s = Copying L V X D x d t ->
      exists f', wsteps {| w_mem := m; w_todo := td; w_slot := f; w_done := dn |} {| w_mem := m'; w_todo := td; w_slot := f'; w_done := dn |} /\
        f' s = Copying L V X D x d t' /\ forall k, k <> s -> f' k = f k.
    Proof.
      intros m t m' t' td f dn s x d Hs Ht. revert f. induction Ht; intros f Hf.
      - exists f. split; [constructor|auto].
      - destruct (IHHt (set_slot L V X D f s (Copying L V X D x d t1))) as (f' & A & B & E); [apply set_slot_eq|].
        exists f'. split; [econstructor; [eapply w_copy; eauto|exact A]|]. split; auto. intros k Hk. rewrite E by auto. apply set_slot_neq. auto.
    Qed.
    Definition one_copier (f : nat -> sstate L V X D) : Prop :=
      forall k k', k < n -> k' < n -> ~ not_copying _ _ _ _ (f k) -> ~ not_copying _ _ _ _ (f k') -> k = k'.
    Definition busy (x : sstate L V X D) : nat := match x with Free _ _ _ _ _ => 0 | _ => 1 end.
    (** finish a copying slot *)
    Lemma finish_copying : forall m td f dn s x d t, s < n -> f s = Copying L V X D x d t ->
      exists m' f', wsteps {| w_mem := m; w_todo := td; w_slot := f; w_done := dn |} {| w_mem := m'; w_todo := td; w_slot := f'; w_done := dn ++ [x] |} /\
        f' s = Free L V X D d /\ forall k, k <> s -> f' k = f k.
    Proof.
      intros m td f dn s x d t Hs Hf. destruct (task_runs_any _ t m) as (m' & A & _). destruct (snd (exec (rest t) m)).
      destruct (run_copier m t m' _ td f dn s x d Hs A Hf) as (f' & B1 & B2 & B3).
      exists m', (set_slot L V X D f' s (Free L V X D d)). split; [eapply wsteps_trans; [exact B1|]; econstructor; [eapply w_release; eauto|constructor]|].
      split; [apply set_slot_eq|]. intros k Hk. rewrite set_slot_neq by auto. auto.
    Qed.
    (** finish slot s when nobody copies *)
    Lemma finish_slot : forall m td f dn s, s < n -> (forall k, k < n -> not_copying _ _ _ _ (f k)) ->
      exists m' f' dn', wsteps {| w_mem := m; w_todo := td; w_slot := f; w_done := dn |} {| w_mem := m'; w_todo := td; w_slot := f'; w_done := dn' |} /\
        (exists d, f' s = Free L V X D d) /\ forall k, k <> s -> f' k = f k.
    Proof.
      intros m td f dn s Hs Hnc.
      assert (R : forall m f x d, f s = Ready L V X D x d -> (forall k, k < n -> not_copying _ _ _ _ (f k)) ->
        exists m' f' dn', wsteps {| w_mem := m; w_todo := td; w_slot := f; w_done := dn |} {| w_mem := m'; w_todo := td; w_slot := f'; w_done := dn' |} /\
        (exists d, f' s = Free L V X D d) /\ forall k, k <> s -> f' k = f k).
      { intros m1 f1 x d Hf Hn1. destruct (finish_copying m1 td (set_slot L V X D f1 s (Copying L V X D x d (Run (copier d)))) dn s x d (Run (copier d)) Hs) as (m' & f' & A & B & E); [apply set_slot_eq|].
        exists m', f', (dn ++ [x]). split; [econstructor; [eapply w_grab; eauto|exact A]|]. split; eauto. intros k Hk. rewrite E by auto. apply set_slot_neq; auto. }
      destruct (f s) as [d|x t|x d|x d t] eqn:Ef.
      - exists m, f, dn. split; [constructor|]. split; eauto.
      - destruct (task_runs_any _ t m) as (m' & A & _). destruct (run_worker m t m' _ td f dn s x Hs A Ef) as (f1 & B1 & B2 & B3).
        destruct (R m' (set_slot L V X D f1 s (Ready L V X D x (snd (exec (rest t) m)))) x (snd (exec (rest t) m))) as (m2 & f2 & dn2 & E1 & E2 & E3).
        { apply set_slot_eq. }
        { intros k Hk. destruct (Nat.eq_dec k s) as [->|N]; [rewrite set_slot_eq; exact I|rewrite set_slot_neq by auto; rewrite B3 by auto; auto]. }
        exists m2, f2, dn2. split; [|split; auto; intros k Hk; rewrite E3 by auto; rewrite set_slot_neq by auto; auto].
        eapply wsteps_trans; [exact B1|]. econstructor; [eapply w_worked; eauto|exact E1].
      - eapply R; eauto.
      - exfalso. specialize (Hnc s Hs). rewrite Ef in Hnc. exact Hnc.
    Qed.
    Lemma finish_all : forall ks m td f dn, (forall k, In k ks -> k < n) -> (forall k, k < n -> not_copying _ _ _ _ (f k)) ->
      exists m' f' dn', wsteps {| w_mem := m; w_todo := td; w_slot := f; w_done := dn |} {| w_mem := m'; w_todo := td; w_slot := f'; w_done := dn' |} /\
        (forall k, In k ks -> exists d, f' k = Free L V X D d) /\ (forall k, (exists d, f k = Free L V X D d) -> exists d, f' k = Free L V X D d) /\
        (forall k, k < n -> not_copying _ _ _ _ (f' k)).
    Proof.
      induction ks as [|s ks IH]; intros m td f dn Hk Hn.
      - exists m, f, dn. split; [constructor|]. split; [intros k []|]. auto.
      - destruct (finish_slot m td f dn s) as (m1 & f1 & dn1 & A & (d & B) & E); [apply Hk; left; auto|auto|].
        destruct (IH m1 td f1 dn1) as (m2 & f2 & dn2 & A2 & B2 & B3 & E2).
        { intros; apply Hk; right; auto. }
        { intros k Hk'. destruct (Nat.eq_dec k s) as [->|N]; [rewrite B; exact I|rewrite E; auto]. }
        exists m2, f2, dn2. split; [eapply wsteps_trans; eauto|]. split; [|split; auto].
        + intros k [<-|Hk']; [apply B3; eauto|auto].
        + intros k (d0 & Q). apply B3. destruct (Nat.eq_dec k s) as [->|N]; [eauto|rewrite E by auto; eauto].
    Qed.
    Lemma finish_todo : forall td m f dn, 0 < n -> (forall k, k < n -> exists d, f k = Free L V X D d) ->
      exists s', wsteps {| w_mem := m; w_todo := td; w_slot := f; w_done := dn |} s' /\ complete L V X D n s'.
    Proof.
      induction td as [|x td IH]; intros m f dn Hn Hf.
      - eexists. split; [constructor|]. split; auto.
      - destruct (Hf 0 Hn) as (d & E0).
        destruct (finish_slot m td (set_slot L V X D f 0 (Working L V X D x (Run (worker x d)))) dn 0 Hn) as (m1 & f1 & dn1 & A & B & E).
        { intros k Hk. destruct (Nat.eq_dec k 0) as [->|N]; [rewrite set_slot_eq; exact I|rewrite set_slot_neq by auto]. destruct (Hf k Hk) as (d1 & ->). exact I. }
        destruct (IH m1 f1 dn1 Hn) as (s' & A2 & C2).
        { intros k Hk. destruct (Nat.eq_dec k 0) as [->|N]; auto. rewrite E, set_slot_neq by auto. auto. }
        exists s'. split; auto. econstructor; [apply (w_start L V leq word X D worker copier n m [] x td f dn 0 d); auto|]. eapply wsteps_trans; eauto.
    Qed.
    Theorem work_stream_live : forall s, 0 < n -> one_copier (w_slot _ _ _ _ s) -> exists s', wsteps s s' /\ complete L V X D n s'.
    Proof.
      intros [m td f dn] Hn H1. cbn [w_slot] in H1.
      assert (Hall : forall m f dn, (forall k, k < n -> not_copying _ _ _ _ (f k)) ->
        exists s', wsteps {| w_mem := m; w_todo := td; w_slot := f; w_done := dn |} s' /\ complete L V X D n s').
      { intros m1 f1 dn1 Hnc. destruct (finish_all (seq 0 n) m1 td f1 dn1) as (m2 & f2 & dn2 & A & B & _ & _); auto.
        { intros k Hk. apply in_seq in Hk. lia. }
        destruct (finish_todo td m2 f2 dn2 Hn) as (s' & A2 & C2); [intros k Hk; apply B; apply in_seq; lia|].
        exists s'. split; auto. eapply wsteps_trans; eauto. }
      assert (Dec : (forall k, k < n -> not_copying _ _ _ _ (f k)) \/ exists k, k < n /\ ~ not_copying _ _ _ _ (f k)).
      { clear. induction n as [|j IH]; [left; intros; lia|]. destruct IH as [IH|(k & A & B)]; [|right; exists k; split; auto; lia].
        destruct (f j) as [d|x t|x d|x d t] eqn:E; try (left; intros k Hk; destruct (Nat.eq_dec k j) as [->|N]; [rewrite E; exact I|apply IH; lia]).
        right. exists j. rewrite E. cbn. split; [lia|tauto]. }
      destruct Dec as [Hnc|(s & Hs & Hc)]; [apply Hall; auto|].
      destruct (f s) as [d|x t|x d|x d t] eqn:Ef; cbn in Hc; try (exfalso; apply Hc; exact I).
      destruct (finish_copying m td f dn s x d t Hs Ef) as (m1 & f1 & A & B & E).
      destruct (Hall m1 f1 (dn ++ [x])) as (s' & A2 & C2).
      { intros k Hk. destruct (Nat.eq_dec k s) as [->|N]; [rewrite B; exact I|rewrite E by auto].
        destruct (f k) eqn:Ek; cbn; auto. apply N. apply H1; auto; rewrite ?Ek, ?Ef; cbn; tauto. }
      exists s'. split; auto. eapply wsteps_trans; eauto.
    Qed.
    Lemma one_copier_step : forall s s', wstep s s' -> one_copier (w_slot _ _ _ _ s) -> one_copier (w_slot _ _ _ _ s').
    Proof.
      intros s s' Hs I5. destruct Hs as [m l1 x l2 f dn s d Hn Hf|m m' td f dn s x t t' Hn Hf Ht|m td f dn s x d Hn Hf|m td f dn s x d Hn Hf Hnc|m m' td f dn s x d t t' Hn Hf Ht|m td f dn s x d Hn Hf]; cbn [w_slot] in *.
      4: { intros k k' Hk Hk'. assert (G : forall j, j < n -> ~ not_copying _ _ _ _ (set_slot L V X D f s (Copying L V X D x d (Run (copier d))) j) -> j = s).
          { intros j Hj Q. destruct (Nat.eq_dec j s) as [->|N]; [auto|]. rewrite set_slot_neq in Q by auto. exfalso. apply Q. auto. }
          intros A B. rewrite (G k), (G k'); auto. }
      all: intros k k' Hk Hk' A B; apply I5; auto; [clear B|clear A]; match goal with
        | Q : ~ not_copying _ _ _ _ (set_slot _ _ _ _ _ _ _ ?j) |- _ => destruct (Nat.eq_dec j s) as [->|N]; [rewrite set_slot_eq in Q; cbn in Q; try tauto; rewrite Hf; cbn; tauto|rewrite set_slot_neq in Q; auto] end.
    Qed.
    Lemma one_copier_steps : forall s s', wsteps s s' -> one_copier (w_slot _ _ _ _ s) -> one_copier (w_slot _ _ _ _ s').
    Proof. induction 1; auto. intros. apply IHwsteps. eapply one_copier_step; eauto. Qed.
    Theorem work_stream_never_stuck : forall items sample m s, 0 < n -> wsteps (w_init L V X D items sample m) s ->
      exists s', wsteps s s' /\ complete L V X D n s'.
    Proof.
      intros items sample m s Hn Hs. apply work_stream_live; auto. eapply one_copier_steps; eauto.
      intros k k' _ _ Q. exfalso. apply Q. exact I.
    Qed.
  End Live.
End P.
