(** * Abstract interpretation of the per-process programs of ModelColl *)
From Coq Require Import List Bool Arith Lia.
From Verif Require Import ModelBem ModelColl SpecColl.
Import ListNotations.
Local Open Scope nat_scope.

(** ** Objects *)
Lemma obj_eqb_eq : forall o p, obj_eqb o p = true <-> o = p.
Proof.
  intros o p; split.
  - destruct o, p; cbn; try discriminate; auto.
    + destruct a, b, a0, b0; cbn; try discriminate; auto.
    + destruct a, a0; cbn; try discriminate; auto.
  - intros ->. destruct p; cbn; auto. destruct a, b; auto. destruct a; auto.
Qed.
Lemma set_obj_same : forall T (f : obj -> T) o v, set_obj f o v o = v.
Proof. intros. unfold set_obj. now rewrite (proj2 (obj_eqb_eq o o) eq_refl). Qed.
Lemma set_obj_other : forall T (f : obj -> T) o v p, p <> o -> set_obj f o v p = f p.
Proof.
  intros. unfold set_obj. destruct (obj_eqb p o) eqn:E; auto.
  apply obj_eqb_eq in E. contradiction.
Qed.
Lemma obj_dec : forall o p : obj, {o = p} + {o <> p}.
Proof.
  intros. destruct (obj_eqb o p) eqn:E.
  - left. now apply obj_eqb_eq.
  - right. intros K. apply obj_eqb_eq in K. congruence.
Qed.
Lemma mode_eqb_eq : forall m m', mode_eqb m m' = true <-> m = m'.
Proof. intros [] []; cbn; split; try discriminate; auto. Qed.

Definition all_objs : list obj :=
  [System_rhs; Sol; Alpha; Serv_phi; Serv_dphi; Serv_tmp; Dirichlet_nodes; Neumann_nodes; Hyp_alpha] ++
  map (fun p => C_ij (fst p) (snd p)) axes2 ++ map B_i axes ++
  [Full_pattern; Neumann_matrix; Dirichlet_matrix; Band_pattern; Band_system; Helper; Vector_pattern;
   Normals; Normals_matrix; Normals_rhs; Surface; Surface_matrix; Surface_rhs;
   Gradients; Gradients_matrix; Gradients_rhs; Hyp_gradients; Hyp_b;
   Init_pattern; Prec_neumann; Prec_dirichlet; Init_prec; Final_pattern; Final_prec;
   Phi; Dphi_dn; Tmp_rhs; Ones; Zeros; Dummy; Vm_N; Vm_D; Rhs_N; Rhs_D; Loc_src; Krylov; Error_vec;
   Ghost_phi; Ghost_dphi; Ghost_vec].
Lemma all_objs_complete : forall o, In o all_objs.
Proof.
  destruct o; try (destruct a); try (destruct b); cbn; tauto.
Qed.

(** ** Abstract programs *)
Inductive wk := KMine | KZero | KAny.
Definition okw (k : wk) (v : wval) (mine : bool) : Prop :=
  mine = true \/ match k with KMine => False | KZero => v = Wzero | KAny => True end.
Inductive aev := ACall (c : call) | AWrites (l : list (obj * mode * wk)).
Definition allowed (l : list (obj * mode * wk)) (e : ev) : Prop :=
  match e with
  | Write o i m v mine => exists k, In (o, m, k) l /\ okw k v mine
  | First o b => b = true /\ exists k, In (o, Insert, k) l
  | Peek b => b = true
  | Call _ => False
  end.
Inductive matches : list aev -> list ev -> Prop :=
  | mt_nil : matches [] []
  | mt_call : forall c a e, matches a e -> matches (ACall c :: a) (Call c :: e)
  | mt_writes : forall l b a e, Forall (allowed l) b -> matches a e -> matches (AWrites l :: a) (b ++ e).

Lemma matches_app : forall a a' e e', matches a e -> matches a' e' -> matches (a ++ a') (e ++ e').
Proof.
  intros a a' e e' K K'. induction K; cbn; auto.
  - now constructor.
  - rewrite <- app_assoc. now constructor.
Qed.
Lemma matches_app_inv : forall a a' e, matches (a ++ a') e ->
  exists e1 e2, e = e1 ++ e2 /\ matches a e1 /\ matches a' e2.
Proof.
  induction a as [|x a IH]; intros a' e K; cbn in K.
  - exists [], e. repeat split; auto. constructor.
  - inversion K; subst.
    + destruct (IH _ _ H2) as (e1 & e2 & -> & K1 & K2). exists (Call c :: e1), e2. repeat split; auto. now constructor.
    + destruct (IH _ _ H3) as (e1 & e2 & -> & K1 & K2). exists (b ++ e1), e2.
      rewrite <- app_assoc. repeat split; auto. now constructor.
Qed.
Lemma matches_block : forall l b, Forall (allowed l) b -> matches [AWrites l] b.
Proof. intros. rewrite <- (app_nil_r b). constructor; auto. constructor. Qed.
Lemma matches_calls : forall cs, matches (map ACall cs) (map Call cs).
Proof. induction cs; cbn; constructor; auto. Qed.
Lemma matches_repeat : forall k a e, matches a e -> matches (concat (repeat a k)) (concat (repeat e k)).
Proof. induction k; intros; cbn; [constructor | apply matches_app; auto]. Qed.

(** what the others see of a call, whatever the process did before *)
Definition seen (c : call) : wire :=
  match c with Compress o m => Assemble o m | MatZero o => Assemble o Add | _ => Enter c end.
Definition calls (a : list aev) : list wire :=
  flat_map (fun x => match x with ACall c => [seen c] | AWrites _ => [] end) a.
Lemma calls_app : forall a b, calls (a ++ b) = calls a ++ calls b.
Proof. intros. unfold calls. apply flat_map_app. Qed.

(** contributions that may reach other processes *)
Definition shared (o : obj) : bool :=
  match o with
  | B_i _ | Normals_matrix | Normals_rhs | Surface_matrix | Surface_rhs | Gradients_matrix | Gradients_rhs
  | Hyp_gradients => true
  | _ => false
  end.
Definition is_krylov (o : obj) : bool := match o with Krylov => true | _ => false end.
Definition dok (x : obj * nat * wval) : Prop :=
  let '(o, i, v) := x in shared o = true \/ (o = Krylov /\ v = Wzero).

(** ** Abstract states *)
Definition aval := (option mode * wk)%type.
Definition sat_val (a : aval) (l : option mode) (q : list (nat * wval)) : Prop :=
  (l = None \/ l = fst a) /\
  match snd a with KMine => q = [] | KZero => Forall (fun e => snd e = Wzero) q | KAny => True end.
Definition sat (A : obj -> aval) (st : pst) : Prop := forall o, sat_val (A o) (last st o) (queue st o).
Definition wjoin (k k' : wk) : wk :=
  match k, k' with KAny, _ | _, KAny => KAny | KZero, _ | _, KZero => KZero | _, _ => KMine end.
Definition wleb (k k' : wk) : bool :=
  match k, k' with KMine, _ | _, KAny | KZero, KZero => true | _, _ => false end.
Definition compat (a : option mode) (m : mode) : bool :=
  match a with None => true | Some m' => mode_eqb m' m end.
Definition allow (o : obj) (k : wk) : bool :=
  match k with KMine => true | KZero => shared o || is_krylov o | KAny => shared o end.

(** clearing the object loses no contribution to a shared object *)
Definition keeps (o : obj) (k : wk) : bool := negb (shared o) || wleb k KMine.

Definition acall (c : call) (A : obj -> aval) : option (obj -> aval) :=
  match c with
  | Compress o m => if compat (fst (A o)) m && allow o (snd (A o)) then Some (set_obj A o (None, KMine)) else None
  | MatZero o => if compat (fst (A o)) Add && keeps o (snd (A o)) then Some (set_obj A o (None, KMine)) else None
  | Reinit o | Assign o => if keeps o (snd (A o)) then Some (set_obj A o (None, KMine)) else None
  | Import o => if keeps o (snd (A o)) then Some (set_obj A o (Some Insert, KMine)) else None
  | _ => Some A
  end.
Fixpoint awrites (l : list (obj * mode * wk)) (A : obj -> aval) : option (obj -> aval) :=
  match l with
  | [] => Some A
  | (o, m, k) :: l =>
      if compat (fst (A o)) m then awrites l (set_obj A o (Some m, wjoin k (snd (A o)))) else None
  end.
Fixpoint acheck (a : list aev) (A : obj -> aval) : option (obj -> aval) :=
  match a with
  | [] => Some A
  | ACall c :: a => match acall c A with Some A' => acheck a A' | None => None end
  | AWrites l :: a => match awrites l A with Some A' => acheck a A' | None => None end
  end.
Definition aleb (a b : aval) : bool :=
  match fst a, fst b with
  | None, _ => true
  | Some m, Some m' => mode_eqb m m'
  | _, _ => false
  end && wleb (snd a) (snd b).
Definition leq_all (A B : obj -> aval) : bool := forallb (fun o => aleb (A o) (B o)) all_objs.
Definition checks (A : obj -> aval) (a : list aev) (B : obj -> aval) : bool :=
  match acheck a A with Some A' => leq_all A' B | None => false end.

Lemma sat_val_leb : forall a b l q, aleb a b = true -> sat_val a l q -> sat_val b l q.
Proof.
  intros [a ka] [b kb] l q E (S1 & S2). unfold aleb in E. cbn in E. apply andb_prop in E. destruct E as [E1 E2].
  split; cbn.
  - destruct S1 as [S1 | S1]; auto. cbn in S1. subst l. destruct a as [m|]; auto.
    destruct b as [m'|]; try discriminate. right. f_equal. now apply mode_eqb_eq.
  - cbn in S2. destruct ka, kb; try discriminate; auto. now rewrite S2.
Qed.
Lemma sat_leq : forall A B st, leq_all A B = true -> sat A st -> sat B st.
Proof.
  intros A B st E S o. eapply sat_val_leb; [|apply S].
  unfold leq_all in E. rewrite forallb_forall in E. apply E. apply all_objs_complete.
Qed.

(** one write permitted by the abstract block *)
Lemma awrites_compat : forall l A A' o m k, awrites l A = Some A' -> In (o, m, k) l ->
  fst (A' o) = Some m /\ wleb k (snd (A' o)) = true.
Proof.
  assert (mono : forall l A A' o m, awrites l A = Some A' -> fst (A o) = Some m ->
            fst (A' o) = Some m /\ wleb (snd (A o)) (snd (A' o)) = true).
  { induction l as [|[[o1 m1] k1] l IH]; intros A A' o m E F; cbn in E.
    - injection E as <-. split; auto. now destruct (snd (A o)).
    - destruct (compat (fst (A o1)) m1) eqn:C; try discriminate.
      destruct (obj_dec o o1) as [-> | NE].
      + rewrite F in C. cbn in C. apply mode_eqb_eq in C. subst m1.
        destruct (IH _ _ o1 m E) as [G1 G2]; [now rewrite set_obj_same|]. split; auto.
        rewrite set_obj_same in G2. cbn in G2. destruct k1, (snd (A o1)), (snd (A' o1)); cbn in *; auto.
      + destruct (IH _ _ o m E) as [G1 G2]; [now rewrite set_obj_other|]. split; auto.
        now rewrite set_obj_other in G2. }
  induction l as [|[[o1 m1] k1] l IH]; intros A A' o m k E I; cbn in E; [destruct I|].
  destruct (compat (fst (A o1)) m1) eqn:C; try discriminate.
  destruct I as [I | I].
  - injection I as -> -> ->. destruct (mono _ _ _ o m E) as [G1 G2]; [now rewrite set_obj_same|].
    split; auto. rewrite set_obj_same in G2. cbn in G2.
    destruct k, (snd (A o)), (snd (A' o)); cbn in *; auto.
  - eapply IH; eauto.
Qed.
Lemma awrites_grow : forall l A A' o, awrites l A = Some A' -> aleb (A o) (A' o) = true.
Proof.
  induction l as [|[[o1 m1] k1] l IH]; intros A A' o E; cbn in E.
  - injection E as <-. unfold aleb. destruct (A o) as [[[]|] []]; reflexivity.
  - destruct (compat (fst (A o1)) m1) eqn:C; try discriminate.
    specialize (IH _ _ o E). destruct (obj_dec o o1) as [-> | NE].
    + rewrite set_obj_same in IH. unfold aleb in *. cbn in IH.
      destruct (A o1) as [[a|] ka], (A' o1) as [[b|] kb]; cbn in *; try discriminate;
        try apply mode_eqb_eq in C; subst;
        destruct k1, ka, kb; cbn in *; auto; rewrite ?andb_false_r in IH; try discriminate.
    + now rewrite set_obj_other in IH.
Qed.

(** contributions to object [o]: those written for other processes, those delivered *)
Definition offs (o : obj) (es : list ev) : list (nat * wval) :=
  flat_map (fun e => match e with
                     | Write p i _ v mine => if obj_eqb p o && negb mine then [(i, v)] else []
                     | _ => []
                     end) es.
Definition pick (o : obj) (d : list (obj * nat * wval)) : list (nat * wval) :=
  flat_map (fun x => if obj_eqb (fst (fst x)) o then [(snd (fst x), snd x)] else []) d.
Lemma offs_app : forall o a b, offs o (a ++ b) = offs o a ++ offs o b.
Proof. intros. apply flat_map_app. Qed.
Lemma pick_app : forall o a b, pick o (a ++ b) = pick o a ++ pick o b.
Proof. intros. apply flat_map_app. Qed.
Lemma obj_eqb_refl : forall o, obj_eqb o o = true.
Proof. intros. now apply obj_eqb_eq. Qed.
Lemma obj_eqb_neq : forall o p, o <> p -> obj_eqb o p = false.
Proof. intros o p N. destruct (obj_eqb o p) eqn:E; auto. apply obj_eqb_eq in E. contradiction. Qed.
Lemma pick_queue : forall o q, pick o (map (fun e : nat * wval => (o, fst e, snd e)) q) = q.
Proof.
  induction q as [|[i v] q IH]; auto. unfold pick in *. cbn [map flat_map fst snd]. rewrite obj_eqb_refl, IH. reflexivity.
Qed.
Lemma pick_queue_other : forall o p q, p <> o -> pick o (map (fun e : nat * wval => (p, fst e, snd e)) q) = [].
Proof.
  induction q as [|[i v] q IH]; auto. intros N. unfold pick in *. cbn [map flat_map fst snd]. rewrite obj_eqb_neq by auto. auto.
Qed.
(** nothing written for another process has got lost: it was delivered or is waiting *)
Definition kept (st : pst) (es : list ev) (st' : pst) (d : list (obj * nat * wval)) : Prop :=
  forall o, shared o = true -> pick o d ++ queue st' o = queue st o ++ offs o es.
Lemma kept_app : forall st e1 st1 d1 e2 st2 d2, kept st e1 st1 d1 -> kept st1 e2 st2 d2 -> kept st (e1 ++ e2) st2 (d1 ++ d2).
Proof.
  intros st e1 st1 d1 e2 st2 d2 K1 K2 o S. rewrite pick_app, offs_app, <- app_assoc, (K2 o S), app_assoc, (K1 o S).
  now rewrite app_assoc.
Qed.
Lemma kept_write : forall st o i m v mi st1 w d, write_obj st o i m v mi = (st1, w, d) -> kept st [Write o i m v mi] st1 d.
Proof.
  intros st o i m v mi st1 w d E p S. unfold write_obj in E.
  assert (Of : offs p [Write o i m v mi] = if obj_eqb o p && negb mi then [(i, v)] else []).
  { unfold offs. cbn. now rewrite app_nil_r. }
  rewrite Of. destruct (obj_dec o p) as [<- | NE].
  - rewrite obj_eqb_refl. destruct (last st o) as [m'|]; [destruct (mode_eqb m m')|]; injection E as <- <- <-;
      cbn [queue]; rewrite set_obj_same; try rewrite pick_queue; destruct mi; cbn; rewrite ?app_nil_r; auto.
  - rewrite obj_eqb_neq by auto. cbn [andb]. rewrite app_nil_r.
    destruct (last st o) as [m'|]; [destruct (mode_eqb m m')|]; injection E as <- <- <-;
      cbn [queue]; rewrite set_obj_other by auto; try rewrite pick_queue_other by auto; auto.
Qed.
Lemma kept_clear : forall st c o l, (shared o = true -> queue st o = []) -> kept st [Call c] (clear_obj st o l) [].
Proof.
  intros st c o l K p S. cbn [offs flat_map clear_obj queue pick app]. rewrite app_nil_r.
  destruct (obj_dec p o) as [-> | NE].
  - rewrite set_obj_same. symmetry. auto.
  - now rewrite set_obj_other.
Qed.
Lemma kept_compress : forall st c o l, kept st [Call c] (clear_obj st o l) (map (fun e => (o, fst e, snd e)) (queue st o)).
Proof.
  intros st c o l p S. cbn [offs flat_map clear_obj queue]. rewrite app_nil_r.
  destruct (obj_dec p o) as [-> | NE].
  - rewrite set_obj_same, pick_queue. cbn. now rewrite app_nil_r.
  - rewrite set_obj_other, pick_queue_other by auto. reflexivity.
Qed.
Lemma kept_same : forall st c, kept st [Call c] st [].
Proof. intros st c p S. cbn. now rewrite app_nil_r. Qed.
Lemma kept_nil : forall st, kept st [] st [].
Proof. intros st p S. cbn. now rewrite app_nil_r. Qed.

(** a block of writes under the state reached after it: stays inside that state, nothing is seen *)
Lemma run_block : forall l A, (forall o m k, In (o, m, k) l -> fst (A o) = Some m /\ wleb k (snd (A o)) = true) ->
  forall b st, Forall (allowed l) b -> sat A st ->
  exists st', run_evs st b = Some (st', [], []) /\ sat A st' /\ kept st b st' [].
Proof.
  intros l A C. induction b as [|e b IH]; intros st F S.
  - exists st. split; [reflexivity|]. split; [exact S | apply kept_nil].
  - inversion F as [|? ? A1 F']; subst.
    assert (wr : forall o i m v mine, (exists k, In (o, m, k) l /\ okw k v mine) ->
              exists st1, write_obj st o i m v mine = (st1, [], []) /\ sat A st1).
    { intros o i m v mi (k & I & O). destruct (C _ _ _ I) as [C1 C2].
      destruct (S o) as [S1 S2]. unfold write_obj.
      assert (N : sat A {| last := set_obj (last st) o (Some m);
                           queue := set_obj (queue st) o (if mi then queue st o else queue st o ++ [(i, v)]) |}).
      { intros p. destruct (obj_dec p o) as [-> | NE].
        - cbn. rewrite !set_obj_same. split; [right; auto|].
          destruct (snd (A o)) eqn:EA; auto.
          + destruct mi; auto. destruct k; try discriminate. destruct O as [O | O]; [discriminate | destruct O].
          + destruct mi; auto. apply Forall_app. split; auto. constructor; auto. cbn.
            destruct O as [O | O]; [discriminate|]. destruct k; try discriminate; [destruct O | auto].
        - cbn. rewrite !set_obj_other by auto. apply S. }
      destruct (last st o) as [m'|] eqn:L.
      - destruct S1 as [S1 | S1]; [discriminate|]. rewrite C1 in S1. injection S1 as ->.
        rewrite (proj2 (mode_eqb_eq m m) eq_refl). eexists. split; [reflexivity|]. exact N.
      - eexists. split; [reflexivity|]. exact N. }
    assert (N : exists st1, ev_step st e = Some (st1, [], []) /\ sat A st1 /\ kept st [e] st1 []).
    { destruct e; cbn in A1.
      - destruct (wr o i m v mine A1) as (st1 & E & S'). exists st1. split; [cbn; now rewrite E|].
        split; [exact S'|]. exact (kept_write _ _ _ _ _ _ _ _ _ E).
      - destruct A1.
      - destruct A1 as [-> (k & I)]. destruct (wr o 0 Insert Wsome true) as (st1 & E & S').
        + exists k. split; auto. now left.
        + exists st1. split; [cbn; now rewrite E|]. split; [exact S'|].
          pose proof (kept_write _ _ _ _ _ _ _ _ _ E) as K. intros p Sp. specialize (K p Sp).
          unfold offs in K. cbn [flat_map] in K. rewrite andb_false_r in K. exact K.
      - subst. exists st. split; [reflexivity|]. split; [exact S|]. intros p _. cbn. now rewrite app_nil_r. }
    destruct N as (st1 & E & S' & K'). destruct (IH st1 F' S') as (st2 & E2 & S2 & K2).
    exists st2. split; [cbn [run_evs]; now rewrite E, E2|]. split; [exact S2|].
    exact (kept_app _ [e] _ [] b _ [] K' K2).
Qed.

Lemma run_evs_app : forall a b st,
  run_evs st (a ++ b) =
  match run_evs st a with
  | None => None
  | Some (s1, w1, d1) => match run_evs s1 b with
                         | None => None
                         | Some (s2, w2, d2) => Some (s2, w1 ++ w2, d1 ++ d2)
                         end
  end.
Proof.
  induction a as [|e a IH]; intros b st; cbn.
  - destruct (run_evs st b) as [[[? ?] ?]|]; auto.
  - destruct (ev_step st e) as [[[s1 w1] d1]|]; auto. rewrite IH.
    destruct (run_evs s1 a) as [[[s2 w2] d2]|]; auto.
    destruct (run_evs s2 b) as [[[s3 w3] d3]|]; auto. now rewrite !app_assoc.
Qed.

Lemma sat_clear : forall A st o a l, sat A st -> (l = None \/ l = a) ->
  sat (set_obj A o (a, KMine)) (clear_obj st o l).
Proof.
  intros A st o a l S K p. unfold clear_obj. cbn. destruct (obj_dec p o) as [-> | NE].
  - rewrite !set_obj_same. split; cbn; auto.
  - rewrite !set_obj_other by auto. apply S.
Qed.

Lemma keeps_empty : forall A st o, sat A st -> keeps o (snd (A o)) = true -> shared o = true -> queue st o = [].
Proof.
  intros A st o S K Sh. unfold keeps in K. rewrite Sh in K. cbn in K. destruct (S o) as [_ S2].
  destruct (snd (A o)); try discriminate. exact S2.
Qed.
Lemma run_call : forall c A A' st, acall c A = Some A' -> sat A st ->
  exists st' d, call_obj st c = Some (st', [seen c], d) /\ sat A' st' /\ Forall dok d /\ kept st [Call c] st' d.
Proof.
  intros c A A' st E S. destruct c; cbn in E; cbn [call_obj seen].
  - destruct (compat (fst (A o)) m) eqn:C; try discriminate. cbn in E.
    destruct (allow o (snd (A o))) eqn:W; try discriminate. injection E as <-.
    destruct (S o) as [S1 S2].
    assert (D : Forall dok (map (fun e => (o, fst e, snd e)) (queue st o))).
    { apply Forall_forall. intros x I. apply in_map_iff in I. destruct I as (e & <- & I). cbn.
      destruct (snd (A o)) eqn:EA; cbn in W.
      - rewrite S2 in I. destruct I.
      - rewrite Forall_forall in S2. specialize (S2 _ I). apply orb_prop in W. destruct W as [W|W]; auto.
        right. split; auto. destruct o; try discriminate. reflexivity.
      - auto. }
    destruct (last st o) as [m'|] eqn:L.
    + destruct S1 as [S1|S1]; [discriminate|]. rewrite <- S1 in C. cbn in C. apply mode_eqb_eq in C. subst m'.
      rewrite (proj2 (mode_eqb_eq m m) eq_refl). do 2 eexists. split; [reflexivity|]. split; [apply sat_clear; auto|].
      split; [exact D | apply kept_compress].
    + do 2 eexists. split; [reflexivity|]. split; [apply sat_clear; auto|]. split; [exact D | apply kept_compress].
  - destruct (compat (fst (A o)) Add) eqn:C; try discriminate. cbn in E.
    destruct (keeps o (snd (A o))) eqn:K; try discriminate. injection E as <-.
    destruct (S o) as [S1 S2]. do 2 eexists. split.
    + assert (E : match last st o with Some m => m | None => Add end = Add).
      { destruct (last st o) as [m'|]; auto. destruct S1 as [S1|S1]; [discriminate|]. rewrite <- S1 in C. cbn in C.
        now apply mode_eqb_eq in C. }
      rewrite E. reflexivity.
    + split; [apply sat_clear; auto|]. split; [constructor|]. apply kept_clear. intros Sh. eapply keeps_empty; eauto.
  - destruct (keeps o (snd (A o))) eqn:K; try discriminate. injection E as <-. do 2 eexists. split; [reflexivity|].
    split; [apply sat_clear; auto|]. split; [constructor|]. apply kept_clear. intros Sh. eapply keeps_empty; eauto.
  - destruct (keeps o (snd (A o))) eqn:K; try discriminate. injection E as <-. do 2 eexists. split; [reflexivity|].
    split; [apply sat_clear; auto|]. split; [constructor|]. apply kept_clear. intros Sh. eapply keeps_empty; eauto.
  - destruct (keeps o (snd (A o))) eqn:K; try discriminate. injection E as <-. do 2 eexists. split; [reflexivity|].
    split; [apply sat_clear; auto|]. split; [constructor|]. apply kept_clear. intros Sh. eapply keeps_empty; eauto.
  - injection E as <-. do 2 eexists. split; [reflexivity|]. split; [exact S|]. split; [constructor | apply kept_same].
  - injection E as <-. do 2 eexists. split; [reflexivity|]. split; [exact S|]. split; [constructor | apply kept_same].
  - injection E as <-. do 2 eexists. split; [reflexivity|]. split; [exact S|]. split; [constructor | apply kept_same].
  - injection E as <-. do 2 eexists. split; [reflexivity|]. split; [exact S|]. split; [constructor | apply kept_same].
Qed.

(** ** Semantic triples *)
Definition sem (A : obj -> aval) (a : list aev) (B : obj -> aval) : Prop :=
  forall st e, sat A st -> matches a e ->
  exists st' d, run_evs st e = Some (st', calls a, d) /\ sat B st' /\ Forall dok d /\ kept st e st' d.

Lemma acheck_sound : forall a A A', acheck a A = Some A' -> sem A a A'.
Proof.
  induction a as [|x a IH]; intros A A' E st e S M.
  - cbn in E. injection E as <-. inversion M; subst. exists st, []. split; [reflexivity|].
    split; [exact S|]. split; [constructor | apply kept_nil].
  - cbn in E. destruct x.
    + destruct (acall c A) as [A1|] eqn:E1; try discriminate. inversion M as [|? ? ? M'|]; subst.
      destruct (run_call c A A1 st E1 S) as (st1 & d1 & R1 & S1 & D1 & K1).
      destruct (IH _ _ E st1 _ S1 M') as (st2 & d2 & R2 & S2 & D2 & K2).
      exists st2, (d1 ++ d2). split.
      * cbn [run_evs ev_step]. rewrite R1, R2. reflexivity.
      * split; [exact S2|]. split; [apply Forall_app; auto|]. exact (kept_app _ [Call c] _ _ _ _ _ K1 K2).
    + destruct (awrites l A) as [A1|] eqn:E1; try discriminate. inversion M as [| |? b ? ? FB M']; subst.
      assert (S' : sat A1 st).
      { intros o. eapply sat_val_leb; [eapply awrites_grow; eauto | apply S]. }
      destruct (run_block l A1 (fun o m k => awrites_compat l A A1 o m k E1) b st FB S') as (st1 & R1 & S1 & K1).
      destruct (IH _ _ E st1 _ S1 M') as (st2 & d2 & R2 & S2 & D2 & K2).
      exists st2, d2. split; [rewrite run_evs_app, R1, R2; reflexivity|]. split; [exact S2|]. split; [exact D2|].
      exact (kept_app _ _ _ _ _ _ _ K1 K2).
Qed.
Lemma sem_checks : forall A a B, checks A a B = true -> sem A a B.
Proof.
  intros A a B E. unfold checks in E. destruct (acheck a A) as [A'|] eqn:E'; try discriminate.
  intros st e S M. destruct (acheck_sound _ _ _ E' st e S M) as (st' & d & R & S' & D & K).
  exists st', d. split; [exact R|]. split; [|split; [exact D | exact K]]. eapply sat_leq; eauto.
Qed.
Lemma sem_nil : forall A, sem A [] A.
Proof.
  intros A st e S M. inversion M; subst. exists st, []. split; [reflexivity|]. split; [exact S|].
  split; [constructor | apply kept_nil].
Qed.
Lemma sem_app : forall A B C a b, sem A a B -> sem B b C -> sem A (a ++ b) C.
Proof.
  intros A B C a b K1 K2 st e S M. destruct (matches_app_inv _ _ _ M) as (e1 & e2 & -> & M1 & M2).
  destruct (K1 st e1 S M1) as (st1 & d1 & R1 & S1 & D1 & P1).
  destruct (K2 st1 e2 S1 M2) as (st2 & d2 & R2 & S2 & D2 & P2).
  exists st2, (d1 ++ d2). rewrite run_evs_app, R1, R2, calls_app. split; [reflexivity|]. split; [exact S2|].
  split; [apply Forall_app; auto|]. exact (kept_app _ _ _ _ _ _ _ P1 P2).
Qed.
Lemma sem_repeat : forall A a k, sem A a A -> sem A (concat (repeat a k)) A.
Proof.
  intros A a k K. induction k; cbn.
  - apply sem_nil.
  - eapply sem_app; eauto.
Qed.
Lemma sem_post : forall A a B C, sem A a B -> leq_all B C = true -> sem A a C.
Proof.
  intros A a B C K L st e S M. destruct (K st e S M) as (st' & d & R & S' & D & P).
  exists st', d. split; [exact R|]. split; [|split; [exact D | exact P]]. eapply sat_leq; eauto.
Qed.

(** ** Abstract programs of the routines *)
Definition ac := map ACall.
Definition W (l : list (obj * mode * wk)) := [AWrites l].

Definition a_shift (o : obj) : list aev := W [(o, Add, KMine)].
Definition a_reinit (direct : bool) : list aev :=
  ac ([Barrier] ++ map Reinit [System_rhs; Sol; Alpha; Serv_phi; Serv_dphi; Serv_tmp] ++
      (if direct then [Reinit Full_pattern; Use Full_pattern; Reinit Neumann_matrix; Reinit Dirichlet_matrix] else []) ++
      [Reinit Band_pattern; Reinit Dirichlet_nodes; Reinit Neumann_nodes]) ++
  W [(Dirichlet_nodes, Insert, KMine); (Neumann_nodes, Insert, KMine)] ++
  ac ([Allreduce; Use Dirichlet_nodes] ++ [Reinit Helper; Reinit Vector_pattern; Use Vector_pattern] ++ [Reinit Hyp_alpha] ++
      map (fun p => Reinit (C_ij (fst p) (snd p))) axes2 ++ map (fun a => Reinit (B_i a)) axes).
Definition a_project1 (sol mat rhs : obj) : list aev :=
  ac [Reinit sol; Reinit rhs; Reinit mat] ++
  W [(mat, Add, KAny); (rhs, Add, KAny)] ++
  ac [Compress mat Add; Compress rhs Add; Use mat; Use sol].
Definition a_project2 (mat rhs : obj) : list aev := ac [Use mat; Use rhs; Allreduce].
Definition a_project3 (sol : obj) : list aev :=
  ac [Use sol; Reinit Ghost_vec; Import Ghost_vec] ++ W [(sol, Insert, KMine)] ++ ac [Compress sol Insert].
Definition a_project (sol mat rhs : obj) (k : nat) : list aev :=
  a_project1 sol mat rhs ++ concat (repeat (a_project2 mat rhs) k) ++ a_project3 sol.
Definition a_surface k := ac [Reinit Ghost_phi; Import Ghost_phi] ++ a_project Surface Surface_matrix Surface_rhs k.
Definition a_gradients k :=
  ac [Reinit Ghost_phi; Import Ghost_phi; Reinit Ghost_dphi; Import Ghost_dphi] ++
  a_project Gradients Gradients_matrix Gradients_rhs k.
Definition a_prepare := ac [Reinit Phi; Reinit Dphi_dn] ++ W [(Phi, Insert, KMine); (Tmp_rhs, Insert, KMine); (Dphi_dn, Insert, KMine)].
Definition a_assemble := ac [MatZero Neumann_matrix; MatZero Dirichlet_matrix] ++ W [(Neumann_matrix, Add, KMine); (Dirichlet_matrix, Add, KMine)].
Definition a_direct_integrals :=
  ac [Reinit Helper; Reinit Init_pattern; Use Init_pattern; Reinit Prec_neumann; Reinit Prec_dirichlet; Reinit Init_prec] ++
  W [(Prec_neumann, Add, KMine); (Prec_dirichlet, Add, KMine); (Init_prec, Add, KMine)].
Definition a_products (N D : obj) :=
  ac [Use Prec_neumann; Use Prec_dirichlet] ++ W [(D, Add, KAny); (N, Add, KAny)] ++ W [(D, Add, KMine); (N, Add, KMine)].
Definition a_alpha (direct fresh : bool) :=
  (if fresh then ac [Reinit Ones] ++ a_shift Ones ++ ac [Reinit Zeros; Reinit Dummy] else []) ++
  (if direct then ac [Use Neumann_matrix] else ac [Use Ones; Use Zeros] ++ a_products Alpha Dummy).
Definition a_hypersingular :=
  W ((Hyp_alpha, Insert, KMine) :: map (fun p => (C_ij (fst p) (snd p), Insert, KMine)) axes2) ++
  ac [Reinit Error_vec; Use Error_vec; Use Error_vec; Use Error_vec; Use Alpha] ++
  W (map (fun a => (B_i a, Add, KAny)) axes) ++
  ac (map (fun a => Compress (B_i a) Add) axes).
Definition a_compute_rhs (direct : bool) :=
  ac [Assign Serv_phi; Assign Serv_dphi; Reinit Rhs_N; Reinit Rhs_D; Use Serv_phi; Use Serv_dphi] ++
  (if direct then ac [Use Neumann_matrix; Use Serv_phi; Use System_rhs; Use Dirichlet_matrix]
   else ac [Use Serv_phi; Use Serv_dphi] ++ a_products Rhs_N Rhs_D ++ ac [Use Serv_phi; Use System_rhs]).
Definition a_constraints k := a_surface k ++ ac [Use Surface; Use Normals; Use Dirichlet_nodes; Use Tmp_rhs].
Definition a_distribute := W [(System_rhs, Insert, KMine)] ++ ac [Compress System_rhs Insert].
Definition a_band (first : bool) :=
  ac (if first then [Use Band_pattern; Reinit Band_system] else [MatZero Band_system]) ++
  W [(Band_system, Add, KMine)] ++ ac [Use Band_system].
Definition a_fma_prec :=
  ac [Reinit Final_pattern; Use Final_pattern; Reinit Final_prec] ++ W [(Final_prec, Insert, KMine)] ++
  ac [Compress Final_prec Insert] ++ W [(Final_prec, Add, KMine)] ++
  ac [Compress Final_prec Add; Compress Final_prec Insert; Use Final_prec].
Definition a_vmult (direct h : bool) (dst : obj) :=
  ac [Assign Serv_phi] ++ (if h then [] else ac [Use Serv_phi] ++ a_shift Serv_phi) ++
  ac [Assign Serv_dphi; Reinit Vm_N; Reinit Vm_D; Assign dst; Use Serv_phi; Use Serv_dphi] ++
  (if direct then ac [Use Dirichlet_matrix; Use dst; Use Neumann_matrix; Use Serv_phi; Use dst]
   else ac [Use Serv_phi; Use Serv_dphi] ++ a_products Vm_N Vm_D ++ ac [Use Serv_phi; Use dst]) ++
  (if h then [] else ac [Use dst] ++ a_shift dst) ++ ac [Compress dst Add].
Definition a_cc_vmult (direct h : bool) (dst : obj) :=
  ac [Reinit Loc_src; Import Loc_src] ++ a_vmult direct h dst ++ W [(dst, Add, KZero)] ++ ac [Compress dst Add].
Definition a_gmres (direct h : bool) (k : nat) :=
  ac [Reinit Krylov; Use Sol] ++
  concat (repeat (a_cc_vmult direct h Krylov ++ ac [Use Krylov; Allreduce]) k) ++ ac [Use Sol].
Definition a_write_back := W [(Phi, Insert, KMine); (Dphi_dn, Insert, KMine)] ++ ac [Compress Phi Insert; Compress Dphi_dn Insert].
Definition a_solve_system1 (direct fresh : bool) :=
  ac [Assign System_rhs; Assign Sol; Assign Alpha] ++ a_alpha direct fresh ++ a_hypersingular ++ a_compute_rhs direct.
Definition a_solve_system2 (direct first : bool) :=
  a_distribute ++ (if direct then a_band first ++ ac [Use Sol] else a_fma_prec).
Definition a_solve_system (direct fresh first h : bool) (ks k : nat) :=
  a_solve_system1 direct fresh ++ a_constraints ks ++ a_solve_system2 direct first ++
  a_gmres direct h k ++ a_write_back.
Definition a_solve_problem (direct fresh first h : bool) (kn ks k : nat) :=
  ac [Reinit Phi; Reinit Dphi_dn; Reinit Tmp_rhs] ++
  a_project Normals Normals_matrix Normals_rhs kn ++ (a_prepare ++ (if direct then a_assemble else a_direct_integrals)) ++
  a_solve_system direct fresh first h ks k ++
  (if h then [] else W [] ++ ac [Bcast] ++ a_shift Phi).
Definition a_hyp_gradients :=
  ac [Reinit Hyp_gradients; Reinit Hyp_b; Use Phi; Use Dphi_dn] ++ W [(Hyp_gradients, Add, KAny)] ++
  ac [Compress Hyp_gradients Add; Compress Hyp_b Add] ++ W [(Hyp_gradients, Insert, KAny)] ++ ac [Compress Hyp_gradients Insert].
Definition a_errors k := a_gradients k ++ ac [Use Gradients; Use Phi; Use Dphi_dn; Use Normals].
Definition a_output := ac [Use Phi; Use Dphi_dn; Use Alpha; Use Gradients; Use Surface; Use Normals].

(** ** The programs of the processes match them *)
Section Match.
  Variables (np : nat) (y : cyc) (me : nat).

  Lemma mine_own : forall i, In i (mine y me) -> own y me i = true.
  Proof. intros i I. apply filter_In in I. tauto. Qed.
  Lemma w_mine : forall o m i l, own y me i = true -> In (o, m, KMine) l -> allowed l (w y me o m i).
  Proof. intros. cbn. exists KMine. split; auto. left; auto. Qed.
  Lemma w_any : forall o m i l, In (o, m, KAny) l -> allowed l (w y me o m i).
  Proof. intros. cbn. exists KAny. split; auto. right; auto. Qed.
  Lemma vw_any : forall o m i l, In (o, m, KAny) l -> allowed l (vw y me o m i).
  Proof. intros. cbn. exists KAny. split; auto. right; auto. Qed.
  Lemma vw_mine : forall o m i l, vown y me i = true -> In (o, m, KMine) l -> allowed l (vw y me o m i).
  Proof. intros. cbn. exists KMine. split; auto. left; auto. Qed.

  Lemma Forall_fm : forall T U (P : U -> Prop) (f : T -> list U) l,
    (forall x, In x l -> Forall P (f x)) -> Forall P (flat_map f l).
  Proof.
    intros T U P f l K. apply Forall_forall. intros u I. apply in_flat_map in I. destruct I as (x & I & J).
    specialize (K x I). rewrite Forall_forall in K. auto.
  Qed.
  Lemma Forall_mp : forall T U (P : U -> Prop) (f : T -> U) l,
    (forall x, In x l -> P (f x)) -> Forall P (map f l).
  Proof. intros T U P f l K. apply Forall_forall. intros u I. apply in_map_iff in I. destruct I as (x & <- & I). auto. Qed.

  Ltac mcalls := lazymatch goal with |- matches (ac ?cs) ?e =>
      change e with (map Call cs); apply matches_calls end.
  Ltac inl := cbn; tauto.

  Lemma m_shift : forall o, matches (a_shift o) (p_shift y me o).
  Proof. intros. apply matches_block. apply Forall_mp. intros i I. apply w_mine; [now apply mine_own | inl]. Qed.

  Lemma m_reinit : matches (a_reinit (y_direct y)) (p_reinit y me).
  Proof.
    unfold a_reinit.
    match goal with |- matches (ac ?L1 ++ W ?l ++ ac ?L2) _ =>
      assert (E : p_reinit y me = map Call L1 ++
                    flat_map (fun i => [w y me Dirichlet_nodes Insert i; w y me Neumann_nodes Insert i]) (mine y me) ++
                    map Call L2) by (unfold p_reinit; destruct (y_direct y); reflexivity)
    end.
    rewrite E. apply matches_app; [apply matches_calls|]. apply matches_app; [|apply matches_calls].
    apply matches_block. apply Forall_fm. intros i I. apply mine_own in I.
    repeat constructor; apply w_mine; auto; inl.
  Qed.

  Lemma m_project : forall sol mat rhs k, matches (a_project sol mat rhs k) (p_project y me sol mat rhs k).
  Proof.
    intros. unfold a_project, p_project, a_project1, a_project3. rewrite <- !app_assoc.
    apply matches_app; [mcalls|].
    apply matches_app.
    { apply matches_block. apply Forall_fm. intros [c rows] I. cbn [fst snd].
      destruct (c_sub c =? me); [|constructor]. apply Forall_fm. intros i J.
      repeat constructor; apply vw_any; inl. }
    apply matches_app; [mcalls|].
    apply matches_app.
    { apply matches_repeat. unfold a_project2; mcalls. }
    apply matches_app; [mcalls|].
    apply matches_app; [|mcalls].
    apply matches_block. apply Forall_mp. intros i I. apply filter_In in I. apply vw_mine; [tauto | inl].
  Qed.
  Lemma m_surface : matches (a_surface (y_its y)) (p_surface y me).
  Proof. apply matches_app; [mcalls | apply m_project]. Qed.
  Lemma m_gradients : matches (a_gradients (y_itg y)) (p_gradients y me).
  Proof. apply matches_app; [mcalls | apply m_project]. Qed.

  Lemma m_prepare : matches a_prepare (p_prepare y me).
  Proof.
    apply matches_app; [mcalls|]. apply matches_block. apply Forall_fm. intros c I. apply Forall_fm. intros i J.
    destruct (own y me i) eqn:O; [|constructor].
    destruct (is_dirichlet_cell _ _); repeat constructor; apply w_mine; auto; inl.
  Qed.
  Lemma m_assemble : matches a_assemble (p_assemble_system y me).
  Proof.
    apply matches_app; [mcalls|]. apply matches_block. apply Forall_fm. intros c I. apply Forall_fm. intros i J.
    destruct (own y me i) eqn:O; [|constructor]. apply Forall_fm. intros j _.
    repeat constructor; apply w_mine; auto; inl.
  Qed.
  Lemma m_direct_integrals : matches a_direct_integrals (p_direct_integrals y me).
  Proof.
    apply matches_app; [mcalls|]. apply matches_block. apply Forall_fm. intros b I. apply Forall_fm. intros i J.
    destruct (own y me i) eqn:O; [|constructor]. apply Forall_fm. intros j _.
    repeat constructor; apply w_mine; auto; inl.
  Qed.
  Lemma m_products : forall N D, matches (a_products N D) (p_products y me N D).
  Proof.
    intros. apply matches_app; [mcalls|]. apply matches_app.
    - apply matches_block. apply Forall_fm. intros b I. apply Forall_fm. intros i J.
      repeat constructor; apply w_any; inl.
    - apply matches_block. apply Forall_fm. intros b I. apply Forall_fm. intros i J.
      destruct (own y me i) eqn:O; [|constructor]. repeat constructor; apply w_mine; auto; inl.
  Qed.
  Lemma m_alpha : forall fresh, matches (a_alpha (y_direct y) fresh) (p_alpha y me fresh).
  Proof.
    intros. unfold a_alpha, p_alpha. apply matches_app.
    - destruct fresh; [|constructor]. apply matches_app; [mcalls|]. apply matches_app; [apply m_shift | mcalls].
    - destruct (y_direct y); [mcalls|]. apply matches_app; [mcalls | apply m_products].
  Qed.
  Lemma m_hypersingular : matches a_hypersingular (p_hypersingular y me).
  Proof.
    unfold a_hypersingular, p_hypersingular. apply matches_app.
    { apply matches_block. apply Forall_fm. intros i I. apply mine_own in I. constructor.
      - apply w_mine; auto. now left.
      - apply Forall_mp. intros p J. apply w_mine; auto. right. apply (in_map (fun p => (C_ij (fst p) (snd p), Insert, KMine)) _ _ J). }
    apply matches_app; [mcalls|]. apply matches_app; [|mcalls].
    apply matches_block. apply Forall_fm. intros c I. apply Forall_fm. intros i J.
    destruct (own y me i) eqn:O; [|constructor]. apply Forall_fm. intros j _. apply Forall_mp. intros a Ia.
    apply w_any. apply (in_map (fun a => (B_i a, Add, KAny)) _ _ Ia).
  Qed.
  Lemma m_compute_rhs : matches (a_compute_rhs (y_direct y)) (p_compute_rhs y me).
  Proof.
    unfold a_compute_rhs, p_compute_rhs. apply matches_app; [mcalls|].
    destruct (y_direct y); [mcalls|]. apply matches_app; [mcalls|]. apply matches_app; [apply m_products | mcalls].
  Qed.
  Lemma m_constraints : matches (a_constraints (y_its y)) (p_constraints y me).
  Proof. apply matches_app; [apply m_surface | mcalls]. Qed.
  Lemma m_distribute : matches a_distribute (p_distribute_rhs y me).
  Proof.
    apply matches_app; [|mcalls]. apply matches_block. apply Forall_mp. intros i I. apply w_mine; [now apply mine_own | inl].
  Qed.
  Lemma m_band : forall first, matches (a_band first) (p_band y me first).
  Proof.
    intros. apply matches_app; [destruct first; mcalls|]. apply matches_app; [|mcalls].
    apply matches_block. apply Forall_fm. intros i I. apply mine_own in I.
    destruct (y_con y i); [|destruct (y_isdir y i)]; repeat constructor; apply w_mine; auto; inl.
  Qed.
  Lemma m_fma_prec : matches a_fma_prec (p_fma_preconditioner y me).
  Proof.
    apply matches_app; [mcalls|]. apply matches_app.
    { apply matches_block. apply Forall_fm. intros i I. apply mine_own in I.
      destruct (y_con y i).
      - constructor; [apply w_mine; auto; inl|]. apply Forall_mp. intros j _. apply w_mine; auto; inl.
      - apply Forall_mp. intros j _. apply w_mine; auto; inl. }
    apply matches_app; [mcalls|]. apply matches_app; [|mcalls].
    apply matches_block. apply Forall_mp. intros i I. apply w_mine; [now apply mine_own | inl].
  Qed.
  Lemma m_vmult : forall dst, matches (a_vmult (y_direct y) (hd np y) dst) (p_vmult np y me dst).
  Proof.
    intros. unfold a_vmult, p_vmult. apply matches_app; [mcalls|]. apply matches_app.
    { destruct (hd np y); [constructor|]. apply matches_app; [mcalls | apply m_shift]. }
    apply matches_app; [mcalls|]. apply matches_app.
    { destruct (y_direct y); [mcalls|]. apply matches_app; [mcalls|]. apply matches_app; [apply m_products | mcalls]. }
    apply matches_app; [|mcalls].
    destruct (hd np y); [constructor|]. apply matches_app; [mcalls | apply m_shift].
  Qed.
  Lemma m_cc_vmult : forall dst, matches (a_cc_vmult (y_direct y) (hd np y) dst) (p_cc_vmult np y me dst).
  Proof.
    intros. apply matches_app; [mcalls|]. apply matches_app; [apply m_vmult|].
    apply matches_app; [|mcalls]. apply matches_block. apply Forall_fm. intros i _.
    assert (Z : allowed [(dst, Add, KZero)] (Write dst i Add Wzero (own y me i))).
    { cbn. exists KZero. split; [tauto|]. right. reflexivity. }
    destruct (y_con y i).
    - destruct (own y me i) eqn:O; [|auto]. 
      assert (Z' : allowed [(dst, Add, KZero)] (w y me dst Add i)).
      { cbn. exists KZero. split; [tauto|]. left. auto. }
      constructor; auto. apply Forall_mp; auto.
    - auto.
  Qed.
  Lemma m_gmres : matches (a_gmres (y_direct y) (hd np y) (y_it y)) (p_gmres np y me).
  Proof.
    apply matches_app; [mcalls|]. apply matches_app; [|mcalls]. apply matches_repeat.
    apply matches_app; [apply m_cc_vmult | mcalls].
  Qed.
  Lemma m_write_back : nonempty y me = true -> matches a_write_back (p_write_back y me).
  Proof.
    intros NE. unfold a_write_back, p_write_back.
    change (map (fun i => if y_isdir y i then w y me Dphi_dn Insert i else w y me Phi Insert i) (mine y me) ++
            [First Phi (nonempty y me); First Dphi_dn (nonempty y me);
             Call (Compress Phi Insert); Call (Compress Dphi_dn Insert)])
      with (map (fun i => if y_isdir y i then w y me Dphi_dn Insert i else w y me Phi Insert i) (mine y me) ++
            [First Phi (nonempty y me); First Dphi_dn (nonempty y me)] ++
            [Call (Compress Phi Insert); Call (Compress Dphi_dn Insert)]).
    rewrite app_assoc. apply matches_app; [|mcalls]. apply matches_block. apply Forall_app. split.
    - apply Forall_mp. intros i I. apply mine_own in I. destruct (y_isdir y i); apply w_mine; auto; inl.
    - repeat constructor; auto; exists KMine; inl.
  Qed.
  Lemma m_solve_system : forall fresh first, nonempty y me = true ->
    matches (a_solve_system (y_direct y) fresh first (hd np y) (y_its y) (y_it y)) (p_solve_system np y me fresh first).
  Proof.
    intros fresh first NE. unfold a_solve_system, p_solve_system, a_solve_system1, a_solve_system2. rewrite <- !app_assoc.
    apply matches_app; [mcalls|]. apply matches_app; [apply m_alpha|]. apply matches_app; [apply m_hypersingular|].
    apply matches_app; [apply m_compute_rhs|]. apply matches_app; [apply m_constraints|].
    apply matches_app; [apply m_distribute|]. apply matches_app.
    { destruct (y_direct y); [apply matches_app; [apply m_band | mcalls] | apply m_fma_prec]. }
    apply matches_app; [apply m_gmres | now apply m_write_back].
  Qed.
  Lemma m_solve_problem : forall fresh first, nonempty y me = true ->
    matches (a_solve_problem (y_direct y) fresh first (hd np y) (y_itn y) (y_its y) (y_it y)) (p_solve_problem np y me fresh first).
  Proof.
    intros fresh first NE. unfold a_solve_problem, p_solve_problem. rewrite <- !app_assoc.
    apply matches_app; [mcalls|]. apply matches_app; [apply m_project|]. apply matches_app; [apply m_prepare|].
    apply matches_app.
    { destruct (y_direct y); [apply m_assemble | apply m_direct_integrals]. }
    apply matches_app; [now apply m_solve_system|].
    destruct (hd np y); [constructor|]. apply matches_app.
    - apply matches_block. destruct (me =? 0); repeat constructor. exact NE.
    - apply matches_app; [mcalls | apply m_shift].
  Qed.
  Lemma m_hyp_gradients : matches a_hyp_gradients (p_hyp_gradients y me).
  Proof.
    apply matches_app; [mcalls|]. apply matches_app.
    { apply matches_block. apply Forall_fm. intros c _. apply Forall_fm. intros i _.
      destruct (own y me i); [|constructor]. apply Forall_mp. intros a _. apply vw_any; inl. }
    apply matches_app; [mcalls|]. apply matches_app; [|mcalls].
    apply matches_block. apply Forall_fm. intros i _. apply Forall_mp. intros a _. apply vw_any; inl.
  Qed.
  Lemma m_errors : matches (a_errors (y_itg y)) (p_errors y me).
  Proof. apply matches_app; [apply m_gradients | mcalls]. Qed.
  Lemma m_output : matches a_output p_output.
  Proof. unfold a_output; mcalls. Qed.
End Match.

(** ** The abstract programs keep an invariant *)
(** unfinished writes and undelivered contributions at any time between public calls *)
Definition Inv (o : obj) : aval :=
  match o with
  | Dirichlet_nodes | Neumann_nodes | Hyp_alpha | C_ij _ _ => (Some Insert, KMine)
  | Tmp_rhs | Loc_src | Ghost_phi | Ghost_dphi | Ghost_vec => (Some Insert, KMine)
  | Neumann_matrix | Dirichlet_matrix | Band_system | Prec_neumann | Prec_dirichlet | Init_prec => (Some Add, KMine)
  | Ones | Serv_phi | Phi => (Some Add, KMine)
  | Alpha | Dummy | Vm_N | Vm_D | Rhs_N | Rhs_D => (Some Add, KAny)
  | _ => (None, KMine)
  end.
(** inside solve_problem *)
Definition InvS (o : obj) : aval :=
  match o with Phi | Dphi_dn => (Some Insert, KMine) | _ => Inv o end.

Lemma i_reinit : forall d, sem Inv (a_reinit d) Inv.
Proof. intros []; apply sem_checks; vm_compute; reflexivity. Qed.
Lemma i_output : sem Inv a_output Inv.
Proof. apply sem_checks; vm_compute; reflexivity. Qed.
Lemma i_hyp : sem Inv a_hyp_gradients Inv.
Proof. apply sem_checks; vm_compute; reflexivity. Qed.

Lemma i_project : forall sol mat rhs A B k,
  checks A (a_project1 sol mat rhs) B = true -> checks B (a_project2 mat rhs) B = true ->
  checks B (a_project3 sol) B = true -> sem A (a_project sol mat rhs k) B.
Proof.
  intros sol mat rhs A B k C1 C2 C3. unfold a_project.
  eapply sem_app; [apply sem_checks; exact C1|]. eapply sem_app.
  - apply sem_repeat. apply sem_checks. exact C2.
  - apply sem_checks. exact C3.
Qed.
Lemma i_errors : forall k, sem Inv (a_errors k) Inv.
Proof.
  intros. unfold a_errors, a_gradients. rewrite <- app_assoc. eapply sem_app; [apply (sem_checks _ _ Inv); vm_compute; reflexivity|].
  eapply sem_app; [apply (i_project _ _ _ _ Inv); vm_compute; reflexivity|].
  apply sem_checks; vm_compute; reflexivity.
Qed.
Lemma i_solve : forall direct fresh first h kn ks k,
  sem Inv (a_solve_problem direct fresh first h kn ks k) Inv.
Proof.
  intros. unfold a_solve_problem.
  eapply sem_app; [apply (sem_checks _ _ InvS); vm_compute; reflexivity|].
  eapply sem_app; [apply (i_project _ _ _ _ InvS); vm_compute; reflexivity|].
  eapply sem_app; [apply (sem_checks _ _ InvS); destruct direct; vm_compute; reflexivity|].
  eapply sem_app.
  - unfold a_solve_system.
    eapply sem_app; [apply (sem_checks _ _ InvS); destruct direct, fresh; vm_compute; reflexivity|].
    eapply sem_app.
    { unfold a_constraints, a_surface. rewrite <- app_assoc.
      eapply sem_app; [apply (sem_checks _ _ InvS); vm_compute; reflexivity|].
      eapply sem_app; [apply (i_project _ _ _ _ InvS); vm_compute; reflexivity|].
      apply (sem_checks _ _ InvS); vm_compute; reflexivity. }
    eapply sem_app; [apply (sem_checks _ _ InvS); destruct direct, first; vm_compute; reflexivity|].
    eapply sem_app.
    { unfold a_gmres. eapply sem_app; [apply (sem_checks _ _ InvS); vm_compute; reflexivity|].
      eapply sem_app.
      - apply sem_repeat. apply sem_checks; destruct direct, h; vm_compute; reflexivity.
      - apply (sem_checks _ _ InvS); vm_compute; reflexivity. }
    apply (sem_checks _ _ Inv); vm_compute; reflexivity.
  - destruct h; apply sem_checks; vm_compute; reflexivity.
Qed.
