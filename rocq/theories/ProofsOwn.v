(** * Lemmas about the numbering and ownership of dofs. *)
From Coq Require Import List Arith Bool Reals Lia Permutation.
From Verif Require Import ModelBem ModelBc ModelOwn ProofsBc.
Import ListNotations.
Local Open Scope nat_scope.

Lemma memb_in i l : memb i l = true <-> In i l.
Proof. unfold memb. rewrite existsb_exists. split; [intros (x & A & B); apply Nat.eqb_eq in B; subst; auto|intros A; exists i; rewrite Nat.eqb_refl; auto]. Qed.
Lemma is_sub_eq a s : is_sub a s = true <-> a = Some s.
Proof. destruct a as [t|]; cbn; [rewrite Nat.eqb_eq; split; congruence|split; congruence]. Qed.

(** ** association *)
Definition least (cells : list nat) (dofs : nat -> list nat) (sub : nat -> nat) (i : nat) (a : option nat) : Prop :=
  match a with
  | None => forall c, In c cells -> ~ In i (dofs c)
  | Some s => (exists c, In c cells /\ In i (dofs c) /\ sub c = s) /\ forall c, In c cells -> In i (dofs c) -> s <= sub c
  end.
Lemma assoc_least_gen dofs sub i cs : forall pre a, least pre dofs sub i a -> least (pre ++ cs) dofs sub i (fold_left (assoc_step dofs sub i) cs a).
Proof.
  induction cs as [|c cs IH]; intros pre a Ha; [rewrite app_nil_r; auto|].
  replace (pre ++ c :: cs) with ((pre ++ [c]) ++ cs) by (rewrite <- app_assoc; auto). cbn [fold_left]. apply IH. unfold assoc_step. destruct (memb i (dofs c)) eqn:M.
  - apply memb_in in M. destruct a as [s|]; cbn [least] in *.
    + destruct Ha as ((c0 & C1 & C2 & C3) & Hm). split.
      * destruct (Nat.le_gt_cases s (sub c)) as [L|L].
        -- rewrite Nat.min_l by auto. exists c0. rewrite in_app_iff. auto.
        -- rewrite Nat.min_r by lia. exists c. rewrite in_app_iff. cbn. auto.
      * intros c1 H1 H2. apply in_app_iff in H1. destruct H1 as [H1|[<-|[]]]; [specialize (Hm c1 H1 H2)|]; lia.
    + split; [exists c; rewrite in_app_iff; cbn; auto|]. intros c1 H1 H2. apply in_app_iff in H1. destruct H1 as [H1|[<-|[]]]; auto. exfalso. apply (Ha c1); auto.
  - assert (M' : ~ In i (dofs c)) by (intros X; apply memb_in in X; congruence). destruct a as [s|]; cbn [least] in *.
    + destruct Ha as ((c0 & C1 & C2 & C3) & Hm). split; [exists c0; rewrite in_app_iff; auto|]. intros c1 H1 H2. apply in_app_iff in H1. destruct H1 as [H1|[<-|[]]]; auto. contradiction.
    + intros c1 H1. apply in_app_iff in H1. destruct H1 as [H1|[<-|[]]]; auto.
Qed.
Lemma association_least cells dofs sub i : least (seq 0 cells) dofs sub i (association cells dofs sub i).
Proof. unfold association. apply (assoc_least_gen dofs sub i (seq 0 cells) [] None). intros c []. Qed.
(** only membership of the dof in the cells matters *)
Lemma association_ext cells dofs dofs' sub i j : (forall c, c < cells -> (In i (dofs c) <-> In j (dofs' c))) ->
  association cells dofs sub i = association cells dofs' sub j.
Proof.
  intros Hc. unfold association. assert (G : forall cs a, (forall c, In c cs -> c < cells) -> fold_left (assoc_step dofs sub i) cs a = fold_left (assoc_step dofs' sub j) cs a).
  { induction cs as [|c cs IH]; intros a Hs; cbn [fold_left]; auto. replace (assoc_step dofs' sub j a c) with (assoc_step dofs sub i a c); [apply IH; intros; apply Hs; right; auto|].
    unfold assoc_step. destruct (memb i (dofs c)) eqn:M1, (memb j (dofs' c)) eqn:M2; auto; exfalso.
    - apply memb_in in M1. apply Hc in M1; [|apply Hs; left; auto]. apply memb_in in M1. congruence.
    - apply memb_in in M2. apply Hc in M2; [|apply Hs; left; auto]. apply memb_in in M2. congruence. }
  apply G. intros c Hin. apply in_seq in Hin. lia.
Qed.

(** ** positions in a list *)
Fixpoint pos (i : nat) (l : list nat) : nat := match l with [] => 0 | x :: r => if Nat.eqb x i then 0 else S (pos i r) end.
Lemma pos_lt i l : In i l -> pos i l < length l.
Proof. induction l as [|x l IH]; intros Hi; [destruct Hi|]. cbn [pos length]. destruct (Nat.eqb_spec x i); [lia|]. destruct Hi as [|Hi]; [contradiction|]. specialize (IH Hi). lia. Qed.
Lemma pos_nth i l : In i l -> nth (pos i l) l 0 = i.
Proof. induction l as [|x l IH]; intros Hi; [destruct Hi|]. cbn [pos]. destruct (Nat.eqb_spec x i); auto. destruct Hi as [|Hi]; [contradiction|]. cbn. auto. Qed.
Lemma pos_inj l i j : In i l -> In j l -> pos i l = pos j l -> i = j.
Proof. intros A B Eq. rewrite <- (pos_nth i l A), <- (pos_nth j l B), Eq. auto. Qed.
Lemma pos_app_l i l1 l2 : In i l1 -> pos i (l1 ++ l2) = pos i l1.
Proof. induction l1 as [|x l IH]; intros Hi; [destruct Hi|]. cbn [app pos]. destruct (Nat.eqb_spec x i); auto. destruct Hi as [|Hi]; [contradiction|]. rewrite IH; auto. Qed.
Lemma pos_app_r i l1 l2 : ~ In i l1 -> pos i (l1 ++ l2) = length l1 + pos i l2.
Proof. induction l1 as [|x l IH]; intros Hi; auto. cbn [app pos length]. destruct (Nat.eqb_spec x i); [exfalso; apply Hi; left; auto|]. rewrite IH; auto. intros Q. apply Hi. right; auto. Qed.

(** ** compute_subdomain_wise *)
Definition by_sub (n np : nat) (assoc : nat -> option nat) : list nat := flat_map (fun s => filter (fun i => is_sub (assoc i) s) (seq 0 n)) (seq 0 np).
Definition number (st : (nat -> nat) * nat) (i : nat) : (nat -> nat) * nat := (upd (fst st) i (snd st), S (snd st)).
Lemma subwise_inner assoc s l : forall st, fold_left (subwise_dof assoc s) l st = fold_left number (filter (fun i => is_sub (assoc i) s) l) st.
Proof. induction l as [|i l IH]; intros (f, k); cbn [fold_left filter]; auto. rewrite IH. unfold subwise_dof. destruct (is_sub (assoc i) s); auto. Qed.
Lemma subwise_list n np assoc : subwise_loop n np assoc = fold_left number (by_sub n np assoc) (fun _ => 0, 0).
Proof.
  unfold subwise_loop, by_sub. generalize (fun _ : nat => 0, 0). generalize (seq 0 np). induction l as [|s l IH]; intros st; cbn [fold_left flat_map]; auto.
  rewrite fold_left_app, <- subwise_inner. apply IH.
Qed.
Lemma number_other l : forall st j, ~ In j l -> fst (fold_left number l st) j = fst st j.
Proof. induction l as [|i l IH]; intros st j Hj; cbn [fold_left]; auto. rewrite IH by (intros Q; apply Hj; right; auto). cbn. unfold upd. destruct (Nat.eqb_spec j i); auto. exfalso. apply Hj. left; auto. Qed.
Lemma number_pos l : forall st i, NoDup l -> In i l -> fst (fold_left number l st) i = snd st + pos i l.
Proof.
  induction l as [|x l IH]; intros st i Nd Hi; [destruct Hi|]. inversion_clear Nd as [|? ? Nx Nl]. cbn [fold_left pos]. destruct (Nat.eqb_spec x i) as [->|Nxi].
  - rewrite number_other by auto. cbn. unfold upd. rewrite Nat.eqb_refl. lia.
  - destruct Hi as [|Hi]; [contradiction|]. rewrite IH by auto. cbn [number snd]. lia.
Qed.
Lemma by_sub_in n np assoc i : In i (by_sub n np assoc) <-> i < n /\ exists s, s < np /\ assoc i = Some s.
Proof.
  unfold by_sub. rewrite in_flat_map. split.
  - intros (s & H1 & H2). apply in_seq in H1. apply filter_In in H2. destruct H2 as (H2 & H3). apply in_seq in H2. apply is_sub_eq in H3. split; [lia|]. exists s. split; auto. lia.
  - intros (H1 & s & H2 & H3). exists s. rewrite in_seq. split; [lia|]. apply filter_In. rewrite in_seq, is_sub_eq. split; auto. lia.
Qed.
Lemma flat_nodup (f : nat -> list nat) l : NoDup l -> (forall s, In s l -> NoDup (f s)) -> (forall s t i, In i (f s) -> In i (f t) -> s = t) -> NoDup (flat_map f l).
Proof.
  induction l as [|s l IH]; intros Nl Nf Df; cbn [flat_map]; [constructor|]. inversion_clear Nl as [|? ? Ns Nl']. 
  assert (G : forall a b : list nat, NoDup a -> NoDup b -> (forall x, In x a -> ~ In x b) -> NoDup (a ++ b)).
  { induction a as [|x a IHa]; intros b Na Nb Dab; auto. inversion_clear Na as [|? ? N1 N2]. cbn. constructor; [|apply IHa; auto; intros y Hy; apply Dab; right; auto]. rewrite in_app_iff. intros [Q|Q]; auto. apply (Dab x); auto. left; auto. }
  apply G; [apply Nf; left; auto|apply IH; auto; intros; apply Nf; right; auto|]. intros x Hx Q. apply in_flat_map in Q. destruct Q as (t & T1 & T2). rewrite (Df s t x Hx T2) in Ns. contradiction.
Qed.
Lemma by_sub_nodup n np assoc : NoDup (by_sub n np assoc).
Proof.
  apply flat_nodup; [apply seq_NoDup|intros; apply NoDup_filter, seq_NoDup|]. intros s t i A B. apply filter_In in A, B. destruct A as (_ & A), B as (_ & B). apply is_sub_eq in A, B. congruence.
Qed.
Lemma subwise_pos n np assoc i s : i < n -> assoc i = Some s -> s < np -> subdomain_wise n np assoc i = pos i (by_sub n np assoc).
Proof. intros Hi Ha Hs. unfold subdomain_wise. rewrite subwise_list, number_pos; auto; [apply by_sub_nodup|]. apply by_sub_in. eauto. Qed.

Section Subwise.
  Variables n np : nat.
  Variable assoc : nat -> option nat.
  Hypothesis Ha : forall i, i < n -> exists s, s < np /\ assoc i = Some s.
  Lemma by_sub_all : Permutation (by_sub n np assoc) (seq 0 n).
  Proof. apply NoDup_Permutation; [apply by_sub_nodup|apply seq_NoDup|]. intros i. rewrite by_sub_in, in_seq. split; [intros; lia|intros Hi; split; [lia|apply Ha; lia]]. Qed.
  Lemma subwise_range i : i < n -> subdomain_wise n np assoc i < n.
  Proof. intros Hi. destruct (Ha i Hi) as (s & Hs & Es). rewrite (subwise_pos n np assoc i s) by auto. rewrite <- (seq_length n 0) at 2. rewrite <- (Permutation_length by_sub_all). apply pos_lt. apply by_sub_in. eauto. Qed.
  Lemma subwise_inj i j : i < n -> j < n -> subdomain_wise n np assoc i = subdomain_wise n np assoc j -> i = j.
  Proof. intros Hi Hj. destruct (Ha i Hi) as (s & Hs & Es), (Ha j Hj) as (t & Ht & Et). rewrite (subwise_pos n np assoc i s), (subwise_pos n np assoc j t) by auto. apply pos_inj; apply by_sub_in; eauto. Qed.
  (** subdomain by subdomain *)
  Lemma subwise_order i j s t : i < n -> j < n -> assoc i = Some s -> assoc j = Some t -> s < t -> subdomain_wise n np assoc i < subdomain_wise n np assoc j.
  Proof.
    intros Hi Hj Es Et L. assert (Bt : t < np) by (destruct (Ha j Hj) as (t' & ? & ?); congruence). rewrite (subwise_pos n np assoc i s), (subwise_pos n np assoc j t) by (auto; lia).
    unfold by_sub. replace np with (S s + (np - S s)) by lia. rewrite seq_app, flat_map_app. cbn [Nat.add]. set (f := fun s0 => _).
    assert (Ii : In i (flat_map f (seq 0 (S s)))) by (apply in_flat_map; exists s; split; [apply in_seq; lia|]; unfold f; apply filter_In; rewrite in_seq, is_sub_eq; split; auto; lia).
    assert (Ij : ~ In j (flat_map f (seq 0 (S s)))).
    { intros Q. apply in_flat_map in Q. destruct Q as (u & U1 & U2). apply in_seq in U1. unfold f in U2. apply filter_In in U2. destruct U2 as (_ & U2). apply is_sub_eq in U2. assert (u = t) by congruence. lia. }
    rewrite pos_app_l, pos_app_r by auto. pose proof (pos_lt i _ Ii). lia.
  Qed.
  (** stable within a subdomain *)
  Lemma subwise_stable i j s : i < j -> j < n -> assoc i = Some s -> assoc j = Some s -> subdomain_wise n np assoc i < subdomain_wise n np assoc j.
  Proof.
    intros Hij Hj Es Et. assert (Bt : s < np) by (destruct (Ha j Hj) as (t' & ? & ?); congruence). rewrite (subwise_pos n np assoc i s), (subwise_pos n np assoc j s) by (auto; lia).
    unfold by_sub. replace np with (s + S (np - S s)) by lia. rewrite seq_app, flat_map_app. cbn [Nat.add seq flat_map]. set (f := fun s0 => filter _ _).
    assert (N : forall k, assoc k = Some s -> ~ In k (flat_map f (seq 0 s))).
    { intros k Ek Q. apply in_flat_map in Q. destruct Q as (u & U1 & U2). apply in_seq in U1. unfold f in U2. apply filter_In in U2. destruct U2 as (_ & U2). apply is_sub_eq in U2. assert (u = s) by congruence. lia. }
    rewrite (pos_app_r i) by (apply N; auto). rewrite (pos_app_r j) by (apply N; auto). apply Nat.add_lt_mono_l.
    set (r := flat_map f (seq (S s) (np - S s))). clearbody r. clear N f. replace n with (j + S (n - S j)) by lia. rewrite seq_app. cbn [Nat.add seq]. rewrite filter_app. cbn [filter]. rewrite (proj2 (is_sub_eq (assoc j) s) Et). rewrite <- !app_assoc.
    assert (Ii : In i (filter (fun i0 => is_sub (assoc i0) s) (seq 0 j))) by (apply filter_In; rewrite in_seq, is_sub_eq; split; auto; lia).
    assert (Ij : ~ In j (filter (fun i0 => is_sub (assoc i0) s) (seq 0 j))) by (rewrite filter_In, in_seq; lia).
    rewrite pos_app_l, pos_app_r by auto. pose proof (pos_lt i _ Ii). lia.
  Qed.
End Subwise.
