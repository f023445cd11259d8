(** C04: the heap machine refines value semantics. *)
From Coq Require Import ZArith List Bool Lia.
From Verif Require Import ModelStore ProofsStore ModelValue SpecValue.
Import ListNotations.

Lemma list_upd_length {T} (l : list T) k v : length (list_upd l k v) = length l.
Proof. revert k; induction l; destruct k; simpl; auto. Qed.

Lemma nth_list_upd {T} (l : list T) k v i :
  nth_error (list_upd l k v) i =
  if Nat.eqb i k then (match nth_error l i with Some _ => Some v | None => None end)
  else nth_error l i.
Proof.
  revert k i; induction l as [|x l IH]; intros k i; destruct k, i; simpl; auto.
  destruct (Nat.eqb i k); reflexivity.
Qed.

Lemma nth_app_last {T} (l : list T) x i :
  nth_error (l ++ [x]) i =
  if Nat.eqb i (length l) then Some x else nth_error l i.
Proof.
  destruct (Nat.eqb_spec i (length l)) as [->|H].
  - rewrite nth_error_app2, Nat.sub_diag; auto.
  - destruct (Nat.lt_ge_cases i (length l)).
    + rewrite nth_error_app1; auto.
    + rewrite nth_error_app2 by lia.
      destruct (i - length l)%nat eqn:E; [lia|]; simpl.
      rewrite (proj2 (nth_error_None l i)) by lia. destruct n; reflexivity.
Qed.

Lemma nth_some_lt {T} (l : list T) i x : nth_error l i = Some x -> (i < length l)%nat.
Proof. intro H; apply nth_error_Some; congruence. Qed.

Section P.
  Context {A C : Type} (zero : A) (origin : C).
  Notation obj := (@obj C).
  Notation state := (@state A C).
  Notation value := (@value A C).

  Definition relv (h : @heap A) (o : obj) (v : value) : Prop :=
    o_p o = v_p v /\ o_center o = v_center v /\ o_zero o = v_zero v /\
    match o_ptr o, v_coeffs v with
    | None, None => True
    | Some l, Some b => nth_error h l = Some (Some b) /\ length b = Z.to_nat (tri_size (v_p v)) /\
                        (0 <= v_p v)%Z /\ ((v_p v + 1) * (v_p v + 2) < 2 ^ 32)%Z
    | _, _ => False
    end.

  Definition relo (h : @heap A) (a : option (option obj)) (b : option (option value)) : Prop :=
    match a, b with
    | None, None => True
    | Some None, Some None => True
    | Some (Some o), Some (Some v) => relv h o v
    | _, _ => False
    end.

  Definition R (s : state) (w : @world A C) : Prop :=
    (forall i, relo (hp s) (nth_error (objs s) i) (nth_error w i)) /\
    (forall i j o o' l, nth_error (objs s) i = Some (Some o) -> nth_error (objs s) j = Some (Some o') ->
        o_ptr o = Some l -> o_ptr o' = Some l -> i = j).

  Lemma R_length s w : R s w -> length (objs s) = length w.
  Proof.
    intros [H _].
    assert (length (objs s) <= length w)%nat.
    { apply Nat.nlt_ge; intro L. specialize (H (length w)).
      rewrite (proj2 (nth_error_None w (length w))) in H by lia.
      destruct (nth_error (objs s) (length w)) as [[?|]|] eqn:E; simpl in H; try tauto.
      apply nth_error_None in E; lia. }
    assert (length w <= length (objs s))%nat.
    { apply Nat.nlt_ge; intro L. specialize (H (length (objs s))).
      rewrite (proj2 (nth_error_None (objs s) _)) in H by lia.
      destruct (nth_error w (length (objs s))) as [[?|]|] eqn:E; simpl in H; try tauto.
      apply nth_error_None in E; lia. }
    lia.
  Qed.

  Lemma R_get s w i v : R s w -> vget w i = Some v ->
    exists o, nth_error (objs s) i = Some (Some o) /\ get_obj s i = Some o /\
              nth_error w i = Some (Some v) /\ relv (hp s) o v.
  Proof.
    intros [H _] G. specialize (H i). unfold vget, get_obj in *.
    destruct (nth_error w i) as [[v'|]|]; try discriminate. injection G as ->.
    destruct (nth_error (objs s) i) as [[o|]|]; simpl in H; try tauto.
    exists o; auto.
  Qed.

  (* heap facts *)
  Lemma live_app (h : @heap A) b : live_buffers (h ++ [Some b]) = S (live_buffers h).
  Proof. induction h as [|[x|] h IH]; simpl; auto. Qed.
  Lemma live_upd_same (h : @heap A) l b b' : nth_error h l = Some (Some b) ->
    live_buffers (list_upd h l (Some b')) = live_buffers h.
  Proof. revert l; induction h as [|x h IH]; intros [|l]; simpl; try discriminate.
    - intros [= ->]; reflexivity.
    - intro H; destruct x; rewrite IH; auto. Qed.
  Lemma live_upd_del (h : @heap A) l b : nth_error h l = Some (Some b) ->
    S (live_buffers (list_upd h l None)) = live_buffers h.
  Proof. revert l; induction h as [|x h IH]; intros [|l]; simpl; try discriminate.
    - intros [= ->]; reflexivity.
    - intro H; destruct x; rewrite IH; auto. Qed.

  Definition own (v : option value) : nat :=
    match v with Some v => match v_coeffs v with Some _ => 1 | None => 0 end | None => 0 end.
  Lemma owners_app (w : @world A C) v : owners (w ++ [v]) = (own v + owners w)%nat.
  Proof. induction w as [|[x|] w IH]; simpl; try rewrite IH; destruct v; simpl; lia. Qed.
  Lemma owners_upd (w : @world A C) i v v' : nth_error w i = Some v ->
    (owners (list_upd w i v') + own v = owners w + own v')%nat.
  Proof. revert i; induction w as [|x w IH]; intros [|i]; simpl; try discriminate.
    - intros [= ->]. destruct v, v'; simpl; lia.
    - intro H. apply IH in H. destruct x; simpl; lia. Qed.

  Lemma relv_app (h : @heap A) x o v : relv h o v -> relv (h ++ [x]) o v.
  Proof.
    intros (H1&H2&H3&H4). repeat split; auto.
    destruct (o_ptr o) as [l|], (v_coeffs v); try tauto.
    destruct H4 as [H4 H5]; split; auto. rewrite nth_error_app1; auto. eapply nth_some_lt; eauto.
  Qed.
  Lemma relv_upd (h : @heap A) l x o v : relv h o v -> o_ptr o <> Some l -> relv (list_upd h l x) o v.
  Proof.
    intros (H1&H2&H3&H4) N. repeat split; auto.
    destruct (o_ptr o) as [l'|], (v_coeffs v); try tauto.
    destruct H4 as [H4 H5]; split; auto. rewrite nth_list_upd.
    destruct (Nat.eqb_spec l' l); [congruence|auto].
  Qed.
  Lemma relv_ptr_lt (h : @heap A) o v l : relv h o v -> o_ptr o = Some l -> (l < length h)%nat.
  Proof. intros (_&_&_&H) E. rewrite E in H. destruct (v_coeffs v); [|tauto]. eapply nth_some_lt, H. Qed.

  (** One step. *)
  Lemma R_ptr_lt s w i o l : R s w -> nth_error (objs s) i = Some (Some o) -> o_ptr o = Some l -> (l < length (hp s))%nat.
  Proof.
    intros [H _] E P. specialize (H i). rewrite E in H.
    destruct (nth_error w i) as [[v|]|]; simpl in H; try tauto. eapply relv_ptr_lt; eauto.
  Qed.

  (* appending an object *)
  Lemma R_append_obj s w h' o v : R s w -> 
    (forall i o v, nth_error (objs s) i = Some (Some o) -> relv (hp s) o v -> relv h' o v) ->
    relv h' o v -> (forall l, o_ptr o = Some l -> (length (hp s) <= l)%nat) ->
    R {| objs := objs s ++ [Some o]; hp := h' |} (w ++ [Some v]).
  Proof.
    intros HR Hh Hv Hl. pose proof (R_length _ _ HR) as HL. pose proof HR as [H1 H2].
    split; simpl.
    - intro i. rewrite !nth_app_last, <- HL. destruct (Nat.eqb_spec i (length (objs s))); simpl; auto.
      specialize (H1 i). destruct (nth_error (objs s) i) as [[o'|]|] eqn:E, (nth_error w i) as [[v'|]|]; simpl in *; try tauto.
      eapply Hh; eauto.
    - intros i j a b l. rewrite !nth_app_last.
      destruct (Nat.eqb_spec i (length (objs s))), (Nat.eqb_spec j (length (objs s))); subst; auto.
      + intros [= <-] Hb Pa Pb. pose proof (R_ptr_lt _ _ _ _ _ HR Hb Pb). specialize (Hl _ Pa). lia.
      + intros Ha [= <-] Pa Pb. pose proof (R_ptr_lt _ _ _ _ _ HR Ha Pa). specialize (Hl _ Pb). lia.
      + intros; eapply H2; eauto.
  Qed.

  (* replacing object i *)
  Lemma R_replace s w i oo h' o v : R s w -> nth_error (objs s) i = Some oo ->
    (forall j o v, j <> i -> nth_error (objs s) j = Some (Some o) -> relv (hp s) o v -> relv h' o v) ->
    match o, v with Some o, Some v => relv h' o v | None, None => True | _, _ => False end ->
    (forall o' l, o = Some o' -> o_ptr o' = Some l ->
       (exists o0, oo = Some o0 /\ o_ptr o0 = Some l) \/ (length (hp s) <= l)%nat) ->
    R {| objs := list_upd (objs s) i o; hp := h' |} (list_upd w i v).
  Proof.
    intros HR Ei Hh Hv Hl. pose proof (R_length _ _ HR) as HL. pose proof HR as [H1 H2].
    split; simpl.
    - intro j. rewrite !nth_list_upd. pose proof (H1 j) as Hj.
      destruct (Nat.eqb_spec j i) as [->|N].
      + rewrite Ei in *. destruct (nth_error w i); simpl in *; [|destruct oo; tauto].
        destruct o, v; tauto.
      + destruct (nth_error (objs s) j) as [[o'|]|] eqn:E, (nth_error w j) as [[v'|]|]; simpl in *; try tauto.
        eapply Hh; eauto.
    - assert (K : forall j a b l, j <> i -> o = Some a -> nth_error (objs s) j = Some (Some b) ->
                   o_ptr a = Some l -> o_ptr b = Some l -> False).
      { intros j a b l N Ea Eb Pa Pb. destruct (Hl _ _ Ea Pa) as [(o0&->&P0)|G].
        - apply N. eapply H2; eauto.
        - pose proof (R_ptr_lt _ _ _ _ _ HR Eb Pb). lia. }
      intros j k a b l. rewrite !nth_list_upd.
      destruct (Nat.eqb_spec j i) as [->|Nj], (Nat.eqb_spec k i) as [->|Nk]; auto.
      + rewrite Ei. intros Ha Hb Pa Pb. exfalso. injection Ha as Ha. eapply K; eauto.
      + rewrite Ei. intros Ha Hb Pa Pb. exfalso. injection Hb as Hb. eapply K with (j := j); eauto.
      + intros; eapply H2; eauto.
  Qed.

  Lemma relv_upd_other s w i j o o' v l x : R s w -> j <> i ->
    nth_error (objs s) i = Some (Some o) -> o_ptr o = Some l ->
    nth_error (objs s) j = Some (Some o') -> relv (hp s) o' v -> relv (list_upd (hp s) l x) o' v.
  Proof.
    intros [_ H2] N Ei P Ej Rv. apply relv_upd; auto. intro E. apply N. eapply H2; eauto.
  Qed.

  Definition extra (frees : bool) (w : @world A C) (o : @op A C) : nat :=
    if frees then 0 else
    match o with
    | Assign dst _ => match vget w dst with
                      | Some v => match v_coeffs v with Some _ => 1 | None => 0 end
                      | None => 0
                      end
    | _ => 0
    end.

  Lemma step_refines frees s w o w' : R s w -> vstep zero origin w o = Some w' ->
    exists s', step zero origin frees s o = Some s' /\ R s' w' /\
      (live_buffers (hp s') + owners w = live_buffers (hp s) + owners w' + extra frees w o)%nat.
  Proof.
    intros HR HV. destruct o as [|p c|src|dst src|id n m x|id b|id]; cbn [vstep] in HV.
    - injection HV as <-. eexists; split; [reflexivity|]. split.
      + apply R_append_obj; simpl; auto; try discriminate. repeat split; auto.
      + simpl. rewrite owners_app. simpl. unfold extra; destruct frees; lia.
    - destruct ((0 <=? p) && ((p + 1) * (p + 2) <? 2 ^ 32))%Z eqn:G; [|discriminate].
      injection HV as <-. apply andb_true_iff in G as [G1 G2].
      apply Z.leb_le in G1. apply Z.ltb_lt in G2.
      assert (E : new_buffer (Val zero) p = repeat (Val zero) (Z.to_nat ((p + 1) * (p + 2) / 2))).
      { unfold new_buffer. rewrite tri_size_eq by auto. unfold T. do 2 f_equal. f_equal. ring. }
      eexists; split; [reflexivity|]. split.
      + rewrite E. apply R_append_obj; simpl; auto.
        * intros. apply relv_app; auto.
        * repeat split; auto; simpl.
          rewrite nth_app_last, Nat.eqb_refl. auto.
          rewrite <- E. unfold new_buffer. rewrite repeat_length; auto.
        * intros l [= <-]; lia.
      + simpl. rewrite live_app, owners_app. simpl. unfold extra; destruct frees; lia.
    - destruct (vget w src) as [v|] eqn:GV; [|discriminate].
      destruct (v_coeffs v) as [b|] eqn:CV; [|discriminate]. injection HV as <-.
      destruct (R_get _ _ _ _ HR GV) as (o & No & Go & Nw & Rv).
      pose proof Rv as (E1 & E2 & E3 & E4). rewrite CV in E4.
      destruct (o_ptr o) as [l|] eqn:P; [|tauto]. destruct E4 as (E4 & E5 & E6 & E7).
      assert (HM : memcpy_buf (hp s ++ [Some (new_buffer Uninit (o_p o))]) (length (hp s)) (Some l) (o_p o)
                   = Some (hp s ++ [Some b])).
      { unfold memcpy_buf, deref. rewrite nth_error_app1 by (eapply nth_some_lt; eauto). rewrite E4.
        rewrite E1, E5, Nat.leb_refl, <- E5, firstn_all. f_equal.
        clear. induction (hp s); simpl; congruence. }
      exists {| objs := objs s ++ [Some {| o_p := o_p o; o_center := o_center o;
                 o_zero := o_zero o; o_ptr := Some (length (hp s)) |}]; hp := hp s ++ [Some b] |}.
      split; [|split].
      + cbn [step]. rewrite Go, P, HM. reflexivity.
      + apply R_append_obj; simpl; auto.
        * intros. apply relv_app; auto.
        * repeat split; simpl; auto. rewrite CV. rewrite nth_app_last, Nat.eqb_refl. auto.
        * intros l' [= <-]; lia.
      + simpl. rewrite live_app, owners_app. simpl. rewrite CV. unfold extra; destruct frees; lia.
    - destruct (Nat.eqb_spec dst src) as [|ND]; [discriminate|].
      destruct (vget w dst) as [vd|] eqn:GD; [|discriminate].
      destruct (vget w src) as [v|] eqn:GV; [|discriminate].
      destruct (v_coeffs v) as [b|] eqn:CV; [|discriminate]. injection HV as <-.
      destruct (R_get _ _ _ _ HR GV) as (o & No & Go & Nw & Rv).
      destruct (R_get _ _ _ _ HR GD) as (d & Nd & Gd & Nwd & Rd).
      pose proof Rv as (E1 & E2 & E3 & E4). rewrite CV in E4.
      destruct (o_ptr o) as [l|] eqn:P; [|tauto]. destruct E4 as (E4 & E5 & E6 & E7).
      pose proof Rd as (D1 & D2 & D3 & D4).
      (* heap after the optional delete *)
      assert (Hdel : exists h0, (if frees then del (hp s) (o_ptr d) else Some (hp s)) = Some h0 /\
                length h0 = length (hp s) /\
                (forall j o v, j <> dst -> nth_error (objs s) j = Some (Some o) -> relv (hp s) o v -> relv h0 o v) /\
                (live_buffers h0 + own (Some vd) = live_buffers (hp s) + (if frees then 0 else own (Some vd)))%nat).
      { destruct frees.
        - unfold own. destruct (o_ptr d) as [ld|] eqn:Pd; destruct (v_coeffs vd) as [bd|]; try tauto.
          + destruct D4 as (D4 & _). exists (list_upd (hp s) ld None). unfold del. rewrite D4. split; [reflexivity|split; [|split]].
            * apply list_upd_length.
            * intros j o' v' N Nj Rj. eapply relv_upd_other; eauto.
            * apply live_upd_del in D4. lia.
          + exists (hp s). simpl. split; [reflexivity|split; [|split]]; auto.
        - exists (hp s). split; [reflexivity|split; [|split]]; auto. }
      destruct Hdel as (h0 & Hd & HL & Hrel & Hcnt).
      set (d' := {| o_p := o_p o; o_center := o_center o; o_zero := o_zero o; o_ptr := Some (length h0) |}).
      assert (No' : nth_error (list_upd (objs s) dst (Some d')) src = Some (Some o)).
      { rewrite nth_list_upd. destruct (Nat.eqb_spec src dst); [congruence|auto]. }
      assert (N0 : nth_error h0 l = Some (Some b)).
      { assert (RR : relv h0 o v) by (eapply Hrel; eauto).
        destruct RR as (_&_&_&RR). rewrite P, CV in RR. apply RR. }
      exists {| objs := list_upd (objs s) dst (Some d'); hp := h0 ++ [Some b] |}.
      assert (HM : memcpy_buf (h0 ++ [Some (new_buffer Uninit (o_p o))]) (length h0) (Some l) (o_p o)
                   = Some (h0 ++ [Some b])).
      { unfold memcpy_buf, deref. rewrite nth_error_app1 by (eapply nth_some_lt; eauto). rewrite N0.
        rewrite E1, E5, Nat.leb_refl, <- E5, firstn_all. f_equal.
        clear. induction h0; simpl; congruence. }
      split; [|split].
      + cbn [step]. rewrite Gd, Go, Hd. cbn zeta. fold d'. rewrite No', P, HM. reflexivity.
      + eapply R_replace; eauto; simpl.
        * intros. apply relv_app; eauto.
        * repeat split; simpl; auto. rewrite CV, nth_app_last, Nat.eqb_refl. auto.
        * intros o' l' [= <-] [= <-]. right. lia.
      + simpl. rewrite live_app. pose proof (owners_upd w dst (Some vd) (Some v) Nwd) as HO.
        unfold own in HO at 2. rewrite CV in HO. unfold extra. rewrite GD. unfold own in *.
        destruct frees; lia.
    - destruct (vget w id) as [v|] eqn:GV; [|discriminate].
      destruct (v_coeffs v) as [b|] eqn:CV; [|discriminate].
      destruct ((0 <=? m) && (m <=? n) && (n <=? v_p v))%Z eqn:G; [|discriminate]. injection HV as <-.
      apply andb_true_iff in G as [G G3]. apply andb_true_iff in G as [G1 G2].
      apply Z.leb_le in G1, G2, G3.
      destruct (R_get _ _ _ _ HR GV) as (o & No & Go & Nw & Rv).
      pose proof Rv as (E1 & E2 & E3 & E4). rewrite CV in E4.
      destruct (o_ptr o) as [l|] eqn:P; [|tauto]. destruct E4 as (E4 & E5 & E6 & E7).
      assert (TI : tri_index n m = (n * (n + 1) / 2 + m)%Z).
      { rewrite (tri_index_eq (v_p v)) by lia. reflexivity. }
      assert (HS : set_coeff b n m (Val x) = Some (list_upd b (Z.to_nat (n * (n + 1) / 2 + m)) (Val x))).
      { unfold set_coeff, arr_set. rewrite E5.
        pose proof (tri_range (v_p v) n m E6 E7 (conj G1 G2) G3) as HT.
        destruct (Nat.ltb_spec (Z.to_nat (tri_index n m)) (Z.to_nat (tri_size (v_p v)))); [|lia].
        rewrite TI. reflexivity. }
      set (b' := list_upd b (Z.to_nat (n * (n + 1) / 2 + m)) (Val x)) in *.
      exists {| objs := objs s; hp := list_upd (hp s) l (Some b') |}. split; [|split].
      + cbn [step]. rewrite Go, P. unfold deref. rewrite E4, HS. reflexivity.
      + assert (RU : R {| objs := list_upd (objs s) id (Some o); hp := list_upd (hp s) l (Some b') |}
                  (list_upd w id (Some {| v_p := v_p v; v_center := v_center v; v_zero := v_zero v; v_coeffs := Some b' |}))).
        { eapply R_replace; [eassumption|eassumption|..].
          - intros. eapply relv_upd_other; eauto.
          - repeat split; simpl; auto. rewrite P. rewrite nth_list_upd, Nat.eqb_refl, E4.
            unfold b'. rewrite list_upd_length. auto.
          - intros o' l' [= <-] P'. left. exists o. auto. }
        replace (list_upd (objs s) id (Some o)) with (objs s) in RU; auto.
        clear -No. revert id No. generalize (objs s) as os. induction os; intros [|i]; simpl; try discriminate; intros; f_equal; auto. congruence.
      + simpl. rewrite (live_upd_same _ _ b) by auto.
        pose proof (owners_upd w id (Some v) (Some {| v_p := v_p v; v_center := v_center v; v_zero := v_zero v; v_coeffs := Some b' |}) Nw) as HO.
        unfold own in HO; simpl in HO. rewrite CV in HO. unfold extra; destruct frees; lia.
    - destruct (vget w id) as [v|] eqn:GV; [|discriminate]. injection HV as <-.
      destruct (R_get _ _ _ _ HR GV) as (o & No & Go & Nw & Rv).
      eexists; split; [cbn [step]; rewrite Go; reflexivity|]. split.
      + eapply R_replace; [eassumption|eassumption|auto|..].
        * destruct Rv as (E1 & E2 & E3 & E4). repeat split; auto.
        * intros o' l' [= <-] P'. left. exists o. auto.
      + simpl. match goal with |- context [list_upd w id ?v'] => pose proof (owners_upd w id (Some v) v' Nw) as HO end.
        unfold own in HO; simpl in HO. unfold extra; destruct frees; lia.
    - destruct (vget w id) as [v|] eqn:GV; [|discriminate]. injection HV as <-.
      destruct (R_get _ _ _ _ HR GV) as (o & No & Go & Nw & Rv).
      pose proof Rv as (E1 & E2 & E3 & E4).
      pose proof (owners_upd w id (Some v) None Nw) as HO. unfold own in HO.
      destruct (o_ptr o) as [l|] eqn:P; destruct (v_coeffs v) as [b|] eqn:CV; try tauto.
      + destruct E4 as (E4 & _). exists {| objs := list_upd (objs s) id None; hp := list_upd (hp s) l None |}.
        split; [|split].
        * cbn [step]. rewrite Go, P. unfold del. rewrite E4. reflexivity.
        * eapply R_replace; eauto; simpl; try discriminate.
          intros. eapply relv_upd_other; eauto.
        * simpl. apply live_upd_del in E4. unfold extra; destruct frees; lia.
      + exists {| objs := list_upd (objs s) id None; hp := hp s |}. split; [|split].
        * cbn [step]. rewrite Go, P. reflexivity.
        * eapply R_replace; eauto; simpl; discriminate.
        * simpl. unfold extra; destruct frees; lia.
  Qed.

  Lemma R_obs s w i : R s w -> obs s i = vobs w i.
  Proof.
    intros [H _]. specialize (H i). unfold obs, vobs, get_obj, vget.
    destruct (nth_error (objs s) i) as [[o|]|], (nth_error w i) as [[v|]|]; simpl in H; try tauto.
    destruct H as (-> & -> & -> & H). do 2 f_equal. unfold deref.
    destruct (o_ptr o), (v_coeffs v); try tauto. destruct H as (-> & _). reflexivity.
  Qed.

  Lemma run_refines frees os : forall s w w', R s w -> vrun zero origin w os = Some w' ->
    exists s', run zero origin frees s os = Some s' /\ R s' w' /\
      (live_buffers (hp s') + owners w = live_buffers (hp s) + owners w' +
         (if frees then 0 else overwrites zero origin w os))%nat.
  Proof.
    induction os as [|o os IH]; intros s w w' HR HV; cbn [vrun] in HV.
    - injection HV as <-. exists s. simpl. repeat split; auto; try apply HR. destruct frees; lia.
    - destruct (vstep zero origin w o) as [w1|] eqn:E; [|discriminate].
      destruct (step_refines frees _ _ _ _ HR E) as (s1 & S1 & R1 & C1).
      destruct (IH _ _ _ R1 HV) as (s' & S' & R' & C').
      exists s'. cbn [run]. rewrite S1. repeat split; auto; try apply R'.
      cbn [overwrites]. rewrite E. unfold extra in C1. destruct frees; [lia|].
      set (a := match o with Assign _ _ => _ | _ => _ end) in *.
      change (live_buffers (hp s') + owners w = live_buffers (hp s) + owners w' + (a + overwrites zero origin w1 os))%nat.
      lia.
  Qed.

  Lemma R_init : R init [].
  Proof. split; simpl; intros; rewrite ?nth_error_nil in *; simpl; auto. destruct i; simpl; auto. destruct i; discriminate. Qed.

  Lemma value_semantics frees os w : vrun zero origin [] os = Some w ->
    exists s, run zero origin frees init os = Some s /\ (forall i, obs s i = vobs w i) /\
      live_buffers (hp s) = (owners w + if frees then 0 else overwrites zero origin [] os)%nat.
  Proof.
    intro H. destruct (run_refines frees os init [] w R_init H) as (s & S & Rs & Cn).
    exists s. repeat split; auto. intro; apply R_obs; auto. simpl in Cn. lia.
  Qed.

  (** Self-assignment destroys every coefficient. *)
  Lemma self_assign frees os w id v b : vrun zero origin [] os = Some w ->
    vget w id = Some v -> v_coeffs v = Some b ->
    exists s', run zero origin frees init (os ++ [Assign id id]) = Some s' /\
      obs s' id = Some (v_p v, v_center v, v_zero v, Some (repeat Uninit (length b))).
  Proof.
    intros HV G CV. destruct (run_refines frees os init [] w R_init HV) as (s & S & Rs & _).
    destruct (R_get _ _ _ _ Rs G) as (o & No & Go & Nw & Rv).
    pose proof Rv as (E1 & E2 & E3 & E4). rewrite CV in E4.
    destruct (o_ptr o) as [l|] eqn:P; [|tauto]. destruct E4 as (E4 & E5 & E6 & E7).
    assert (RunApp : forall f a bb s0, run zero origin f s0 (a ++ bb) =
               match run zero origin f s0 a with Some s1 => run zero origin f s1 bb | None => None end).
    { intro f. induction a as [|x a IH]; intros; simpl; auto. destruct (step zero origin f s0 x); auto. }
    rewrite RunApp, S. cbn [run step]. rewrite Go.
    assert (Hd : exists h0, (if frees then del (hp s) (o_ptr o) else Some (hp s)) = Some h0).
    { destruct frees; eauto. unfold del. rewrite P, E4. eauto. }
    destruct Hd as [h0 Hd]. rewrite Hd. rewrite nth_list_upd, Nat.eqb_refl, No. cbn [o_ptr].
    unfold memcpy_buf, deref. rewrite nth_app_last, Nat.eqb_refl.
    assert (L : length (@new_buffer (cell A) Uninit (o_p o)) = Z.to_nat (tri_size (o_p o))).
    { unfold new_buffer. apply repeat_length. }
    rewrite L, Nat.leb_refl. eexists; split; [reflexivity|].
    unfold obs, get_obj. cbn [objs hp]. rewrite nth_list_upd, Nat.eqb_refl, No. cbn [o_p o_center o_zero o_ptr].
    unfold deref. rewrite nth_list_upd, Nat.eqb_refl, nth_app_last, Nat.eqb_refl.
    rewrite <- L, firstn_all. rewrite E1, E2, E3. do 3 f_equal. unfold new_buffer. rewrite E5. reflexivity.
  Qed.

  (** Copying from a default-constructed expansion reads through a null pointer. *)
  Lemma copy_default_ub frees os w id v : vrun zero origin [] os = Some w ->
    vget w id = Some v -> v_coeffs v = None ->
    run zero origin frees init (os ++ [CopyNew id]) = None /\
    (forall dst, dst <> id -> run zero origin frees init (os ++ [Assign dst id]) = None).
  Proof.
    intros HV G CV. destruct (run_refines frees os init [] w R_init HV) as (s & S & Rs & _).
    destruct (R_get _ _ _ _ Rs G) as (o & No & Go & Nw & Rv).
    pose proof Rv as (E1 & E2 & E3 & E4). rewrite CV in E4.
    destruct (o_ptr o) as [l|] eqn:P; [tauto|].
    assert (RunApp : forall f a bb s0, run zero origin f s0 (a ++ bb) =
               match run zero origin f s0 a with Some s1 => run zero origin f s1 bb | None => None end).
    { intro f. induction a as [|x a IH]; intros; simpl; auto. destruct (step zero origin f s0 x); auto. }
    split; [|intros dst Hn]; rewrite RunApp, S; cbn [run step]; rewrite Go.
    - rewrite P. reflexivity.
    - destruct (get_obj s dst) as [d|] eqn:Gd; [|reflexivity].
      destruct (if frees then del (hp s) (o_ptr d) else Some (hp s)); [|reflexivity].
      rewrite nth_list_upd. destruct (Nat.eqb_spec id dst); [congruence|]. rewrite No.
      rewrite P. reflexivity.
  Qed.
End P.
