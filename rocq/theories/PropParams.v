(** Property theorems C86: the numbers the program uses are those written in the parameter file. *)
From Coq Require Import ZArith List Arith Bool Ascii Lia.
From Verif Require Import ModelParams SpecParams.
Import ListNotations.
Local Open Scope Z_scope.

Arguments comma : simpl never.
Arguments plus : simpl never.
Arguments minus : simpl never.
(** ** Lemmas *)
Lemma white_blank c : white c <-> blank c = true.
Proof.
  split.
  - intros X. cbn in X. repeat (destruct X as [<-|X]; [reflexivity|]). destruct X.
  - intros B. assert (E : c = ascii_of_nat (nat_of_ascii c)) by (symmetry; apply ascii_nat_embedding). unfold blank, code in B.
    assert (Q : (nat_of_ascii c = 32 \/ nat_of_ascii c = 9 \/ nat_of_ascii c = 10 \/ nat_of_ascii c = 11 \/ nat_of_ascii c = 12 \/ nat_of_ascii c = 13)%nat).
    { apply orb_true_iff in B as [B|B]; [apply Z.eqb_eq in B; lia|]. apply andb_true_iff in B as (A & B). apply Z.leb_le in A, B. lia. }
    rewrite E. repeat (destruct Q as [->|Q]; [cbn; tauto|]). rewrite Q. cbn. tauto.
Qed.
Lemma space_iff c : c = " "%char <-> space c = true.
Proof.
  split; [intros ->; reflexivity|]. unfold space, code. intros B. apply Z.eqb_eq in B. rewrite <- (ascii_nat_embedding c). replace (nat_of_ascii c) with 32%nat by lia. reflexivity.
Qed.
Lemma forall_white l : Forall white l <-> Forall (fun c => blank c = true) l.
Proof. split; apply Forall_impl; intros c; apply white_blank. Qed.
Lemma forall_space l : Forall (fun c => c = " "%char) l <-> Forall (fun c => space c = true) l.
Proof. split; apply Forall_impl; intros c; apply space_iff. Qed.
(** the same in terms of the characters of the model *)
Definition num (z : Z) (t : text) : Prop :=
  exists b1 sign ds b2, t = b1 ++ sign ++ map digit_char ds ++ b2 /\ Forall (fun c => blank c = true) b1 /\ Forall (fun c => blank c = true) b2 /\
    ds <> [] /\ Forall (fun d => 0 <= d <= 9) ds /\
    ((sign = [] \/ sign = [plus]) /\ z = value ds \/ sign = [minus] /\ z = - value ds).
Inductive lst : list Z -> text -> Prop :=
| lst_nothing b : Forall (fun c => space c = true) b -> lst [] b
| lst_last z t : num z t -> lst [z] t
| lst_more z t l r : num z t -> lst l r -> lst (z :: l) (t ++ comma :: r).
Lemma numeral_num z t : numeral z t <-> num z t.
Proof. split; intros (b1 & s & ds & b2 & E & F1 & F2 & R); exists b1, s, ds, b2; apply forall_white in F1, F2; auto. Qed.
Lemma list_lst l t : list_of l t <-> lst l t.
Proof.
  split; induction 1 as [b F|z t N|z t l r N L IH]; try (apply forall_space in F; constructor; exact F); apply numeral_num in N; [apply lst_last|apply lst_more|apply last|apply (more z t l r)]; auto.
Qed.
Lemma code_bound c : 0 <= code c < 256.
Proof. unfold code. assert (A := nat_ascii_bounded c). lia. Qed.
Lemma digit_char_nat d : 0 <= d <= 9 -> digit_char d = ascii_of_nat (48 + Z.to_nat d).
Proof.
  intros Hd. assert (Q : (Z.to_nat d < 10)%nat) by lia. unfold digit_char. generalize dependent (Z.to_nat d). intros n Q. do 10 (destruct n as [|n]; [reflexivity|]). lia.
Qed.
Lemma digit_char_code d : 0 <= d <= 9 -> code (digit_char d) = 48 + d.
Proof. intros Hd. rewrite digit_char_nat by auto. unfold code. rewrite nat_ascii_embedding by lia. lia. Qed.
Lemma digit_of_char d : 0 <= d <= 9 -> digit (digit_char d) = Some d.
Proof. intros Hd. unfold digit. rewrite digit_char_code by auto. replace (48 <=? 48 + d) with true by (symmetry; apply Z.leb_le; lia). replace (48 + d <=? 57) with true by (symmetry; apply Z.leb_le; lia). cbn [andb]. f_equal. lia. Qed.
Lemma char_of_digit c d : digit c = Some d -> 0 <= d <= 9 /\ c = digit_char d.
Proof.
  unfold digit. destruct ((48 <=? code c) && (code c <=? 57)) eqn:E; [|discriminate]. intros X. injection X as <-. apply andb_true_iff in E as (A & B). apply Z.leb_le in A, B.
  split; [lia|]. rewrite digit_char_nat by lia. replace (48 + Z.to_nat (code c - 48))%nat with (nat_of_ascii c) by (unfold code in *; lia). symmetry. apply ascii_nat_embedding.
Qed.
Lemma blank_no_digit c : blank c = true -> digit c = None.
Proof.
  unfold blank, digit. intros X. destruct ((48 <=? code c) && (code c <=? 57)) eqn:E; auto. apply andb_true_iff in E as (A & B). apply Z.leb_le in A, B.
  apply orb_true_iff in X as [X|X]; [apply Z.eqb_eq in X; lia|]. apply andb_true_iff in X as (X & Y). apply Z.leb_le in X, Y. lia.
Qed.
Lemma space_blank c : space c = true -> blank c = true.
Proof. unfold space, blank. intros ->. reflexivity. Qed.
Definition stops (p : ascii -> bool) (s : text) : Prop := match s with [] => True | c :: _ => p c = false end.
Lemma skip_shape p s : exists b, s = b ++ skip p s /\ Forall (fun c => p c = true) b /\ stops p (skip p s).
Proof.
  induction s as [|c s (b & E & F & G)]; [exists []; repeat split; auto; constructor|]. cbn [skip]. destruct (p c) eqn:P.
  - exists (c :: b). split; [cbn; f_equal; exact E|]. split; auto.
  - exists []. repeat split; auto.
Qed.
Lemma skip_all p b x : Forall (fun c => p c = true) b -> stops p x -> skip p (b ++ x) = x.
Proof. intros F S. induction F as [|c b P F IH]; cbn; [destruct x; auto; cbn in S |- *; rewrite S; auto|rewrite P; exact IH]. Qed.
Lemma digits_shape s : forall v any v' any' rest, digits v any s = (v', any', rest) ->
  exists ds, s = map digit_char ds ++ rest /\ Forall (fun d => 0 <= d <= 9) ds /\ v' = v * 10 ^ Z.of_nat (length ds) + value ds /\ any' = (any || negb (Nat.eqb (length ds) 0)) /\
    stops (fun c => match digit c with Some _ => true | None => false end) rest.
Proof.
  induction s as [|c s IH]; intros v any v' any' rest X; cbn [digits] in X.
  - injection X as <- <- <-. exists []. cbn. rewrite orb_false_r. repeat split; auto; lia.
  - destruct (digit c) as [d|] eqn:D.
    + destruct (IH _ _ _ _ _ X) as (ds & E1 & E2 & E3 & E4 & E5). destruct (char_of_digit c d D) as (B & ->). exists (d :: ds).
      split; [cbn; f_equal; exact E1|]. split; [constructor; auto|]. split; [|split; auto].
      * rewrite E3. cbn [length value]. rewrite Nat2Z.inj_succ, Z.pow_succ_r by lia. ring.
      * cbn. rewrite E4, orb_true_r. reflexivity.
    + injection X as <- <- <-. exists []. cbn. rewrite D, orb_false_r. repeat split; auto; lia.
Qed.
Lemma digits_read ds : forall v any x, Forall (fun d => 0 <= d <= 9) ds -> stops (fun c => match digit c with Some _ => true | None => false end) x ->
  digits v any (map digit_char ds ++ x) = (v * 10 ^ Z.of_nat (length ds) + value ds, any || negb (Nat.eqb (length ds) 0), x).
Proof.
  induction ds as [|d ds IH]; intros v any x F S.
  - cbn [map app length value]. replace (v * 10 ^ Z.of_nat 0 + 0) with v by (cbn; lia). rewrite orb_false_r. destruct x; auto. cbn [digits]. cbn in S. destruct (digit a); [discriminate|reflexivity].
  - inversion F; subst. cbn [map app digits]. rewrite digit_of_char by auto. rewrite IH by auto. cbn [length value Nat.eqb negb]. rewrite Nat2Z.inj_succ, Z.pow_succ_r by lia. rewrite orb_true_r. cbn [orb]. f_equal. f_equal. ring.
Qed.
Lemma digit_not_blank d : 0 <= d <= 9 -> blank (digit_char d) = false.
Proof.
  intros Hd. destruct (blank (digit_char d)) eqn:B; auto. apply blank_no_digit in B. rewrite digit_of_char in B by auto. discriminate.
Qed.
Lemma digit_not_sign d : 0 <= d <= 9 -> Ascii.eqb (digit_char d) minus = false /\ Ascii.eqb (digit_char d) plus = false /\ Ascii.eqb (digit_char d) comma = false /\ space (digit_char d) = false.
Proof.
  intros Hd. assert (N : forall c, digit c = None -> Ascii.eqb (digit_char d) c = false).
  { intros c X. destruct (Ascii.eqb_spec (digit_char d) c) as [E|]; auto. rewrite <- E, digit_of_char in X by auto. discriminate. }
  split; [apply N; reflexivity|]. split; [apply N; reflexivity|]. split; [apply N; reflexivity|].
  destruct (space (digit_char d)) eqn:B; auto. apply space_blank in B. rewrite digit_not_blank in B by auto. discriminate.
Qed.

Definition signed (sign : text) (neg : bool) : Prop := neg = false /\ (sign = [] \/ sign = [plus]) \/ neg = true /\ sign = [minus].
Lemma scan_shape s neg v rest : scan_number s = Some (neg, v, rest) ->
  exists b1 sign ds, s = b1 ++ sign ++ map digit_char ds ++ rest /\ Forall (fun c => blank c = true) b1 /\ ds <> [] /\ Forall (fun d => 0 <= d <= 9) ds /\ signed sign neg /\ v = value ds.
Proof.
  unfold scan_number. destruct (skip_shape blank s) as (b1 & E & F & G). set (s1 := skip blank s) in *. clearbody s1.
  assert (T : exists sign s2 neg', s1 = sign ++ s2 /\ signed sign neg' /\ (match s1 with c :: r => if Ascii.eqb c minus then (true, r) else if Ascii.eqb c plus then (false, r) else (false, s1) | [] => (false, s1) end) = (neg', s2)).
  { destruct s1 as [|c r]; [exists [], [], false; repeat split; auto; left; auto|].
    destruct (Ascii.eqb_spec c minus) as [->|_]; [exists [minus], r, true; repeat split; auto; right; auto|].
    destruct (Ascii.eqb_spec c plus) as [->|_]; [exists [plus], r, false; repeat split; auto; left; auto|].
    exists [], (c :: r), false. repeat split; auto. left; auto. }
  destruct T as (sign & s2 & neg' & E1 & Sg & ->). destruct (digits 0 false s2) as [[v0 any] rest0] eqn:D. destruct any; [|discriminate]. intros X. injection X as <- <- <-.
  destruct (digits_shape _ _ _ _ _ _ D) as (ds & H1 & H2 & H3 & H4 & _). exists b1, sign, ds. rewrite E, E1, H1. split; [reflexivity|]. split; auto. split; [|split; auto; split; auto; lia].
  intros ->. cbn in H4. discriminate.
Qed.
Lemma scan_numeral b1 sign ds rest neg : Forall (fun c => blank c = true) b1 -> ds <> [] -> Forall (fun d => 0 <= d <= 9) ds -> signed sign neg ->
  stops (fun c => match digit c with Some _ => true | None => false end) rest -> scan_number (b1 ++ sign ++ map digit_char ds ++ rest) = Some (neg, value ds, rest).
Proof.
  intros F N D Sg S. unfold scan_number.
  assert (Hd : exists d r, ds = d :: r) by (destruct ds; [congruence|eauto]). destruct Hd as (d & r & Ed). assert (D0 : 0 <= d <= 9) by (rewrite Ed in D; inversion D; auto).
  rewrite skip_all; auto.
  - assert (Dr := digits_read ds 0 false rest D S). replace (false || negb (Nat.eqb (length ds) 0)) with true in Dr by (rewrite Ed; reflexivity). replace (0 * 10 ^ Z.of_nat (length ds) + value ds) with (value ds) in Dr by ring.
    destruct Sg as [(-> & [-> | ->])|(-> & ->)]; cbv zeta.
    + rewrite Ed in Dr |- *. cbn [app map] in *. destruct (digit_not_sign d D0) as (A & B & _). rewrite A, B, Dr. reflexivity.
    + cbn [app]. change (Ascii.eqb plus minus) with false. change (Ascii.eqb plus plus) with true. cbv iota. rewrite Dr. reflexivity.
    + cbn [app]. change (Ascii.eqb minus minus) with true. cbv iota. rewrite Dr. reflexivity.
  - destruct Sg as [(-> & [-> | ->])|(-> & ->)]; try reflexivity. rewrite Ed. cbn. apply digit_not_blank; auto.
Qed.
Lemma value_nonneg ds : Forall (fun d => 0 <= d <= 9) ds -> 0 <= value ds.
Proof. induction 1; cbn; [lia|]. assert (0 <= 10 ^ Z.of_nat (length l)) by (apply Z.pow_nonneg; lia). nia. Qed.
Lemma blanks_stop b : Forall (fun c => blank c = true) b -> stops (fun c => match digit c with Some _ => true | None => false end) b.
Proof. intros F. destruct F; cbn; auto. rewrite blank_no_digit; auto. Qed.

(** accepted by Patterns::Integer(lo, hi) = a num for a number in the range *)
Lemma integer_ok_iff lo hi t : - 2 ^ 31 <= lo -> hi < 2 ^ 31 -> (integer_ok lo hi t = true <-> exists z, num z t /\ lo <= z <= hi).
Proof.
  intros Hlo Hhi. unfold integer_ok, read_int. split.
  - destruct (scan_number t) as [[[neg v] rest]|] eqn:S; [|discriminate]. destruct (scan_shape _ _ _ _ S) as (b1 & sign & ds & E & F & N & D & Sg & Ev).
    destruct (_ && _); [|discriminate]. intros X. apply andb_true_iff in X as (X & X3). apply andb_true_iff in X as (X1 & X2). apply Z.leb_le in X2, X3.
    exists (if neg then - v else v). split; auto. exists b1, sign, ds, rest. split; auto. split; auto. split; [apply Forall_forall; intros c Hc; apply (proj1 (forallb_forall _ _) X1 c Hc)|].
    split; auto. split; auto. destruct Sg as [(-> & A)|(-> & A)]; [left|right]; split; auto; lia.
  - intros (z & (b1 & sign & ds & b2 & -> & F1 & F2 & N & D & Sz) & R).
    assert (T : exists neg, signed sign neg /\ (if neg : bool then - value ds else value ds) = z) by (destruct Sz as [(A & ->)|(A & ->)]; [exists false|exists true]; split; auto; [left|right]; auto).
    destruct T as (neg & Sg & Ez). rewrite (scan_numeral b1 sign ds b2 neg F1 N D Sg (blanks_stop b2 F2)). rewrite Ez.
    replace (- 2 ^ 31 <=? z) with true by (symmetry; apply Z.leb_le; lia). replace (z <? 2 ^ 31) with true by (symmetry; apply Z.ltb_lt; lia). cbn [andb].
    replace (forallb blank b2) with true by (symmetry; apply forallb_forall; apply Forall_forall; auto). replace (lo <=? z) with true by (symmetry; apply Z.leb_le; lia). replace (z <=? hi) with true by (symmetry; apply Z.leb_le; lia). reflexivity.
Qed.
Lemma read_unsigned_numeral z t : num z t -> 0 <= z < 2 ^ 32 -> read_unsigned t = z.
Proof.
  intros (b1 & sign & ds & b2 & -> & F1 & F2 & N & D & Sz) R. assert (V := value_nonneg ds D).
  assert (T : exists neg, signed sign neg /\ (if neg : bool then - value ds else value ds) = z) by (destruct Sz as [(A & ->)|(A & ->)]; [exists false|exists true]; split; auto; [left|right]; auto).
  destruct T as (neg & Sg & Ez). unfold read_unsigned. rewrite (scan_numeral b1 sign ds b2 neg F1 N D Sg (blanks_stop b2 F2)).
  assert (Lv : value ds < 2 ^ 32) by (destruct neg; lia). replace (value ds <? 2 ^ 32) with true by (symmetry; apply Z.ltb_lt; lia).
  destruct neg; [|exact Ez]. rewrite Z.mod_small by lia. exact Ez.
Qed.
Lemma read_int_numeral z t : num z t -> - 2 ^ 31 <= z < 2 ^ 31 -> exists rest, read_int t = Some (z, rest).
Proof.
  intros (b1 & sign & ds & b2 & -> & F1 & F2 & N & D & Sz) R. unfold read_int.
  assert (T : exists neg, signed sign neg /\ (if neg : bool then - value ds else value ds) = z) by (destruct Sz as [(A & ->)|(A & ->)]; [exists false|exists true]; split; auto; [left|right]; auto).
  destruct T as (neg & Sg & Ez). rewrite (scan_numeral b1 sign ds b2 neg F1 N D Sg (blanks_stop b2 F2)). rewrite Ez.
  replace (- 2 ^ 31 <=? z) with true by (symmetry; apply Z.leb_le; lia). replace (z <? 2 ^ 31) with true by (symmetry; apply Z.ltb_lt; lia). cbn [andb]. eauto.
Qed.

(** *** the list *)
Lemma numeral_core z t : num z t -> exists b1 core b2, t = b1 ++ core ++ b2 /\ Forall (fun c => blank c = true) b1 /\ Forall (fun c => blank c = true) b2 /\ core <> [] /\
  stops space core /\ stops space (rev core) /\ (forall c, In c core -> c <> comma) /\
  forall b1' b2', Forall (fun c => blank c = true) b1' -> Forall (fun c => blank c = true) b2' -> num z (b1' ++ core ++ b2').
Proof.
  intros (b1 & sign & ds & b2 & -> & F1 & F2 & N & D & Sz). exists b1, (sign ++ map digit_char ds), b2.
  assert (Hl : exists r d, ds = r ++ [d] /\ 0 <= d <= 9). { destruct (exists_last N) as (r & d & E). exists r, d. split; auto. rewrite E in D. apply Forall_app in D as (_ & D). inversion D; auto. }
  assert (Hf : exists d r, ds = d :: r /\ 0 <= d <= 9) by (destruct D; [congruence|eauto]).
  assert (Sg : sign = [] \/ sign = [plus] \/ sign = [minus]) by tauto.
  split; [rewrite <- !app_assoc; reflexivity|]. split; auto. split; auto. split; [destruct Hf as (d & r & -> & _); destruct sign; discriminate|].
  split; [|split; [|split]].
  - destruct Hf as (d & r & -> & Hd). destruct Sg as [-> |[-> | ->]]; try reflexivity. cbn. apply digit_not_sign; auto.
  - destruct Hl as (r & d & -> & Hd). rewrite map_app, app_assoc, rev_app_distr. cbn. apply digit_not_sign; auto.
  - intros c Hc ->. apply in_app_or in Hc as [Hc|Hc]; [destruct Sg as [-> |[-> | ->]]; cbn in Hc; intuition discriminate|].
    apply in_map_iff in Hc as (d & E & Hd). rewrite Forall_forall in D. destruct (digit_not_sign d (D d Hd)) as (_ & _ & X & _). rewrite E, Ascii.eqb_refl in X. discriminate.
  - intros b1' b2' G1 G2. exists b1', sign, ds, b2'. split; [rewrite <- app_assoc; reflexivity|]. auto.
Qed.
(** stripping spaces *)
Lemma skip_front b x : Forall (fun c => blank c = true) b -> stops space x -> exists b', skip space (b ++ x) = b' ++ x /\ Forall (fun c => blank c = true) b'.
Proof.
  intros F S. induction F as [|c b P F (b' & E & G)]; [exists []; split; auto; cbn; destruct x; auto; cbn in S |- *; rewrite S; auto|].
  cbn. destruct (space c); [eauto|]. exists (c :: b). split; auto.
Qed.
Lemma rstrip_back x b : Forall (fun c => blank c = true) b -> stops space (rev x) -> exists b', rstrip (x ++ b) = x ++ b' /\ Forall (fun c => blank c = true) b'.
Proof.
  intros F S. unfold rstrip. rewrite rev_app_distr. destruct (skip_front (rev b) (rev x)) as (b' & E & G); auto; [apply Forall_rev; auto|].
  exists (rev b'). split; [rewrite E, rev_app_distr, rev_involutive; reflexivity|apply Forall_rev; auto].
Qed.
Lemma numeral_stripped z t : num z t -> num z (rstrip (skip space t)) /\ num z (rstrip t).
Proof.
  intros X. destruct (numeral_core z t X) as (b1 & core & b2 & -> & F1 & F2 & N & S1 & S2 & _ & K).
  assert (R : forall b, Forall (fun c => blank c = true) b -> num z (rstrip (b ++ core ++ b2))).
  { intros b Fb. destruct (rstrip_back (b ++ core) b2 F2) as (b2' & E & G); [rewrite rev_app_distr; destruct (rev core) as [|c r] eqn:Er; [apply (f_equal (@rev ascii)) in Er; rewrite rev_involutive in Er; cbn in Er; congruence|exact S2]|].
    rewrite app_assoc, E, <- app_assoc. apply K; auto. }
  split; [|apply R; auto]. destruct (skip_front b1 (core ++ b2) F1) as (b1' & E & G); [destruct core; [congruence|exact S1]|]. rewrite E. apply R; auto.
Qed.
Lemma rstrip_shape t : exists b, t = rstrip t ++ b /\ Forall (fun c => space c = true) b.
Proof.
  unfold rstrip. destruct (skip_shape space (rev t)) as (b & E & F & _). exists (rev b). split; [|apply Forall_rev; auto].
  rewrite <- rev_app_distr, <- E, rev_involutive. reflexivity.
Qed.
Lemma rstrip_spaces b : Forall (fun c => space c = true) b -> rstrip b = [].
Proof. intros F. unfold rstrip. rewrite <- (app_nil_r (rev b)), skip_all; auto; [apply Forall_rev; auto|exact I]. Qed.
Lemma rstrip_comma t r : rstrip (t ++ comma :: r) = t ++ comma :: rstrip r.
Proof.
  unfold rstrip. rewrite rev_app_distr. cbn [rev]. rewrite <- app_assoc. cbn [app].
  destruct (skip_shape space (rev r)) as (b & E & F & S). rewrite E at 1. rewrite <- app_assoc.
  assert (X : skip space (b ++ skip space (rev r) ++ comma :: rev t) = skip space (rev r) ++ comma :: rev t) by (apply skip_all; auto; destruct (skip space (rev r)); [reflexivity|exact S]).
  rewrite X, rev_app_distr. cbn [rev]. rewrite rev_involutive, <- app_assoc. reflexivity.
Qed.
Lemma rstrip_idem t : rstrip (rstrip t) = rstrip t.
Proof.
  unfold rstrip. rewrite rev_involutive. f_equal. destruct (skip_shape space (rev t)) as (b & E & F & S). set (x := skip space (rev t)) in *. apply (skip_all space [] x); auto.
Qed.
Lemma cut_shape s a b : cut s = (a, b) -> (forall c, In c a -> c <> comma) /\ s = a ++ match b with Some r => comma :: r | None => [] end.
Proof.
  revert a b. induction s as [|c s IH]; intros a b X; cbn in X; [injection X as <- <-; split; [intros c []|reflexivity]|].
  destruct (Ascii.eqb_spec c comma) as [->|N]; [injection X as <- <-; split; [intros c []|reflexivity]|].
  destruct (cut s) as (a0 & b0). injection X as <- <-. destruct (IH a0 b0 eq_refl) as (A & ->). split; [intros x [<-|Hx]; auto|reflexivity].
Qed.
Lemma cut_at t r : (forall c, In c t -> c <> comma) -> cut (t ++ comma :: r) = (t, Some r) /\ cut t = (t, None).
Proof.
  induction t as [|c t IH]; intros N; cbn; [split; reflexivity|]. destruct IH as (A & B); [intros; apply N; right; auto|].
  destruct (Ascii.eqb_spec c comma) as [E|_]; [exfalso; apply (N c); [left; auto|auto]|]. cbn in A. rewrite A, B. auto.
Qed.
Lemma split_fuel n : forall m s, (length s <= n)%nat -> (length s <= m)%nat -> split_loop n s = split_loop m s.
Proof.
  induction n as [|n IH]; intros m s Ln Lm; [destruct s; [destruct m; reflexivity|cbn in Ln; lia]|].
  destruct m as [|m]; [destruct s; [reflexivity|cbn in Lm; lia]|]. cbn [split_loop]. destruct s as [|c s]; auto. destruct (cut (c :: s)) as (a, b) eqn:X. f_equal.
  destruct b as [r|]; auto. destruct (cut_shape _ _ _ X) as (_ & E). apply (f_equal (@length ascii)) in E. rewrite app_length in E. cbn in *. apply IH; lia.
Qed.
Lemma no_comma z t : num z t -> forall c, In c t -> c <> comma.
Proof.
  intros X. destruct (numeral_core z t X) as (b1 & core & b2 & -> & F1 & F2 & _ & _ & _ & Nc & _). intros c Hc ->.
  rewrite Forall_forall in F1, F2. apply in_app_or in Hc as [Hc|Hc]; [apply F1 in Hc; discriminate|]. apply in_app_or in Hc as [Hc|Hc]; [apply (Nc _ Hc); reflexivity|apply F2 in Hc; discriminate].
Qed.
Lemma numeral_some z t : num z t -> t <> [].
Proof. intros X E. destruct (numeral_core z t X) as (b1 & core & b2 & -> & _ & _ & N & _). destruct b1, core; cbn in E; congruence. Qed.
(** the fields of a list of numerals *)
Lemma split_list l t : lst l t -> Forall2 num l (split_string_list t).
Proof.
  induction 1 as [b F|z t X|z t l r X L IH]; unfold split_string_list.
  - rewrite rstrip_spaces by auto. constructor.
  - assert (Y := proj2 (numeral_stripped z t X)). assert (Ne := numeral_some z _ Y). assert (Nc := no_comma z _ Y). set (s := rstrip t) in *. clearbody s.
    destruct s as [|c s]; [congruence|]. cbn [length split_loop]. rewrite (proj2 (cut_at (c :: s) [] Nc)). cbv beta iota zeta. apply Forall2_cons; [exact (proj1 (numeral_stripped _ _ Y))|apply Forall2_nil].
  - rewrite rstrip_comma. assert (Nc := no_comma z t X). destruct (t ++ comma :: rstrip r) as [|c s] eqn:E; [destruct t; discriminate|]. cbn [length split_loop]. rewrite <- E, (proj1 (cut_at t (rstrip r) Nc)).
    cbv beta iota zeta. apply Forall2_cons; [exact (proj1 (numeral_stripped _ _ X))|]. unfold split_string_list in IH. cbv zeta in IH. rewrite (split_fuel (length s) (length (rstrip r))); auto.
    apply (f_equal (@length ascii)) in E. rewrite app_length in E. cbn in E. lia.
Qed.
Lemma list_spaces l t b : lst l t -> Forall (fun c => space c = true) b -> lst l (t ++ b).
Proof.
  intros L F. induction L as [b0 F0|z t X|z t l r X L IH].
  - constructor. apply Forall_app. auto.
  - constructor. destruct X as (b1 & sign & ds & b2 & -> & F1 & F2 & K). exists b1, sign, ds, (b2 ++ b). split; [rewrite <- !app_assoc; reflexivity|]. split; auto. split; [|exact K]. apply Forall_app. split; auto.
    eapply Forall_impl; [|exact F]. intros c. apply space_blank.
  - rewrite <- app_assoc. cbn. constructor; auto.
Qed.
Lemma numeral_unstripped z s : num z (rstrip (skip space s)) -> num z s.
Proof.
  intros X. destruct (skip_shape space s) as (b1 & E1 & F1 & _). destruct (rstrip_shape (skip space s)) as (b2 & E2 & F2). rewrite E1, E2.
  assert (B : forall b, Forall (fun c => space c = true) b -> Forall (fun c => blank c = true) b) by (intros b; apply Forall_impl; intros c; apply space_blank).
  destruct X as (c1 & sign & ds & c2 & E & G1 & G2 & K). rewrite E. exists (b1 ++ c1), sign, ds, (c2 ++ b2). split; [rewrite <- !app_assoc; reflexivity|]. split; [apply Forall_app; auto|]. split; [apply Forall_app; auto|exact K].
Qed.
Lemma fields_list n : forall l s, (length s <= n)%nat -> Forall2 num l (split_loop n s) -> lst l s.
Proof.
  induction n as [|n IH]; intros l s Ls X; [destruct s; [inversion X; constructor; constructor|cbn in Ls; lia]|].
  destruct s as [|c s]; cbn [split_loop] in X; [inversion X; constructor; constructor|]. destruct (cut (c :: s)) as (a, b) eqn:Cu. destruct (cut_shape _ _ _ Cu) as (_ & E).
  inversion X as [|z f l' fs Z X' E1 E2]; subst. apply numeral_unstripped in Z. rewrite E. destruct b as [r|].
  - constructor; auto. apply IH; auto. apply (f_equal (@length ascii)) in E. rewrite app_length in E. cbn in *. lia.
  - inversion X'; subst. rewrite app_nil_r. constructor. auto.
Qed.

Lemma i_accepted : forall t, ids_ok t = true <-> exists l, lst l t /\ Forall (fun z => 0 <= z < 2 ^ 31) l.
Proof.
  intros t. unfold ids_ok. rewrite forallb_forall. split.
  - intros A. assert (B : exists l, Forall2 num l (split_string_list t) /\ Forall (fun z => 0 <= z < 2 ^ 31) l).
    { revert A. generalize (split_string_list t) as fs. induction fs as [|f fs IH]; intros A; [exists []; auto|]. destruct IH as (l & L1 & L2); [intros; apply A; right; auto|].
      destruct (proj1 (integer_ok_iff 0 (2 ^ 31 - 1) f ltac:(lia) ltac:(lia)) (A f (or_introl eq_refl))) as (z & Z & R). exists (z :: l). split; constructor; auto; lia. }
    destruct B as (l & B1 & B2). exists l. split; auto. destruct (rstrip_shape t) as (b & E & F). rewrite E. apply list_spaces; auto. unfold split_string_list in B1. apply fields_list in B1; auto.
  - intros (l & L & F) f Hf. assert (X := split_list l t L). clear L. revert f Hf. induction X as [|z f' l' fs Z X IH]; intros f Hf; [destruct Hf|]. inversion F as [|? ? Rz F']. subst. destruct Hf as [<-|Hf]; [|exact (IH F' f Hf)].
    apply integer_ok_iff; [lia|lia|]. exists z. split; auto. lia.
Qed.
Lemma i_ids : forall l t, lst l t -> Forall (fun z => 0 <= z < 2 ^ 31) l -> boundary_ids t = l.
Proof.
  intros l t L F. unfold boundary_ids. assert (X := split_list l t L). clear L. induction X as [|z f l' fs Z X IH]; [reflexivity|]. inversion F; subst. cbn [map]. f_equal; auto.
  apply read_unsigned_numeral; auto. lia.
Qed.
Lemma i_entries : forall t,
  (forall z, num z t -> - 2 ^ 31 <= z < 2 ^ 31 -> unsigned_parameter t = Some (if z <? 0 then z + 2 ^ 32 else z)) /\
  (unsigned_parameter t <> None <-> exists z, num z t /\ - 2 ^ 31 <= z < 2 ^ 31).
Proof.
  intros t. assert (A : forall z, num z t -> - 2 ^ 31 <= z < 2 ^ 31 -> unsigned_parameter t = Some (if z <? 0 then z + 2 ^ 32 else z)).
  { intros z Z R. unfold unsigned_parameter. assert (O : integer_ok (- 2 ^ 31) (2 ^ 31 - 1) t = true) by (apply integer_ok_iff; [lia|lia|]; exists z; split; [exact Z|lia]). rewrite O.
    destruct (read_int_numeral z t Z R) as (rest & ->). f_equal. destruct (Z.ltb_spec z 0).
    - symmetry. apply Z.mod_unique with (-1); lia.
    - apply Z.mod_small. lia. }
  split; auto. split.
  - unfold unsigned_parameter. destruct (integer_ok (- 2 ^ 31) (2 ^ 31 - 1) t) eqn:E; [|congruence]. intros _. apply integer_ok_iff in E as (z & Z & R); [|lia|lia]. exists z. split; auto. lia.
  - intros (z & Z & R). rewrite (A z Z R). discriminate.
Qed.
(** ** Theorems *)
(** An entry for boundary ids is accepted exactly if it is a list of numerals of numbers from 0 to 2^31-1. *)
Theorem C86_accepted_id_lists : forall t, ids_ok t = true <-> exists l, list_of l t /\ Forall (fun z => 0 <= z < 2 ^ 31) l.
Proof. intros t. rewrite (i_accepted t). split; intros (l & L & F); exists l; split; auto; apply list_lst; auto. Qed.
(** The program then uses exactly the numbers that are written, in their order. *)
Theorem C86_ids_are_the_numbers_written : forall l t, list_of l t -> Forall (fun z => 0 <= z < 2 ^ 31) l -> boundary_ids t = l.
Proof. intros l t L. apply i_ids. apply list_lst. exact L. Qed.
(** So a text denotes one list only. *)
Theorem C86_one_reading : forall l l' t, list_of l t -> list_of l' t -> Forall (fun z => 0 <= z < 2 ^ 31) l -> Forall (fun z => 0 <= z < 2 ^ 31) l' -> l = l'.
Proof. intros l l' t A B F F'. rewrite <- (C86_ids_are_the_numbers_written l t A F). apply C86_ids_are_the_numbers_written; auto. Qed.

(** An integer entry is accepted exactly if it is a numeral of a 32-bit number; the program then uses that number if it is not negative, and 2^32 more otherwise:
    the patterns let negative numbers through. *)
Theorem C86_integer_entries : forall t,
  (forall z, numeral z t -> - 2 ^ 31 <= z < 2 ^ 31 -> unsigned_parameter t = Some (if z <? 0 then z + 2 ^ 32 else z)) /\
  (unsigned_parameter t <> None <-> exists z, numeral z t /\ - 2 ^ 31 <= z < 2 ^ 31).
Proof.
  intros t. destruct (i_entries t) as (A & B). split.
  - intros z N. apply A. apply numeral_num. exact N.
  - rewrite B. split; intros (z & N & R); exists z; split; auto; apply numeral_num; auto.
Qed.
(** Hence "an accepted number is used as written" fails for every negative number. *)
Theorem C86_accepted_number_used_as_written_refuted : forall t z, numeral z t -> - 2 ^ 31 <= z < 0 -> exists u, unsigned_parameter t = Some u /\ u <> z /\ 2 ^ 31 <= u.
Proof. intros t z Z R. exists (z + 2 ^ 32). rewrite (proj1 (C86_integer_entries t) z Z) by lia. replace (z <? 0) with true by (symmetry; apply Z.ltb_lt; lia). split; auto. lia. Qed.

(** The default of "Dirichlet boundary ids", with blanks and a trailing comma; and "-1". *)
Definition chars (l : list nat) : text := map ascii_of_nat l.
Example C86_instance : boundary_ids (chars [49;44;49;49;48;44;49;49;48]%nat) = [1; 110; 110] /\ ids_ok (chars [32;48;55;44;32;9;49;49;48;32;44;32]%nat) = true /\
  boundary_ids (chars [32;48;55;44;32;9;49;49;48;32;44;32]%nat) = [7; 110] /\ ids_ok (chars [49;44;44;50]%nat) = false /\ ids_ok (chars [49;44;45;50]%nat) = false /\
  unsigned_parameter (chars [45;49]%nat) = Some 4294967295 /\ list_of [7; 110] (chars [32;48;55;44;32;9;49;49;48;32;44;32]%nat).
Proof.
  repeat split; try (vm_compute; reflexivity).
  apply (more 7 (chars [32;48;55]%nat) [110] (chars [32;9;49;49;48;32;44;32]%nat)); [|apply (more 110 (chars [32;9;49;49;48;32]%nat) [] (chars [32]%nat))].
  - exists (chars [32]%nat), [], [0; 7], []. split; [reflexivity|]. split; [apply forall_white; repeat constructor|]. split; [apply forall_white; repeat constructor|]. split; [discriminate|]. split; [repeat constructor; lia|]. left. split; [left; reflexivity|reflexivity].
  - exists (chars [32;9]%nat), [], [1; 1; 0], (chars [32]%nat). split; [reflexivity|]. split; [apply forall_white; repeat constructor|]. split; [apply forall_white; repeat constructor|]. split; [discriminate|]. split; [repeat constructor; lia|]. left. split; [left; reflexivity|reflexivity].
  - constructor. repeat constructor.
Qed.
