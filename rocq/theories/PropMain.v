(** Property theorems C92: the command line, and what the exit status says. *)
From Coq Require Import ZArith List Arith Bool Ascii String Lia.
From Verif Require Import ModelParams SpecParams PropParams ModelDriver ModelMain SpecMain.
Import ListNotations.
Local Open Scope Z_scope.

(** ** Lemmas *)
Definition no_digit_first (s : text) : Prop := forall c r, s = c :: r -> forall d, 0 <= d <= 9 -> c <> digit_char d.
Lemma no_digit_stops s : no_digit_first s -> stops (fun c => match digit c with Some _ => true | None => false end) s.
Proof.
  intros N. destruct s as [|c r]; cbn; auto. destruct (digit c) as [d|] eqn:E; auto. apply char_of_digit in E as (B & E).
  destruct (N c r eq_refl d B E).
Qed.
Lemma atoi_number b1 sign ds rest neg : Forall white b1 -> ds <> [] -> Forall (fun d => 0 <= d <= 9) ds -> signed sign neg -> no_digit_first rest ->
  atoi (b1 ++ sign ++ map digit_char ds ++ rest) =
    let z := if neg then - value ds else value ds in if (- 2 ^ 31 <=? z) && (z <? 2 ^ 31) then Some z else None.
Proof.
  intros F N D Sg S. unfold atoi. rewrite (scan_numeral b1 sign ds rest neg); auto using no_digit_stops. apply forall_white. exact F.
Qed.

(** two results of the same call *)
Ltac same := repeat match goal with M1 : ?f ?x ?a = (?p, None), M2 : ?f ?x ?a = (?q, None) |- _ => rewrite M1 in M2; injection M2 as M2; subst end.
Section Runs.
  Variable W : Type.
  Variable make : name -> W -> W * option thrown.
  Notation call := (call W make).
  Notation next := (next W).
  Notation all_return := (all_return W make).
  Notation one_throws := (one_throws W make).
  (** a piece performs the calls of l *)
  Definition performs (p : piece W) (l : list name) : Prop := forall w,
    (exists w', p w = Some (w', None) /\ all_return w l w') \/ (exists w' e, p w = Some (w', Some e) /\ one_throws w l e w').
  Lemma p_call a : performs (call a) [a].
  Proof.
    intros w. unfold ModelMain.call. destruct (make a w) as [w1 [e|]] eqn:E; [right|left].
    - exists w1, e. split; auto. exists [], a, [], w. repeat split; auto. constructor.
    - exists w1. split; auto. econstructor; [exact E|constructor].
  Qed.
  Lemma p_nothing : performs (nothing W) [].
  Proof. intros w. left. exists w. split; [reflexivity|constructor]. Qed.
  Lemma all_app w l1 w1 l2 w2 : all_return w l1 w1 -> all_return w1 l2 w2 -> all_return w (l1 ++ l2) w2.
  Proof. induction 1; cbn; auto. intros B. econstructor; eauto. Qed.
  Lemma throws_left w l1 l2 e w' : one_throws w l1 e w' -> one_throws w (l1 ++ l2) e w'.
  Proof. intros (b & a & r & w1 & E & A & B). exists b, a, (r ++ l2), w1. rewrite E, <- app_assoc. auto. Qed.
  Lemma throws_right w l1 w1 l2 e w' : all_return w l1 w1 -> one_throws w1 l2 e w' -> one_throws w (l1 ++ l2) e w'.
  Proof. intros A (b & a & r & w2 & E & B & C). exists (l1 ++ b), a, r, w2. rewrite E, <- app_assoc. split; auto. split; auto. eapply all_app; eauto. Qed.
  Lemma p_next p q l1 l2 : performs p l1 -> performs q l2 -> performs (next p q) (l1 ++ l2).
  Proof.
    intros P Q w. unfold ModelMain.next. destruct (P w) as [(w1 & E & A)|(w1 & e & E & A)]; rewrite E.
    - destruct (Q w1) as [(w2 & E2 & B)|(w2 & e & E2 & B)]; rewrite E2; [left|right].
      + exists w2. split; auto. eapply all_app; eauto.
      + exists w2, e. split; auto. eapply throws_right; eauto.
    - right. exists w1, e. split; auto. apply throws_left. exact A.
  Qed.
  Lemma p_cycles g c : 0 <= c < 2 ^ 32 - 1 -> (g = true -> c = 0) -> forall n k, Z.of_nat k + Z.of_nat n = c -> forall fuel, (S n < fuel)%nat ->
    performs (cycles W make g c fuel (Z.of_nat k)) (solves (S n)).
  Proof.
    intros Hc Hg. induction n as [|n IH]; intros k Hk fuel Hf.
    - destruct fuel as [|[|f]]; try lia. cbn [ModelMain.cycles].
      replace (Z.of_nat k <=? c)%Z with true by (symmetry; apply Z.leb_le; lia).
      replace (Z.of_nat k <? c)%Z with false by (symmetry; apply Z.ltb_ge; lia). rewrite andb_false_r.
      assert (U : u32 (Z.of_nat k + 1) = Z.of_nat k + 1) by (apply Z.mod_small; lia). rewrite U.
      replace (Z.of_nat k + 1 <=? c)%Z with false by (symmetry; apply Z.leb_gt; lia).
      change (solves 1) with ([Reinit] ++ [Solve] ++ [] ++ []). repeat apply p_next; auto using p_call, p_nothing.
    - destruct fuel as [|f]; try lia. cbn [ModelMain.cycles].
      replace (Z.of_nat k <=? c)%Z with true by (symmetry; apply Z.leb_le; lia).
      replace (Z.of_nat k <? c)%Z with true by (symmetry; apply Z.ltb_lt; lia).
      assert (G : g = false) by (destruct g; auto; specialize (Hg eq_refl); lia). replace (negb g && true) with true by (rewrite G; reflexivity). cbv iota.
      assert (U : u32 (Z.of_nat k + 1) = Z.of_nat (S k)) by (unfold u32; rewrite Z.mod_small; lia). rewrite U.
      change (solves (S (S n))) with ([Reinit] ++ [Solve] ++ ([Adapt] ++ [Update]) ++ solves (S n)).
      repeat apply p_next; auto using p_call. apply IH; lia.
  Qed.
  Lemma p_run (g : bool) n p fuel : 0 <= n < 2 ^ 32 - 1 -> 0 <= p < 2 ^ 32 -> let c := if g then O else Z.to_nat n in (S c < fuel)%nat ->
    performs (run W make g n p fuel) ([Domain; Refine (if g then n else p); Update] ++ solves (S c) ++ [Errors; Output; Summary]).
  Proof.
    intros Hn Hp c Hf. unfold run. assert (Un : u32 n = n) by (apply Z.mod_small; lia). assert (Up : u32 p = p) by (apply Z.mod_small; lia). rewrite Un, Up.
    change ([Domain; Refine (if g then n else p); Update] ++ solves (S c) ++ [Errors; Output; Summary])
      with ([Domain] ++ [Refine (if g then n else p)] ++ [Update] ++ solves (S c) ++ [Errors] ++ [Output] ++ [Summary]).
    repeat apply p_next; auto using p_call. change 0 with (Z.of_nat 0). apply p_cycles; auto.
    - destruct g; cbn; lia.
    - intros ->; reflexivity.
    - unfold c. destruct g; cbn; lia.
  Qed.

  (** however long the cycles take, a run that ends has performed some number of them *)
  Lemma p_cycles_any g c : forall fuel i w r, cycles W make g c fuel i w = Some r ->
    exists l, match r with (w', None) => all_return w l w' | (w', Some e) => one_throws w l e w' end /\ ~ In Output l /\ ~ In Summary l.
  Proof.
    induction fuel as [|f IH]; intros i w r E; [discriminate|]. cbn [ModelMain.cycles] in E. destruct (i <=? c).
    - set (mid := if negb g && (i <? c) then next (call Adapt) (call Update) else nothing W) in E.
      assert (M : exists lm, performs mid lm /\ ~ In Output lm /\ ~ In Summary lm).
      { unfold mid. destruct (negb g && (i <? c)); [exists ([Adapt] ++ [Update])|exists []]; (split; [auto using p_next, p_call, p_nothing|]); cbn; intuition discriminate. }
      destruct M as (lm & M & M1 & M2).
      assert (P : performs (next (call Reinit) (next (call Solve) mid)) ([Reinit] ++ [Solve] ++ lm)) by auto using p_next, p_call.
      assert (E' : next (next (call Reinit) (next (call Solve) mid)) (cycles W make g c f (u32 (i + 1))) w = Some r).
      { rewrite <- E. unfold ModelMain.next. destruct (call Reinit w) as [[w1 [e|]]|]; auto. destruct (call Solve w1) as [[w2 [e|]]|]; auto. }
      unfold ModelMain.next at 1 in E'. destruct (P w) as [(w1 & E1 & A)|(w1 & e & E1 & A)]; rewrite E1 in E'.
      + destruct (IH _ _ _ E') as (l & B & B1 & B2). exists (([Reinit] ++ [Solve] ++ lm) ++ l). split; [|rewrite !in_app_iff; cbn; intuition discriminate].
        destruct r as [w' [e|]]; [eapply throws_right; eauto|eapply all_app; eauto].
      + injection E' as <-. exists ([Reinit] ++ [Solve] ++ lm). split; auto. rewrite !in_app_iff; cbn; intuition discriminate.
    - injection E as <-. exists []. split; [constructor|]. cbn; tauto.
  Qed.
End Runs.

(** ** Theorems: the argument *)
(** White space, a sign and digits, followed by anything that is no digit: the number of threads is that number, modulo 2^32 if it is negative; outside the
    range of int the behaviour is undefined. Arguments after the first do not matter. *)
Theorem C92_thread_argument : forall w sign ds rest z program others,
  Forall white w -> ds <> [] -> Forall (fun d => 0 <= d <= 9) ds -> no_digit_first rest ->
  ((sign = [] \/ sign = ["+"%char]) /\ z = value ds \/ sign = ["-"%char] /\ z = - value ds) ->
  threads_of (program :: (w ++ sign ++ map digit_char ds ++ rest) :: others) =
    if (- 2 ^ 31 <=? z) && (z <? 2 ^ 31) then Some (if z <? 0 then z + 2 ^ 32 else z) else None.
Proof.
  intros w sign ds rest z program others F N D S Z. unfold threads_of.
  assert (Q : exists neg, signed sign neg /\ z = if neg then - value ds else value ds).
  { destruct Z as [(A & B)|(A & B)]; [exists false|exists true]; split; auto; [left|right]; auto. }
  destruct Q as (neg & Sg & Q). rewrite (atoi_number w sign ds rest neg F N D Sg S). cbv zeta. rewrite <- Q. destruct (- 2 ^ 31 <=? z) eqn:A; [|reflexivity].
  destruct (z <? 2 ^ 31) eqn:B; [|reflexivity]. cbn [andb option_map]. apply Z.leb_le in A. apply Z.ltb_lt in B. f_equal. unfold u32. destruct (z <? 0) eqn:C.
  - apply Z.ltb_lt in C. rewrite <- (Z.mod_add z 1 (2 ^ 32)) by lia. rewrite Z.mod_small; lia.
  - apply Z.ltb_ge in C. apply Z.mod_small. lia.
Qed.
(** The rest of the cases: without argument no limit; an argument without a number at its front gives 0. *)
Theorem C92_other_arguments : forall program a others,
  threads_of [program] = Some (2 ^ 32 - 1) /\
  ((forall w sign ds rest, Forall white w -> (sign = [] \/ sign = ["+"%char] \/ sign = ["-"%char]) -> ds <> [] -> Forall (fun d => 0 <= d <= 9) ds -> a <> w ++ sign ++ map digit_char ds ++ rest) ->
   threads_of (program :: a :: others) = Some 0).
Proof.
  intros program a others. split; [reflexivity|]. intros N. unfold threads_of, atoi. destruct (scan_number a) as [[[neg v] rest]|] eqn:E; [|reflexivity]. exfalso.
  apply scan_shape in E as (b & sign & ds & E & F & M & D & Sg & _). apply (N b sign ds rest); auto; [apply forall_white; exact F|]. destruct Sg as [(_ & [->| ->])|(_ & ->)]; auto.
Qed.
(** So -1 is the same as no argument, and an argument that is no number is not rejected. *)
Theorem C92_minus_one_is_no_limit : forall program others, threads_of (program :: ["-"%char; "1"%char] :: others) = threads_of [program].
Proof. intros. reflexivity. Qed.
Theorem C92_a_word_is_zero_threads : forall program c r others, ~ white c -> c <> "+"%char -> c <> "-"%char -> no_digit_first (c :: r) -> threads_of (program :: (c :: r) :: others) = Some 0.
Proof.
  intros program c r others A B C D. apply (C92_other_arguments program (c :: r) others). intros w sign ds rest F Sg N Ds E.
  destruct w as [|x w]; [|injection E as -> _; inversion F; subst; contradiction]. destruct Sg as [->|[->| ->]]; cbn in E; try (injection E as -> _; congruence).
  destruct ds as [|d ds]; [congruence|]. injection E as -> _. inversion Ds; subst. exact (D _ _ eq_refl d ltac:(auto) eq_refl).
Qed.

(** ** Theorems: the exit status *)
Section Status.
  Variable W : Type.
  Variable make : name -> W -> W * option thrown.
  Variables (global : W -> bool) (n_cycles pre : W -> Z).
  Notation main := (main W make global n_cycles pre).
  Notation all_return := (all_return W make).
  Notation one_throws := (one_throws W make).
  Definition level (w : W) : Z := if global w then n_cycles w else pre w.
  Definition number (w : W) : nat := if global w then O else Z.to_nat (n_cycles w).

  Lemma start_cases t fuel w :
    (exists w1, all_return w [Start t; Construct; Read] w1 /\ body W make global n_cycles pre t fuel w = run W make (global w1) (n_cycles w1) (pre w1) fuel w1) \/
    (exists e w1, one_throws w [Start t; Construct; Read] e w1 /\ body W make global n_cycles pre t fuel w = Some (w1, Some e)).
  Proof.
    assert (P := p_next W make _ _ _ _ (p_call W make (Start t)) (p_next W make _ _ _ _ (p_call W make Construct) (p_call W make Read)) w).
    unfold body. unfold next in P |- *. unfold call in P |- *. cbn [app] in P.
    destruct (make (Start t) w) as [w1 [e|]]; [|destruct (make Construct w1) as [w2 [e|]]; [|destruct (make Read w2) as [w3 [e|]]]];
    destruct P as [(w' & E & A)|(w' & e' & E & A)]; try discriminate; injection E as <-; try subst e'; try (right; eexists; eexists; split; [exact A|reflexivity]). left. exists w3. split; auto.
  Qed.

  (** The program makes its calls in their order until one throws. Status 0, with nothing on the error stream: all returned. Status 1: one threw, and its
      message is printed; the calls behind it are not made. There is no other status. *)
  Theorem C92_exit_status : forall argv t fuel w status lines w', threads_of argv = Some t ->
    (forall w1, all_return w [Start t; Construct; Read] w1 -> 0 <= n_cycles w1 < 2 ^ 32 - 1 /\ 0 <= pre w1 < 2 ^ 32 /\ (S (number w1) < fuel)%nat) ->
    main argv fuel w = Some (status, lines, w') <->
    (status = 0 /\ lines = [] /\ exists w1, all_return w [Start t; Construct; Read] w1 /\ all_return w (order t (level w1) (number w1)) w') \/
    (status = 1 /\ exists e, lines = report e /\
       (one_throws w [Start t; Construct; Read] e w' \/
        exists w1, all_return w [Start t; Construct; Read] w1 /\ one_throws w (order t (level w1) (number w1)) e w')).
  Proof.
    intros argv t fuel w status lines w' T Ok. unfold ModelMain.main. rewrite T.
    assert (Fun : forall l a b c, all_return a l b -> all_return a l c -> b = c).
    { induction l as [|x l IH]; intros a b c A B; inversion A; inversion B; subst; auto. same. eauto. }
    assert (Det : forall l a b e c, all_return a l b -> one_throws a l e c -> False).
    { intros l a b e c A (bf & x & af & m & -> & B & C). revert a A B. induction bf as [|y bf IH]; intros a A B; cbn in A; inversion A; subst; inversion B; subst; [congruence|].
      same. eauto. }
    assert (Thr : forall l a e1 b1 e2 b2, one_throws a l e1 b1 -> one_throws a l e2 b2 -> e1 = e2 /\ b1 = b2).
    { induction l as [|x l IH]; intros a e1 b1 e2 b2 (bf & y & af & m & E & A & B) (bf' & y' & af' & m' & E' & A' & B').
      - destruct bf; discriminate.
      - destruct bf as [|z bf], bf' as [|z' bf']; cbn in E, E'; injection E as -> E; injection E' as -> E'; inversion A; inversion A'; subst; try congruence.
        + split; congruence.
        + same. eapply IH; [exists bf, y, af, m|exists bf', y', af', m']; eauto. }
    assert (Cut : forall l1 l2 a e b, one_throws a (l1 ++ l2) e b -> one_throws a l1 e b \/ exists m, all_return a l1 m /\ one_throws m l2 e b).
    { induction l1 as [|x l1 IH]; intros l2 a e b X; [right; exists a; split; [constructor|exact X]|]. destruct X as (bf & y & af & m & E & A & B).
      destruct bf as [|z bf]; cbn in E; injection E as -> E.
      - left. exists [], y, l1, m. inversion A; subst. auto.
      - inversion A; subst. destruct (IH l2 w1 e b) as [(bf' & y' & af' & m' & E' & A' & B')|(m' & A' & B')]; [exists bf, y, af, m; auto| |].
        + left. exists (z :: bf'), y', af', m'. rewrite E'. repeat split; auto. econstructor; eauto.
        + right. exists m'. split; auto. econstructor; eauto. }
    assert (CutA : forall l1 l2 a b, all_return a (l1 ++ l2) b -> exists m, all_return a l1 m /\ all_return m l2 b).
    { induction l1 as [|x l1 IH]; intros l2 a b X; cbn in X; [exists a; split; [constructor|exact X]|]. inversion X as [|? ? w1 ? ? X1 X2]; subst. destruct (IH _ _ _ X2) as (m & A & B). exists m. split; auto. econstructor; eauto. }
    destruct (start_cases t fuel w) as [(w1 & A & E)|(e & w1 & A & E)]; rewrite E.
    - destruct (Ok w1 A) as (O1 & O2 & O3).
      assert (Oe : forall w2, all_return w [Start t; Construct; Read] w2 -> w2 = w1) by (intros w2 B; symmetry; eapply Fun; eauto).
      assert (P := p_run W make (global w1) (n_cycles w1) (pre w1) fuel O1 O2 O3 w1). fold (level w1) in P. fold (number w1) in P.
      set (tail := [Domain; Refine (level w1); Update] ++ solves (S (number w1)) ++ [Errors; Output; Summary]) in P.
      assert (Ord : order t (level w1) (number w1) = [Start t; Construct; Read] ++ tail) by reflexivity.
      destruct P as [(w2 & R & B)|(w2 & e & R & B)]; rewrite R.
      + split.
        * intros X. injection X as <- <- <-. left. repeat split; auto. exists w1. split; auto. rewrite Ord. eapply all_app; eauto.
        * intros [(-> & -> & w3 & C & D)|(_ & e & _ & [C|(w3 & C & D)])].
          -- rewrite (Oe _ C), Ord in D. apply CutA in D as (m & D1 & D2). rewrite (Fun _ _ _ _ D1 A) in D2. rewrite (Fun _ _ _ _ D2 B). reflexivity.
          -- destruct (Det _ _ _ _ _ A C).
          -- rewrite (Oe _ C), Ord in D. apply Cut in D as [D|(m & D1 & D2)]; [destruct (Det _ _ _ _ _ A D)|]. rewrite (Fun _ _ _ _ D1 A) in D2. destruct (Det _ _ _ _ _ B D2).
      + split.
        * intros X. injection X as <- <- <-. right. split; auto. exists e. split; auto. right. exists w1. split; auto. rewrite Ord. eapply throws_right; eauto.
        * intros [(-> & -> & w3 & C & D)|(-> & e' & -> & [C|(w3 & C & D)])].
          -- rewrite (Oe _ C), Ord in D. apply CutA in D as (m & D1 & D2). rewrite (Fun _ _ _ _ D1 A) in D2. destruct (Det _ _ _ _ _ D2 B).
          -- destruct (Det _ _ _ _ _ A C).
          -- rewrite (Oe _ C), Ord in D. apply Cut in D as [D|(m & D1 & D2)]; [destruct (Det _ _ _ _ _ A D)|]. rewrite (Fun _ _ _ _ D1 A) in D2.
             destruct (Thr _ _ _ _ _ _ B D2) as (-> & ->). reflexivity.
    - split.
      + intros X. injection X as <- <- <-. right. split; auto. exists e. split; auto.
      + intros [(-> & -> & w3 & C & D)|(-> & e' & -> & [C|(w3 & C & D)])].
        * destruct (Det _ _ _ _ _ C A).
        * destruct (Thr _ _ _ _ _ _ A C) as (-> & ->). reflexivity.
        * destruct (Det _ _ _ _ _ C A).
  Qed.
  (** A program that ends, for any parameters, even those with which the cycles wrap around: with status 0 the results have been written, and nothing but the timers was
      called afterwards; with status 1 they were written only if it was the timers that threw. *)
  Theorem C92_status_and_results : forall argv fuel w status lines w', main argv fuel w = Some (status, lines, w') ->
    (status = 0 /\ lines = [] /\ exists before w1, all_return w (before ++ [Output; Summary]) w' /\ ~ In Output before /\ ~ In Summary before /\ all_return w before w1) \/
    (status = 1 /\ lines <> [] /\ exists before a w1 e, lines = report e /\ all_return w before w1 /\ make a w1 = (w', Some e) /\
       (In Output before <-> a = Summary)).
  Proof.
    intros argv fuel w status lines w' E. unfold ModelMain.main in E. destruct (threads_of argv) as [t|]; [|discriminate].
    assert (Rep : forall e, report e <> []) by (intros []; discriminate).
    assert (Free : forall w l e w2, one_throws w l e w2 -> ~ In Output l -> ~ In Summary l ->
       exists before a w1 e', report e = report e' /\ all_return w before w1 /\ make a w1 = (w2, Some e') /\ (In Output before <-> a = Summary)).
    { intros x l e w2 (b & a & r & w1 & -> & A & B) N1 N2. exists b, a, w1, e. repeat split; auto.
      - intros X. destruct N1. apply in_or_app. auto.
      - intros ->. destruct N2. apply in_or_app. cbn. auto. }
    destruct (start_cases t fuel w) as [(w1 & A & R)|(e & w1 & A & R)]; rewrite R in E.
    2:{ injection E as <- <- <-. right. split; auto. split; auto. apply (Free _ _ _ _ A); cbn; intuition discriminate. }
    unfold run in E. set (cyc := cycles W make (global w1) (if global w1 then 0 else u32 (n_cycles w1)) fuel 0) in E.
    set (lev := if global w1 then u32 (n_cycles w1) else u32 (pre w1)) in E.
    assert (P : performs W make (next W (call W make Domain) (next W (call W make (Refine lev)) (call W make Update))) ([Domain] ++ [Refine lev] ++ [Update])) by auto using p_next, p_call.
    assert (E' : next W (next W (call W make Domain) (next W (call W make (Refine lev)) (call W make Update)))
                   (next W cyc (next W (call W make Errors) (next W (call W make Output) (call W make Summary)))) w1 =
                 next W (call W make Domain) (next W (call W make (Refine lev)) (next W (call W make Update)
                   (next W cyc (next W (call W make Errors) (next W (call W make Output) (call W make Summary)))))) w1).
    { unfold next. destruct (call W make Domain w1) as [[w2 [e|]]|]; auto. destruct (call W make (Refine lev) w2) as [[w3 [e|]]|]; auto. }
    rewrite <- E' in E. clear E'. unfold next at 1 in E. destruct (P w1) as [(w2 & E1 & B)|(w2 & e & E1 & B)]; rewrite E1 in E.
    2:{ injection E as <- <- <-. right. split; auto. split; auto. apply (Free w ([Start t; Construct; Read] ++ [Domain] ++ [Refine lev] ++ [Update])); [eapply throws_right; eauto| |]; cbn; intuition discriminate. }
    assert (C := all_app W make _ _ _ _ _ A B). unfold next at 1 in E. destruct (cyc w2) as [r|] eqn:Y; [|discriminate].
    destruct (p_cycles_any W make _ _ _ _ _ _ Y) as (l & L & L1 & L2). destruct r as [w3 [e|]].
    { injection E as <- <- <-. right. split; auto. split; auto. apply (Free w (([Start t; Construct; Read] ++ [Domain] ++ [Refine lev] ++ [Update]) ++ l)); [eapply throws_right; eauto| |];
        rewrite in_app_iff; cbn; intuition discriminate. }
    assert (D := all_app W make _ _ _ _ _ C L). set (bef := ([Start t; Construct; Read] ++ [Domain] ++ [Refine lev] ++ [Update]) ++ l) in D.
    assert (F1 : ~ In Output bef /\ ~ In Summary bef) by (unfold bef; rewrite !in_app_iff; cbn; intuition discriminate). destruct F1 as (F1 & F2).
    unfold next, call in E. destruct (make Errors w3) as [w4 [e|]] eqn:M1.
    { injection E as <- <- <-. right. split; auto. split; auto. exists bef, Errors, w3, e. repeat split; auto; [tauto|discriminate]. }
    assert (D1 : all_return w (bef ++ [Errors]) w4) by (eapply all_app; [exact D|econstructor; [exact M1|constructor]]).
    destruct (make Output w4) as [w5 [e|]] eqn:M2.
    { injection E as <- <- <-. right. split; auto. split; auto. exists (bef ++ [Errors]), Output, w4, e. repeat split; auto; [|discriminate]. rewrite in_app_iff. cbn. intuition discriminate. }
    destruct (make Summary w5) as [w6 [e|]] eqn:M3; injection E as <- <- <-.
    { right. split; auto. split; auto. exists ((bef ++ [Errors]) ++ [Output]), Summary, w5, e. repeat split; auto; [|intros _; apply in_or_app; cbn; auto].
      eapply all_app; [exact D1|econstructor; [exact M2|constructor]]. }
    left. split; auto. split; auto. exists (bef ++ [Errors]), w4. split; [eapply all_app; [exact D1|econstructor; [exact M2|econstructor; [exact M3|constructor]]]|].
    rewrite !in_app_iff. cbn. split; [intuition discriminate|]. split; [intuition discriminate|exact D1].
  Qed.
  (** What the user reads with status 1: the text of the exception that ended the program, between two rules; "Unknown exception!" for anything else thrown. *)
  Theorem C92_message : forall argv fuel w lines w', main argv fuel w = Some (1, lines, w') ->
    exists a w1 e, make a w1 = (w', Some e) /\
      lines = match e with
              | Std what => [""; ""; "----------------------------------------------------"; "Exception on processing: "; what; "Aborting!"; "----------------------------------------------------"]
              | Other => [""; ""; "----------------------------------------------------"; "Unknown exception!"; "Aborting!"; "----------------------------------------------------"]
              end%string.
  Proof.
    intros argv fuel w lines w' E. destruct (C92_status_and_results _ _ _ _ _ _ E) as [(S & _)|(_ & _ & b & a & w1 & e & -> & _ & X & _)]; [discriminate S|].
    exists a, w1, e. split; [exact X|]. destruct e; reflexivity.
  Qed.
  (** With at most 2^32 - 2 cycles the program ends, with status 0 or 1, however the calls behave. *)
  Theorem C92_run_ends : forall argv t fuel w, threads_of argv = Some t ->
    (forall w1, all_return w [Start t; Construct; Read] w1 -> 0 <= n_cycles w1 < 2 ^ 32 - 1 /\ 0 <= pre w1 < 2 ^ 32 /\ (S (number w1) < fuel)%nat) ->
    exists status lines w', main argv fuel w = Some (status, lines, w') /\ (status = 0 \/ status = 1).
  Proof.
    intros argv t fuel w T Ok. unfold ModelMain.main. rewrite T. destruct (start_cases t fuel w) as [(w1 & A & E)|(e & w1 & A & E)]; rewrite E.
    - destruct (Ok w1 A) as (O1 & O2 & O3). destruct (p_run W make (global w1) (n_cycles w1) (pre w1) fuel O1 O2 O3 w1) as [(w2 & R & _)|(w2 & e & R & _)]; rewrite R; eauto 10.
    - eauto 10.
  Qed.
End Status.

(** A world that counts the calls; the second solve throws: two threads, local refinement, three cycles. *)
Definition log_call (fail : nat) (a : name) (w : list name) : list name * option thrown :=
  (w ++ [a], match a with Solve => if Nat.eqb (count_occ Bool.bool_dec (map (fun x => match x with Solve => true | _ => false end) w) true) fail then Some (Std "no convergence") else None | _ => None end).
Example C92_instance :
  option_map (fun r => (fst (fst r), List.length (snd r))) (ModelMain.main (list name) (log_call 7) (fun _ => false) (fun _ => 3) (fun _ => 0) [["p"%char]; ["2"%char]] 9 []) = Some (0, 23%nat) /\
  option_map (fun r => (fst (fst r), snd r)) (ModelMain.main (list name) (log_call 1) (fun _ => false) (fun _ => 3) (fun _ => 0) [["p"%char]; ["2"%char]] 9 []) =
    Some (1, [Start 2; Construct; Read; Domain; Refine 0; Update; Reinit; Solve; Adapt; Update; Reinit; Solve]) /\
  threads_of [["p"%char]; ["3"%char; "x"%char]] = Some 3 /\ threads_of [["p"%char]; ["x"%char]] = Some 0.
Proof. repeat split; vm_compute; reflexivity. Qed.
