(** Accuracy of translations and evaluations of expansions (C94): sums and the loop over the coefficients. *)
From Coq Require Import ZArith Reals List Lia Lra Bool Arith.
From Verif Require Import ModelLegendre ModelLegTable ModelLegApi ModelExp SpecExp ProofsExp LibSum ModelFmm ModelFloat SpecFloat ProofsFloat ModelFloatExp ModelFloatExp2 SpecFloatTrans ProofsFloatTrans.
Import ListNotations.
Local Open Scope R_scope.

Section Sums.
  Variable u : R.
  Variable M : fmath.
  Variable pow_i : Z -> R.
  Hypothesis HR : relative_math u M pow_i.
  Notation ap2 := (ap2 u).
  Lemma csum_cons {T : Type} a (l : list T) f : csum (a :: l) f = rplus2 (f a) (csum l f).
  Proof. reflexivity. Qed.
  Lemma rplus2_assoc a b c : rplus2 a (rplus2 b c) = rplus2 (rplus2 a b) c.
  Proof. unfold rplus2. cbn [fst snd]. f_equal; ring. Qed.
  Lemma rplus2_0 a : rplus2 a (0, 0) = a. Proof. destruct a. unfold rplus2. cbn [fst snd]. f_equal; ring. Qed.
  Lemma rplus2_0l a : rplus2 (0, 0) a = a. Proof. destruct a. unfold rplus2. cbn [fst snd]. f_equal; ring. Qed.
  (** a sum in which some terms are skipped *)
  Lemma fsum_ap {T : Type} (keep : T -> bool) (S x : T -> R * R) k g l :
    (forall a, In a l -> if keep a then exists t, g a = Some (Some t) /\ ap2 k (S a) (x a) t else g a = Some None) ->
    forall j Z z zh, ap2 (k + j) Z z zh -> exists z', fsum M l g (Some zh) = Some z' /\ ap2 (k + j + length l) (rplus2 Z (csum (filter keep l) S)) (rplus2 z (csum (filter keep l) x)) z'.
  Proof.
    induction l as [|a l IH]; intros F j Z z zh N.
    - exists zh. split; [reflexivity|]. cbn [filter length]. change (csum [] S) with (0, 0). change (csum [] x) with (0, 0). rewrite !rplus2_0, Nat.add_0_r. exact N.
    - assert (Fa := F a (or_introl eq_refl)). assert (F' : forall b, In b l -> if keep b then exists t, g b = Some (Some t) /\ ap2 k (S b) (x b) t else g b = Some None) by (intros b I; apply F; right; exact I).
      cbn [filter length]. destruct (keep a).
      + destruct Fa as (t & E & Nt). assert (N' : ap2 (k + (j + 1)) (rplus2 Z (S a)) (rplus2 z (x a)) (fcadd M zh t)).
        { replace (k + (j + 1))%nat with (Datatypes.S (k + j)) by lia. apply (ap2_add u M pow_i HR); [exact N|]. eapply (ap2_weak u M pow_i HR); [|exact Nt]. lia. }
        destruct (IH F' _ _ _ _ N') as (z' & E' & Q). exists z'. unfold fsum in *. cbn [fold_left]. rewrite E. cbn [lbind]. split; [exact E'|].
        rewrite !csum_cons, !rplus2_assoc. replace (k + j + Datatypes.S (length l))%nat with (k + (j + 1) + length l)%nat by lia. exact Q.
      + destruct (IH F' _ _ _ _ N) as (z' & E' & Q). exists z'. unfold fsum in *. cbn [fold_left]. rewrite Fa. cbn [lbind]. split; [exact E'|]. eapply (ap2_weak u M pow_i HR); [|exact Q]. lia.
  Qed.
  Lemma fsum_app {T : Type} (a b : list T) g z : fsum M (a ++ b) g z = fsum M b g (fsum M a g z).
  Proof. unfold fsum. apply fold_left_app. Qed.
  Lemma fsum2_flat l inner g : fsum2 M l inner g = fsum M (flat_map (fun n => map (pair n) (inner n)) l) (fun nm => g (fst nm) (snd nm)) (Some (0, 0)).
  Proof.
    unfold fsum2. generalize (Some ((0, 0) : R * R)). induction l as [|n l IH]; intros z; cbn [fold_left flat_map]; [reflexivity|]. rewrite fsum_app, <- IH. f_equal.
    unfold fsum. generalize z. induction (inner n) as [|m r IHr]; intros z0; cbn [fold_left map]; [reflexivity|]. rewrite IHr. reflexivity.
  Qed.
  (** the loop over the coefficients adds each number once *)
  Lemma floop_some p f g : forall l, NoDup l -> (forall n m, In (n, m) l -> (m <= n <= p)%nat) -> (forall n m, In (n, m) l -> f n m = Some (g n m)) -> forall C, exists C',
    fold_left (fun o nm => lbind o (fun C => lbind (f (fst nm) (snd nm)) (fun a => Some (fun i => if Nat.eqb i (tri (fst nm) (snd nm)) then fcadd M (C i) a else C i)))) l (Some C) = Some C' /\
    (forall n m, In (n, m) l -> C' (tri n m) = fcadd M (C (tri n m)) (g n m)) /\ (forall i, (forall n m, In (n, m) l -> i <> tri n m) -> C' i = C i).
  Proof.
    induction l as [|[n0 m0] l IH]; intros Nd R F C; cbn [fold_left].
    - exists C. split; [reflexivity|]. split; [intros n m []|]. auto.
    - apply NoDup_cons_iff in Nd. destruct Nd as (Ni & Nd). cbn [lbind fst snd]. rewrite (F n0 m0 (or_introl eq_refl)). cbn [lbind].
      assert (L0 := R n0 m0 (or_introl eq_refl)).
      destruct (IH Nd ltac:(intros; apply R; right; auto) ltac:(intros; apply F; right; auto) (fun i => if Nat.eqb i (tri n0 m0) then fcadd M (C i) (g n0 m0) else C i)) as (C' & A & B & D).
      exists C'. split; [exact A|]. split.
      + intros n m [E|I].
        * inversion E; subst. rewrite D; [rewrite Nat.eqb_refl; reflexivity|]. intros n' m' I' E'.
          assert (L' : (m' <= n' <= p)%nat) by (apply R; right; auto). apply tri_inj in E' as [-> ->]; try lia. contradiction.
        * rewrite B by auto. destruct (Nat.eqb_spec (tri n m) (tri n0 m0)) as [E'|]; [|reflexivity].
          assert (L' : (m <= n <= p)%nat) by (apply R; right; auto). apply tri_inj in E' as [-> ->]; try lia. contradiction.
      + intros i Hi. rewrite D by (intros; apply Hi; right; auto). destruct (Nat.eqb_spec i (tri n0 m0)) as [E'|]; [|reflexivity].
        exfalso. apply (Hi n0 m0); [left; auto|auto].
  Qed.
  Lemma fadd_loop_some p f g C : (forall n m, (m <= n <= p)%nat -> f n m = Some (g n m)) ->
    exists C', fadd_loop M p f C = Some C' /\ forall n m, (m <= n <= p)%nat -> C' (tri n m) = fcadd M (C (tri n m)) (g n m).
  Proof.
    intros F. destruct (floop_some p f g (nm_pairs p) (nm_nodup p)) with (C := C) as (C' & A & B & _).
    - intros n m I. apply nm_in; auto.
    - intros n m I. apply F, nm_in; auto.
    - exists C'. split; [exact A|]. intros n m L. apply B, nm_in; auto.
  Qed.
  (** coefficients: old value plus a sum *)
  Lemma loop_ap p f C k (S x : nat -> nat -> R * R) : (forall n m, (m <= n <= p)%nat -> exists t, f n m = Some t /\ ap2 k (S n m) (x n m) t) ->
    exists C', fadd_loop M p f C = Some C' /\ forall n m, (m <= n <= p)%nat -> within u (Datatypes.S k) (rplus2 (C (tri n m)) (x n m)) (rplus2 (abs2 (C (tri n m))) (S n m)) (C' (tri n m)).
  Proof.
    intros F. set (g := fun n m => match f n m with Some t => t | None => (0, 0) end).
    destruct (fadd_loop_some p f g C) as (C' & E & B).
    - intros n m L. destruct (F n m L) as (t & E & _). unfold g. rewrite E. reflexivity.
    - exists C'. split; [exact E|]. intros n m L. rewrite (B n m L). apply ap2_within. destruct (F n m L) as (t & Ef & N). unfold g. rewrite Ef.
      apply (ap2_add u M pow_i HR); [|exact N]. split; cbn [abs2 fst snd]; eapply (ap_weak u M pow_i HR); try apply (ap_exact u); lia.
  Qed.
  Lemma flat_length p : length (flat_map (fun n => map (pair n) (sym_range n)) (seq 0 p)) = (p * p)%nat.
  Proof.
    induction p as [|p IH]; [reflexivity|]. rewrite seq_S, flat_map_app, app_length, IH. cbn [flat_map]. rewrite app_nil_r, map_length. unfold sym_range, zrange. rewrite map_length, seq_length. lia.
  Qed.
  Lemma indices_length p : length (indices p) = ((p + 1) * (p + 1))%nat. Proof. apply flat_length. Qed.
End Sums.
