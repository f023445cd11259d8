(** * Ordering of the normals around a corner. *)
From Coq Require Import Reals List Arith Bool Lia Lra Permutation.
From Verif Require Import LibSum ModelHyp SpecHyp ProofsHyp.
Import ListNotations.
Local Open Scope R_scope.

Lemma erase_perm {A} (l : list A) k d : (k < length l)%nat -> Permutation (nth k l d :: erase k l) l.
Proof.
  revert k. induction l as [|a l IH]; intros k Hk; [cbn in Hk; lia|]. destruct k as [|k]; [cbn; apply Permutation_refl|].
  change (nth (S k) (a :: l) d) with (nth k l d). change (erase (S k) (a :: l)) with (a :: erase k l). eapply Permutation_trans; [apply perm_swap|]. apply perm_skip, IH. cbn in Hk. lia.
Qed.
Lemma erase_length {A} (l : list A) k : (k < length l)%nat -> length (erase k l) = (length l - 1)%nat.
Proof. intros Hk. destruct l as [|d l']; [cbn in Hk; lia|]. assert (P := Permutation_length (erase_perm (d :: l') k d Hk)). cbn [length] in *. lia. Qed.
Lemma erase_map {A B} (f : A -> B) l k : erase k (map f l) = map f (erase k l).
Proof. unfold erase. rewrite firstn_map, skipn_map, map_app. reflexivity. Qed.
Lemma next_index_lt avg prev qs : (0 < length qs)%nat -> (next_index avg prev qs < length qs)%nat.
Proof.
  intros L. unfold next_index. assert (G : forall ks st, (snd st < length qs)%nat -> (forall k, In k ks -> (k < length qs)%nat) -> (snd (fold_left (next_step avg prev qs) ks st) < length qs)%nat).
  { induction ks as [|k ks IH]; intros st Hs Hk; auto. cbn [fold_left]. apply IH; [|intros; apply Hk; right; auto]. unfold next_step.
    destruct (candidate _ _ _) as [[q s]|]; auto. destruct (Rlt_dec 0 q); auto. destruct (Rlt_dec s (fst st)); auto. cbn. apply Hk. left. reflexivity. }
  apply G; [cbn; lia|]. intros k Hk. apply in_seq in Hk. lia.
Qed.
Lemma order_perm fuel avg prev ns qs : length ns = fuel -> length qs = fuel -> Permutation (order fuel avg prev ns qs) ns.
Proof.
  revert prev ns qs. induction fuel as [|f IH]; intros prev ns qs Hn Hq; cbn [order]; [destruct ns; [constructor|discriminate]|].
  assert (K := next_index_lt avg prev qs ltac:(lia)). set (k := next_index avg prev qs) in *.
  eapply Permutation_trans; [apply perm_skip, IH|apply erase_perm; lia]; rewrite erase_length; lia.
Qed.
Lemma ordered_perm u : u <> [] -> exists l, ordered u = Some l /\ Permutation l u /\ hd v0 l = hd v0 u.
Proof.
  destruct u as [|n0 r]; [congruence|]. intros _. cbn [ordered]. eexists. split; [reflexivity|]. split; [|reflexivity]. apply perm_skip, order_perm; [reflexivity|apply map_length].
Qed.

(** ** unique *)
Lemma unique_inv l : forall u, (forall a b, In a (u ++ l) -> In b (u ++ l) -> True) -> exists v, fold_left (fun u n => if existsb (near n) u then u else u ++ [n]) l u = u ++ v /\
  (forall a, In a v -> In a l) /\ (forall a, In a l -> exists b, In b (u ++ v) /\ (a = b \/ near a b = true)) /\
  (ForallOrdPairs (fun b a => near a b = false) u -> ForallOrdPairs (fun b a => near a b = false) (u ++ v)).
Proof.
  induction l as [|n l IH]; intros u _; cbn [fold_left].
  - exists []. rewrite app_nil_r. split; auto. split; [intros ? []|]. split; [intros ? []|auto].
  - destruct (existsb (near n) u) eqn:E.
    + destruct (IH u ltac:(auto)) as (v & -> & A & B & C). exists v. split; auto. split; [intros; right; auto|]. split; [|auto].
      intros a [<-|Ha]; [|auto]. apply existsb_exists in E as (b & Hb & Nb). exists b. split; [apply in_or_app; auto|auto].
    + destruct (IH (u ++ [n]) ltac:(auto)) as (v & -> & A & B & C). exists (n :: v). rewrite <- app_assoc in *. cbn [app] in *. split; auto. split; [intros a [<-|Ha]; [left; auto|right; auto]|].
      split; [intros a [<-|Ha]; [exists n; split; [apply in_or_app; right; left; auto|auto]|]|].
      * destruct (B a Ha) as (b & Hb & R). exists b. split; auto.
      * intros O. change (u ++ n :: v) with (u ++ [n] ++ v). rewrite app_assoc. rewrite <- app_assoc. cbn [app]. apply C.
        assert (Q : forall u, ForallOrdPairs (fun b a => near a b = false) u -> existsb (near n) u = false -> ForallOrdPairs (fun b a => near a b = false) (u ++ [n])).
        { clear. induction u as [|x u IH]; intros O E; [constructor; constructor|]. inversion O; subst. cbn [existsb] in E. apply orb_false_iff in E as (E1 & E2). cbn [app]. constructor; [|auto].
          apply Forall_app. split; auto. }
        apply Q; auto.
Qed.
Lemma near_refl a : near a a = true.
Proof. unfold near. replace (vsub a a) with v0 by (apply v3_ext; unfold vsub; cbn; ring). rewrite nrm_v0. destruct (Rlt_dec 0 (1/100000)); auto. lra. Qed.
Lemma near_sym a b : near a b = near b a.
Proof. unfold near. replace (nrm (vsub a b)) with (nrm (vsub b a)); auto. unfold nrm. f_equal. unfold dot, vsub. cbn. ring. Qed.
Lemma unique_all_near n l : (forall a, In a l -> near a n = true) -> unique (n :: l) = [n].
Proof.
  intros A. unfold unique. cbn [fold_left existsb app]. induction l as [|a l IH]; auto. cbn [fold_left]. cbn [existsb]. rewrite (A a) by (left; auto). cbn [orb]. apply IH. intros; apply A; right; auto.
Qed.
Lemma unique_distinct l : ForallOrdPairs (fun b a => near a b = false) l -> unique l = l.
Proof.
  intros O. unfold unique. assert (G : forall m u, ForallOrdPairs (fun b a => near a b = false) (u ++ m) -> fold_left (fun u n => if existsb (near n) u then u else u ++ [n]) m u = u ++ m).
  { induction m as [|n m IH]; intros u P; cbn [fold_left]; [rewrite app_nil_r; auto|].
    assert (E : existsb (near n) u = false).
    { clear IH. induction u as [|x u IH]; auto. cbn [app] in P. inversion P as [|? ? F P']; subst. cbn [existsb]. rewrite (IH P'), orb_false_r. rewrite Forall_forall in F. apply F. apply in_or_app. right. left. auto. }
    rewrite E. rewrite IH by (rewrite <- app_assoc; exact P). rewrite <- app_assoc. reflexivity. }
  exact (G l [] O).
Qed.

(** ** average does not depend on the order *)
Lemma vsum_fold k l : forall a, fold_left (fun a n => vadd a (smul k n)) l a = vadd a (V (suml l (fun n => k * vx n)) (suml l (fun n => k * vy n)) (suml l (fun n => k * vz n))).
Proof.
  induction l as [|n l IH]; intros a; cbn [fold_left]; [apply v3_ext; unfold suml; cbn; ring|]. rewrite IH. apply v3_ext; unfold vadd, smul, suml; cbn; ring.
Qed.
Lemma average_perm u u' : Permutation u u' -> average u = average u'.
Proof.
  intros P. unfold average. rewrite (Permutation_length P), !vsum_fold. rewrite !(suml_perm u u' _ P). reflexivity.
Qed.

(** ** directions *)
Section Frame.
  Variables e1 e2 e3 : v3.
  Hypothesis Fr : frame e1 e2 e3.
  Lemma fr_cross : dot e3 (cross e1 e2) = 1.
  Proof. destruct Fr as (A & B & C & D). rewrite <- D, lagrange. unfold unit_vec in A, B. rewrite A, B, C. ring. Qed.
  Lemma dir_dot s t : dot (dir e1 e2 s) (dir e1 e2 t) = cos (t - s).
  Proof.
    destruct Fr as (A & B & C & D). rewrite cos_minus. transitivity (cos s * cos t * dot e1 e1 + (cos s * sin t + sin s * cos t) * dot e1 e2 + sin s * sin t * dot e2 e2); [unfold dot, dir, vadd, smul; cbn; ring|].
    unfold unit_vec in A, B. rewrite A, B, C. ring.
  Qed.
  Lemma dir_cross s t : dot e3 (cross (dir e1 e2 s) (dir e1 e2 t)) = sin (t - s).
  Proof.
    rewrite sin_minus. transitivity ((cos s * sin t - sin s * cos t) * dot e3 (cross e1 e2)); [unfold dot, cross, dir, vadd, smul; cbn; ring|]. rewrite fr_cross. ring.
  Qed.
  Lemma dir_unit t : dot (dir e1 e2 t) (dir e1 e2 t) = 1. Proof. rewrite dir_dot. replace (t - t) with 0 by ring. apply cos_0. Qed.
  Lemma dir_period t : dir e1 e2 (t + 2 * PI) = dir e1 e2 t.
  Proof. unfold dir. rewrite cos_plus, sin_plus, cos_2PI, sin_2PI. apply v3_ext; unfold vadd, smul; cbn; ring. Qed.
  Lemma projected_az u t : azimuth e1 e2 e3 u t -> projected (Some e3) u = Some (dir e1 e2 t).
  Proof.
    intros (r & P & E). cbn [projected]. rewrite E. assert (Nr : nrm (smul r (dir e1 e2 t)) = r).
    { unfold nrm. replace (dot _ _) with (r * r * dot (dir e1 e2 t) (dir e1 e2 t)) by (unfold dot, smul; cbn; ring). rewrite dir_unit, Rmult_1_r. apply sqrt_square. lra. }
    unfold normalize. rewrite Nr. destruct (Req_EM_T r 0); [lra|]. f_equal. apply v3_ext; cbn; field; auto.
  Qed.
  Lemma candidate_dir s t : candidate (Some e3) (Some (dir e1 e2 s)) (Some (dir e1 e2 t)) = Some (sin (t - s), acos (cos (t - s))).
  Proof.
    unfold candidate. rewrite dir_dot, dir_cross. unfold facos. assert (B := COS_bound (t - s)). destruct (Rle_dec (-1) _); [|lra]. destruct (Rle_dec _ 1); [auto|lra].
  Qed.

  (** the search picks the nearest normal counterclockwise *)
  Definition qs_of (Rs : list (v3 * R)) : list (option v3) := map (fun x => Some (dir e1 e2 (snd x))) Rs.
  Lemma argmin t Rs : (forall x, In x Rs -> 0 < snd x - t < 2 * PI) -> (exists x, In x Rs /\ snd x - t < PI) ->
    exists x, nth_error Rs (next_index (Some e3) (Some (dir e1 e2 t)) (qs_of Rs)) = Some x /\ snd x - t < PI /\ (forall y, In y Rs -> snd x <= snd y).
  Proof.
    intros B Ex.
    assert (I : forall n, (n <= length Rs)%nat -> let st := fold_left (next_step (Some e3) (Some (dir e1 e2 t)) (qs_of Rs)) (seq 0 n) (100, 0%nat) in
       (st = (100, 0%nat) /\ forall k x, (k < n)%nat -> nth_error Rs k = Some x -> PI <= snd x - t) \/
       (exists x, nth_error Rs (snd st) = Some x /\ fst st = snd x - t /\ snd x - t < PI /\ forall k y, (k < n)%nat -> nth_error Rs k = Some y -> snd x <= snd y)).
    { induction n as [|n IH]; intros Hn; [left; split; [reflexivity|]; intros; lia|]. cbv zeta in *. rewrite seq_S, fold_left_app. cbn [Nat.add fold_left].
      specialize (IH ltac:(lia)). set (st := fold_left _ (seq 0 n) (100, 0%nat)) in *.
      destruct (nth_error Rs n) as [x|] eqn:En; [|apply nth_error_None in En; lia].
      assert (Hx := B x (nth_error_In _ _ En)). unfold next_step. assert (Q : nth n (qs_of Rs) None = Some (dir e1 e2 (snd x))).
      { apply nth_error_nth. unfold qs_of. apply (map_nth_error (fun x => Some (dir e1 e2 (snd x))) n Rs En). }
      rewrite Q, candidate_dir. assert (P4 := PI_4). assert (P0 := PI_RGT_0).
      destruct (Rlt_dec (snd x - t) PI) as [Lt|Ge].
      - assert (Sp : 0 < sin (snd x - t)) by (apply sin_gt_0; lra). destruct (Rlt_dec 0 (sin (snd x - t))); [|lra]. rewrite acos_cos by lra. right. destruct IH as [(Es & IH)|(y & Ey & Fy & Ly & IH)].
        + rewrite Es. cbn [fst]. destruct (Rlt_dec (snd x - t) 100); [|lra]. exists x. cbn [fst snd]. repeat split; auto. intros k y Hk Hy. destruct (Nat.eq_dec k n) as [->|Nk]; [rewrite En in Hy; inversion Hy; lra|].
          specialize (IH k y ltac:(lia) Hy). lra.
        + destruct (Rlt_dec (snd x - t) (fst st)) as [L2|L2].
          * exists x. cbn [fst snd]. repeat split; auto. intros k z Hk Hz. destruct (Nat.eq_dec k n) as [->|Nk]; [rewrite En in Hz; inversion Hz; lra|]. specialize (IH k z ltac:(lia) Hz). lra.
          * exists y. repeat split; auto. intros k z Hk Hz. destruct (Nat.eq_dec k n) as [->|Nk]; [rewrite En in Hz; inversion Hz; subst; lra|]. apply (IH k z); auto; lia.
      - assert (Sn : sin (snd x - t) <= 0).
        { destruct (Req_dec (snd x - t) PI) as [->|Ne]; [rewrite sin_PI; lra|]. left. apply sin_lt_0; lra. }
        destruct (Rlt_dec 0 (sin (snd x - t))); [lra|]. destruct IH as [(Es & IH)|(y & Ey & Fy & Ly & IH)]; [left|right].
        + split; auto. intros k y Hk Hy. destruct (Nat.eq_dec k n) as [->|Nk]; [rewrite En in Hy; inversion Hy; subst; lra|]. apply (IH k y); auto; lia.
        + exists y. repeat split; auto. intros k z Hk Hz. destruct (Nat.eq_dec k n) as [->|Nk]; [rewrite En in Hz; inversion Hz; subst; lra|]. apply (IH k z); auto; lia. }
    specialize (I (length Rs) (le_n _)). cbv zeta in I. unfold next_index. replace (length (qs_of Rs)) with (length Rs) by (unfold qs_of; rewrite map_length; reflexivity).
    destruct I as [(_ & I)|(x & Ex' & _ & Lx & I)].
    - destruct Ex as (x & Hx & Lx). apply In_nth_error in Hx as (k & Hk). exfalso. assert (L := nth_error_Some Rs k). rewrite Hk in L. specialize (I k x ltac:(apply L; congruence) Hk). lra.
    - exists x. repeat split; auto. intros y Hy. apply In_nth_error in Hy as (k & Hk). apply (I k y); auto. assert (L := nth_error_Some Rs k). rewrite Hk in L. apply L. congruence.
  Qed.
  Lemma steps_lt t S : steps t S -> forall x, In x S -> t < snd x.
  Proof. revert t. induction S as [|y S IH]; intros t H1 x Hx; [destruct Hx|]. destruct H1 as (H1 & H2). destruct Hx as [<-|Hx]; [lra|]. specialize (IH _ H2 x Hx). lra. Qed.
  Lemma order_steps S : forall t Rs, Permutation Rs S -> steps t S -> (forall x, In x S -> snd x - t < 2 * PI) ->
    order (length S) (Some e3) (Some (dir e1 e2 t)) (map fst Rs) (qs_of Rs) = map fst S.
  Proof.
    induction S as [|x S IH]; intros t Rs P St B; [reflexivity|]. cbn [length order map].
    destruct (argmin t Rs) as (y & Ey & Ly & My).
    { intros z Hz. assert (Hz' := Permutation_in _ P Hz). assert (L := steps_lt t (x :: S) St z Hz'). specialize (B z Hz'). lra. }
    { exists x. split; [apply (Permutation_in _ (Permutation_sym P)); left; auto|]. destruct St as (St & _). lra. }
    set (k := next_index _ _ _) in *.
    assert (y = x).
    { assert (Hy : In y (x :: S)) by (apply (Permutation_in _ P), (nth_error_In _ _ Ey)). destruct Hy as [Hy|Hy]; auto. exfalso. destruct St as (_ & St). assert (L := steps_lt _ _ St y Hy).
      assert (M := My x ltac:(apply (Permutation_in _ (Permutation_sym P)); left; auto)). lra. }
    subst y. assert (Kl : (k < length Rs)%nat) by (apply nth_error_Some; rewrite Ey; discriminate).
    assert (N1 : nth k (map fst Rs) v0 = fst x) by (apply nth_error_nth, (map_nth_error fst k Rs Ey)).
    assert (N2 : nth k (qs_of Rs) None = Some (dir e1 e2 (snd x))) by (apply nth_error_nth; unfold qs_of; apply (map_nth_error (fun x => Some (dir e1 e2 (snd x))) k Rs Ey)).
    rewrite N1, N2. f_equal. unfold qs_of. rewrite !erase_map. apply IH.
    - apply (Permutation_cons_inv (a := x)). eapply Permutation_trans; [|exact P]. replace x with (nth k Rs x) at 1 by (apply nth_error_nth, Ey). apply erase_perm; auto.
    - apply (proj2 St).
    - intros z Hz. assert (L := B z (or_intror Hz)). destruct St as ((St & _) & _). lra.
  Qed.
End Frame.
