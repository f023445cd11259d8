(** * The loops of the expansion routines. *)
From Coq Require Import ZArith List Reals Lia Lra Bool Permutation.
From Coquelicot Require Import Coquelicot.
From Verif Require Import ModelLegendre ModelLegApi ModelExp SpecLegendre ProofsLegendre ProofsLegCheck PropLegendre ProofsHarm ProofsHarm2 ProofsHarm3.
Import ListNotations.
Local Open Scope R_scope.

(** ** The triangular index *)
Lemma tri_S n m : tri (S n) m = (tri n n + 1 + m)%nat.
Proof.
  unfold tri. replace (S n * (S n + 1))%nat with (n * (n + 1) + (n + 1) * 2)%nat by lia. rewrite Nat.div_add by lia. lia.
Qed.
Lemma tri_row n m : tri n m = (tri n 0 + m)%nat.
Proof. unfold tri. lia. Qed.
Lemma tri_lt n m n' m' : (m <= n)%nat -> (n < n')%nat -> (tri n m < tri n' m')%nat.
Proof.
  intros L G. induction G as [|n' G IH].
  - rewrite tri_S, (tri_row n m), (tri_row n n). lia.
  - rewrite tri_S. rewrite (tri_row n' n'), (tri_row n' m') in *. lia.
Qed.
Lemma tri_inj n m n' m' : (m <= n)%nat -> (m' <= n')%nat -> tri n m = tri n' m' -> n = n' /\ m = m'.
Proof.
  intros L L' E. destruct (Nat.lt_trichotomy n n') as [G|[G|G]].
  - assert (Q := tri_lt n m n' m' L G). lia.
  - subst. rewrite (tri_row n' m), (tri_row n' m') in E. lia.
  - assert (Q := tri_lt n' m' n m L' G). lia.
Qed.
Lemma size_tri p : size p = tri (S p) 0.
Proof. unfold size, tri. replace ((p + 1) * (p + 2))%nat with (S p * (S p + 1))%nat by lia. lia. Qed.
Lemma tri_size n m p : (m <= n <= p)%nat -> (tri n m < size p)%nat.
Proof. intros L. rewrite size_tri. apply tri_lt; lia. Qed.
Lemma nm_in p n m : In (n, m) (nm_pairs p) <-> (m <= n <= p)%nat.
Proof.
  unfold nm_pairs. rewrite in_flat_map. split.
  - intros (k & A & B). apply in_seq in A. apply in_map_iff in B as (j & E & B). apply in_seq in B. inversion E; subst. lia.
  - intros L. exists n. split; [apply in_seq; lia|]. apply in_map_iff. exists m. split; auto. apply in_seq. lia.
Qed.
Lemma nm_nodup p : NoDup (nm_pairs p).
Proof.
  unfold nm_pairs. assert (K : forall l, NoDup l -> NoDup (flat_map (fun n => map (fun m => (n, m)) (seq 0 (n + 1))) l)).
  { induction 1 as [|n l Hn Hl IH]; [constructor|]. cbn [flat_map].
    assert (A : NoDup (map (fun m => (n, m)) (seq 0 (n + 1)))).
    { apply FinFun.Injective_map_NoDup; [intros a b E; congruence|apply seq_NoDup]. }
    revert A. assert (B : forall a, In a (map (fun m => (n, m)) (seq 0 (n + 1))) -> fst a = n) by (intros a Ha; apply in_map_iff in Ha as (m & <- & _); reflexivity).
    revert B. generalize (map (fun m => (n, m)) (seq 0 (n + 1))). induction l0 as [|a l0 IH0]; intros B A; [exact IH|]. cbn [app].
    inversion A; subst. constructor.
    - rewrite in_app_iff. intros [I|I]; [contradiction|]. apply in_flat_map in I as (k & I1 & I2). apply in_map_iff in I2 as (j & E & _).
      assert (F := B a (or_introl eq_refl)). rewrite <- E in F. simpl in F. subst. contradiction.
    - apply IH0; auto. intros b Hb. apply B. right. auto. }
  apply K, seq_NoDup.
Qed.

(** ** Monadic sums *)
Lemma osum_some {A} (l : list A) f g z : (forall a, In a l -> f a = Some (g a)) -> osum l f (Some z) = Some (z + csum l g)%C.
Proof.
  revert z. unfold osum. induction l as [|a l IH]; intros z Hf; cbn [fold_left csum]; [f_equal; ring|].
  rewrite Hf by (left; auto). cbn [bind]. rewrite IH by (intros; apply Hf; right; auto). f_equal. ring.
Qed.
Lemma osum_none_start {A} (l : list A) f : osum l f None = None.
Proof. unfold osum. induction l as [|a l IH]; [reflexivity|]. cbn [fold_left bind]. exact IH. Qed.
Lemma osum_none {A} (l : list A) f z a : In a l -> f a = None -> osum l f z = None.
Proof.
  revert z. induction l as [|b l IH]; intros z Hi Hf; [destruct Hi|]. destruct Hi as [->|Hi].
  - unfold osum. cbn [fold_left]. rewrite Hf. destruct z; cbn [bind]; apply (osum_none_start l f).
  - unfold osum in *. cbn [fold_left]. apply IH; auto.
Qed.
Definition loop (p : nat) (f : nat -> nat -> option C) (l : list (nat * nat)) (M : option (nat -> C)) : option (nat -> C) :=
  fold_left (fun o nm => bind o (fun M => bind (f (fst nm) (snd nm)) (fun a => add_to p M (fst nm) (snd nm) a))) l M.
Lemma loop_none_start p f l : loop p f l None = None.
Proof. unfold loop. induction l as [|a l IH]; [reflexivity|]. cbn [fold_left bind]. exact IH. Qed.
Lemma loop_some p f g l : NoDup l -> (forall n m, In (n, m) l -> (m <= n <= p)%nat) -> (forall n m, In (n, m) l -> f n m = Some (g n m)) ->
  forall M, exists M', loop p f l (Some M) = Some M' /\
    (forall n m, In (n, m) l -> M' (tri n m) = (M (tri n m) + g n m)%C) /\
    (forall i, (forall n m, In (n, m) l -> i <> tri n m) -> M' i = M i).
Proof.
  intros ND. induction ND as [|[n0 m0] l Hn Hl IH]; intros R F M.
  - exists M. split; [reflexivity|]. split; [intros n m []|auto].
  - unfold loop. cbn [fold_left bind fst snd]. rewrite F by (left; auto). cbn [bind]. unfold add_to.
    assert (L0 : (m0 <= n0 <= p)%nat) by (apply R; left; auto).
    destruct (Nat.ltb_spec (tri n0 m0) (size p)) as [_|B]; [|assert (Q := tri_size n0 m0 p L0); lia].
    destruct (IH ltac:(intros; apply R; right; auto) ltac:(intros; apply F; right; auto) (fun i => if Nat.eqb i (tri n0 m0) then (M i + g n0 m0)%C else M i)) as (M' & A & B & D).
    exists M'. split; [exact A|]. split.
    + intros n m [E|I].
      * inversion E; subst. rewrite D; [rewrite Nat.eqb_refl; reflexivity|]. intros n' m' I' E'.
        assert (L' : (m' <= n' <= p)%nat) by (apply R; right; auto). apply tri_inj in E' as [-> ->]; try lia. contradiction.
      * rewrite B by auto. destruct (Nat.eqb_spec (tri n m) (tri n0 m0)) as [E'|]; [|reflexivity].
        assert (L' : (m <= n <= p)%nat) by (apply R; right; auto). apply tri_inj in E' as [-> ->]; try lia. contradiction.
    + intros i Hi. rewrite D by (intros; apply Hi; right; auto). destruct (Nat.eqb_spec i (tri n0 m0)) as [E'|]; [|reflexivity].
      exfalso. apply (Hi n0 m0); [left; auto|auto].
Qed.
Lemma add_loop_some p f g M : (forall n m, (m <= n <= p)%nat -> f n m = Some (g n m)) ->
  exists M', add_loop p f M = Some M' /\ (forall n m, (m <= n <= p)%nat -> M' (tri n m) = (M (tri n m) + g n m)%C) /\
    (forall i, (size p <= i)%nat -> M' i = M i).
Proof.
  intros F. destruct (loop_some p f g (nm_pairs p) (nm_nodup p)) with (M := M) as (M' & A & B & D).
  - intros n m I. apply nm_in; auto.
  - intros n m I. apply F, nm_in; auto.
  - exists M'. split; [exact A|]. split; [intros n m L; apply B, nm_in; auto|].
    intros i L. apply D. intros n m I E. apply nm_in in I. assert (Q := tri_size n m p I). lia.
Qed.
Lemma add_loop_none p f M n m : (m <= n <= p)%nat -> f n m = None -> add_loop p f M = None.
Proof.
  intros L F. apply nm_in in L. change (loop p f (nm_pairs p) (Some M) = None). generalize (Some M) as o. revert L. generalize (nm_pairs p).
  induction l as [|a l IH]; intros L o; [destruct L|]. destruct L as [->|I].
  - unfold loop. cbn [fold_left fst snd]. rewrite F. destruct o; cbn [bind]; apply (loop_none_start p f l).
  - unfold loop in *. cbn [fold_left]. apply IH; auto.
Qed.
Lemma get_some e n m : (m <= n <= e_p e)%nat -> get_coeff e n m = Some (e_coeffs e (tri n m)).
Proof. intros L. unfold get_coeff. destruct (Nat.ltb_spec (tri n m) (size (e_p e))) as [_|B]; [reflexivity|]. assert (Q := tri_size n m _ L). lia. Qed.

(** ** Point charges *)
Definition K (d : pt) (n m : nat) : C := (cis (- INR m * beta_ d) * RtoC (Plm n m (cos_ d) * rho_ d ^ n))%C.
Lemma charge_term_ok s d n m : rho_ d <> 0 -> (m <= n <= 20)%nat ->
  charge_term s (rho_ d) (cos_ d) (beta_ d) n m = Some (RtoC s * K d n m)%C.
Proof.
  intros N L. unfold charge_term. rewrite C11_table_values by (auto; apply cos_range; auto). cbn [bind]. f_equal. unfold K.
  rewrite (RtoC_mult (Plm n m (cos_ d) * rho_ d ^ n) s). ring.
Qed.
Lemma aa_K d n m : rho_ d <> 0 -> (RtoC (aa n m) * K d n m = RtoC ((-1) ^ n) * H d n (- Z.of_nat m))%C.
Proof.
  intros N. assert (E := aa_H d n (- Z.of_nat m) N). rewrite sigma_neg, Rmult_1_r in E. rewrite <- E.
  replace (absn (- Z.of_nat m)) with m by (unfold absn; lia). rewrite opp_IZR, <- INR_IZR_INZ. unfold K.
  rewrite (RtoC_mult (aa n m)). ring.
Qed.
Lemma rC_nz a : a <> 0 -> RtoC a <> RtoC 0.
Proof. intros N E. apply RtoC_inj in E. contradiction. Qed.
Lemma aaC_nz n m : RtoC (aa n m) <> RtoC 0. Proof. apply rC_nz, aa_nz. Qed.

(** ** Extension of a coefficient table to negative orders, as in the translations *)
Definition ext (g : nat -> nat -> C) (n : nat) (l : Z) : C := (fst (g n (absn l)), IZR (GSL_SIGN l) * snd (g n (absn l))).
Lemma ext_pos g n m : (0 < m)%nat -> ext g n (Z.of_nat m) = g n m.
Proof.
  intros L. unfold ext. replace (absn (Z.of_nat m)) with m by (unfold absn; lia). unfold GSL_SIGN.
  destruct (Z.ltb_spec (Z.of_nat m) 0); [lia|]. destruct (Z.ltb_spec 0 (Z.of_nat m)); [|lia]. destruct (g n m). simpl. f_equal. ring.
Qed.
Lemma ext_neg g n l : Cconj (ext g n l) = ext g n (- l).
Proof.
  unfold ext, Cconj. cbn [fst snd]. replace (absn (- l)) with (absn l) by (unfold absn; lia). f_equal.
  unfold GSL_SIGN. destruct (Z.ltb_spec l 0), (Z.ltb_spec 0 l), (Z.ltb_spec (- l) 0), (Z.ltb_spec 0 (- l)); try lia; ring.
Qed.
Lemma ext_0 g n : ext g n 0 = RtoC (fst (g n 0%nat)).
Proof. unfold ext. change (absn 0) with 0%nat. change (GSL_SIGN 0) with 0%Z. unfold RtoC. f_equal. ring. Qed.

(** ** Multipole to multipole *)
Definition conv (D : pt) (mu : nat -> Z -> C) (n : nat) (m : Z) : C :=
  csum (seq 0 (n + 1)) (fun k => csum (sym_range k) (fun l => (H D k l * mu (n - k)%nat (m - l)%Z)%C)).
(** mu is the moment function of the coefficients g up to order p *)
Definition moments (p : nat) (g : nat -> nat -> C) (mu : nat -> Z -> C) : Prop :=
  (forall k l, (k <= p)%nat -> (Z.abs l <= Z.of_nat k)%Z ->
    (RtoC (aa k (absn l)) * ext g k l = RtoC ((-1) ^ k * sigma (- l)) * mu k (- l)%Z)%C) /\
  (forall k l, (Z.of_nat k < Z.abs l)%Z -> mu k l = RtoC 0).
Definition coeffs (e : expansion) (n m : nat) : C := e_coeffs e (tri n m).
Lemma m2m_coeff_ok other D mu p n m :
  rho_ D <> 0 -> moments (e_p other) (coeffs other) mu -> (p <= e_p other)%nat -> (m <= n <= p)%nat -> (n <= 20)%nat ->
  exists z, m2m_coeff other (rho_ D) (cos_ D) (beta_ D) n m = Some z /\ (RtoC (aa n m) * z = RtoC ((-1) ^ n) * conv D mu n (- Z.of_nat m))%C.
Proof.
  intros N (Mu & Sup) Lp L L20.
  set (term := fun nn (mm : Z) => (/ RtoC (aa n m) * (RtoC ((-1) ^ n) * (H D nn (- mm) * mu (n - nn)%nat (- Z.of_nat m + mm)%Z)))%C).
  assert (Tm : forall nn mm, (nn <= n)%nat -> (Z.abs mm <= Z.of_nat nn)%Z -> m2m_term other (rho_ D) (cos_ D) (beta_ D) n m nn mm = Some (term nn mm)).
  { intros nn mm L1 L2. unfold m2m_term. cbv zeta. destruct (Nat.ltb_spec (n - nn) (absn (Z.of_nat m - mm))) as [G|G].
    - unfold term. rewrite Sup by (unfold absn in G; lia). f_equal. ring.
    - rewrite get_some by (unfold absn in *; lia). cbn [bind].
      rewrite C11_table_values by (try (apply cos_range; auto); unfold absn; lia). cbn [bind].
      rewrite !A_ok by (unfold absn in *; lia). cbn [bind]. unfold rdiv. destruct (Req_EM_T (aa n m) 0) as [E|E]; [destruct (aa_nz _ _ E)|]. cbn [bind]. f_equal.
      fold (ext (coeffs other) (n - nn) (Z.of_nat m - mm)).
      set (l := (Z.of_nat m - mm)%Z) in *. change (fst (e_coeffs other (tri (n - nn) (absn l))), IZR (GSL_SIGN l) * snd (e_coeffs other (tri (n - nn) (absn l)))) with (ext (coeffs other) (n - nn) l).
      assert (E1 := Mu (n - nn)%nat l ltac:(lia) ltac:(unfold absn in *; lia)).
      assert (E2 := aa_H D nn (- mm) N). replace (absn (- mm)) with (absn mm) in E2 by (unfold absn; lia). rewrite opp_IZR in E2.
      assert (Sg := sigma_add (- mm) (- l)). replace (- mm + - l)%Z with (- Z.of_nat m)%Z in Sg by lia. rewrite sigma_neg in Sg.
      rewrite !Z.abs_opp in Sg.
      apply (Ceq_reg_l (RtoC (aa n m))); [apply aaC_nz|]. unfold term.
      set (P := Plm nn (absn mm) (cos_ D)) in *. set (R := re_pow_i _). replace (re_pow_i (Z.abs (Z.of_nat m) - Z.abs mm - Z.abs l)) with R in Sg by reflexivity.
      transitivity (RtoC R * (RtoC (aa nn (absn mm) * (P * rho_ D ^ nn)) * cis (- IZR mm * beta_ D)) * (RtoC (aa (n - nn) (absn l)) * ext (coeffs other) (n - nn) l))%C.
      { replace (RtoC (P * rho_ D ^ nn * aa nn (absn mm) * aa (n - nn) (absn l) / aa n m * R)) with (RtoC R * RtoC (aa nn (absn mm) * (P * rho_ D ^ nn)) * RtoC (aa (n - nn) (absn l)) * / RtoC (aa n m))%C.
        - field. apply aaC_nz.
        - rewrite <- RtoC_inv by auto. rewrite <- !RtoC_mult. f_equal. field. auto. }
      rewrite E1, E2. replace (- l)%Z with (- Z.of_nat m + mm)%Z by lia.
      transitivity (RtoC (R * (sigma (- mm) * sigma (- l)) * ((-1) ^ nn * (-1) ^ (n - nn))) * (H D nn (- mm) * mu (n - nn)%nat (- Z.of_nat m + mm)%Z))%C.
      { rewrite !RtoC_mult. replace (- Z.of_nat m + mm)%Z with (- l)%Z by lia. ring. }
      rewrite Sg, <- pow_add. replace (nn + (n - nn))%nat with n by lia. rewrite Rmult_1_l. field. apply aaC_nz. }
  exists (0 + csum (seq 0 (n + 1)) (fun nn => 0 + csum (sym_range nn) (term nn)))%C. split.
  - unfold m2m_coeff. apply osum_some. intros nn Hn. apply in_seq in Hn. apply osum_some. intros mm Hm. apply sym_in in Hm. apply Tm; lia.
  - rewrite Cplus_0_l. unfold conv.
    transitivity (csum (seq 0 (n + 1)) (fun k => (RtoC ((-1) ^ n) * csum (sym_range k) (fun l => H D k l * mu (n - k)%nat (- Z.of_nat m - l)%Z))%C)); [|apply csum_scal].
    rewrite <- csum_scal. apply csum_ext. intros k Hk. rewrite Cplus_0_l.
    rewrite <- (sym_rev k (fun l => (H D k l * mu (n - k)%nat (- Z.of_nat m - l)%Z)%C)).
    rewrite <- !csum_scal. apply csum_ext. intros l Hl. unfold term. replace (- Z.of_nat m - - l)%Z with (- Z.of_nat m + l)%Z by lia.
    field. apply aaC_nz.
Qed.
