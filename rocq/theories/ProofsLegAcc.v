(** Accuracy of the Legendre tables (C95): a bound on the rounding error computed from the text of each function. *)
From Coq Require Import ZArith Reals List Lia Lra Bool Arith QArith Qreals.
From Verif Require Import ModelLegendre ModelLegTable ModelLegApi ModelFmm ModelFloat SpecFloat ProofsFloat ModelFloatExp ModelFloatExp2 SpecFloatTrans ProofsFloatTrans.
Import ListNotations.
Local Open Scope R_scope.

Lemma Q2R_red q : Q2R (Qred q) = Q2R q. Proof. apply Qeq_eqR, Qred_correct. Qed.
Lemma Q2R_Z z : Q2R (inject_Z z) = IZR z. Proof. unfold Q2R, inject_Z. cbn [Qnum Qden]. rewrite Rinv_1. ring. Qed.

(** what is known of an expression: whether it is the argument, its square or one minus its square; a number of roundings, a bound of its
    size, and a bound of its sensitivity to the error of the square root *)
Inductive shape := Any | Arg | Square | Rest.
Record av := AV { a_shape : shape; a_k : nat; a_M : Q; a_E : Q }.
Definition obind {A B : Type} (o : option A) (f : A -> option B) : option B := match o with Some a => f a | None => None end.
Definition prod_shape (a b : shape) : shape := match a, b with Arg, Arg => Square | _, _ => Any end.
Definition av_mul (a b : av) : av := AV (prod_shape (a_shape a) (a_shape b)) (S (a_k a + a_k b)) (Qred (a_M a * a_M b)) (Qred (a_M a * a_E b + a_E a * a_M b + a_E a * a_E b)).
Definition av_sum (a b : av) : av := AV Any (S (Nat.max (a_k a) (a_k b))) (Qred (a_M a + a_M b)) (Qred (a_E a + a_E b)).
Definition is_one (e : ex) : bool := match e with Num z => Z.eqb z 1 | _ => false end.
Fixpoint abound (f : list (positive * av)) (e : ex) : option av :=
  match e with
  | Num z => Some (AV Any 1 (inject_Z (Z.abs z)) 0)
  | X => Some (AV Arg 0 1 0)
  | Var k => get k f
  | Neg a => obind (abound f a) (fun a => Some (AV Any (a_k a) (a_M a) (a_E a)))
  | Add a b => obind (abound f a) (fun a => obind (abound f b) (fun b => Some (av_sum a b)))
  | Sub a b => obind (abound f a) (fun a' => obind (abound f b) (fun b' =>
      match is_one a, a_shape b', a_k b', Qeq_bool (a_M b') 1, Qeq_bool (a_E b') 0 with
      | true, Square, 1%nat, true, true => Some (AV Rest 4 1 0)
      | _, _, _, _, _ => Some (av_sum a' b')
      end))
  | Mul a b => obind (abound f a) (fun a => obind (abound f b) (fun b => Some (av_mul a b)))
  | Div a (Num z) => if Z.eqb z 0 then None else obind (abound f a) (fun a => Some (av_mul (AV Any (a_k a) (a_M a) (a_E a)) (AV Any 1 (/ inject_Z (Z.abs z)) 0)))
  | Div _ _ => None
  | Sqrt (Num z) => if Z.ltb z 0 then None else Some (AV Any 2 (inject_Z (Z.sqrt z + 1)) 0)
  | Sqrt a => obind (abound f a) (fun a => match a_shape a, Qeq_bool (a_E a) 0, Nat.leb (a_k a) 4, Qeq_bool (a_M a) 1 with Rest, true, true, true => Some (AV Any 1 1 1) | _, _, _, _ => None end)
  | Pow2 a => obind (abound f a) (fun a => Some (av_mul a a))
  end.
Fixpoint abound_list (f : list (positive * av)) (l : list (positive * ex)) : option (list (positive * av)) :=
  match l with [] => Some f | (k, e) :: r => obind (abound f e) (fun a => abound_list ((k, a) :: f) r) end.
Definition prog_bound (p : prog) : option av := obind (abound_list [] (fst p)) (fun f => abound f (snd p)).

Section Acc.
  Variable u : R.
  Variable M : fmath.
  Variable pow_i : Z -> R.
  Hypothesis HR : relative_math u M pow_i.
  Hypothesis HN : forall z, Rabs (fnum M z - IZR z) <= u * Rabs (IZR z).
  Variable x : R.
  Hypothesis Hx : -1 <= x <= 1.
  (** a bound of the absolute error of the square root of 1 - x^2 before its own rounding *)
  Variable eta : R.
  Hypothesis He : 0 <= eta <= 1.
  Hypothesis Hs : gam u 4 <= eta ^ 2 \/ gam u 4 <= eta * sqrt (1 - x ^ 2).
  Notation A := (@f_arith (fm_ops M)).
  Notation G := (G u).
  Lemma Gge k : 1 <= G k. Proof. exact (G_ge u M pow_i HR k). Qed.
  (** exact value, computed value *)
  Definition pre (k : nat) (X E : R) (v vh : R) : Prop := 0 <= X /\ 0 <= E /\ Rabs v <= X /\ Rabs (vh - v) <= (G k - 1) * X + G k * (E * eta).
  Lemma pre_weak k l X E v vh : (k <= l)%nat -> pre k X E v vh -> pre l X E v vh.
  Proof.
    intros L (P0 & P1 & P2 & P3). repeat split; auto. eapply Rle_trans; [exact P3|]. assert (W := G_le u M pow_i HR k l L). assert (0 <= E * eta) by (apply Rmult_le_pos; lra).
    apply Rplus_le_compat; [apply Rmult_le_compat_r; lra|apply Rmult_le_compat_r; lra].
  Qed.
  Lemma pre_round k X E v z y : pre k X E v z -> Rabs (y - z) <= u * Rabs z -> pre (S k) X E v y.
  Proof.
    intros (P0 & P1 & P2 & P3) D. repeat split; auto. assert (U := u01 u M pow_i HR). assert (Pe : 0 <= E * eta) by (apply Rmult_le_pos; lra).
    assert (Z1 : Rabs z <= G k * X + G k * (E * eta)). { replace z with (v + (z - v)) by ring. eapply Rle_trans; [apply Rabs_triang|]. lra. }
    replace (y - v) with ((y - z) + (z - v)) by ring. eapply Rle_trans; [apply Rabs_triang|].
    assert (D1 : u * Rabs z <= u * (G k * X + G k * (E * eta))) by (apply Rmult_le_compat_l; lra). assert (K := Gge k).
    assert (D2 : (1 + u) * (G k * (X + E * eta)) <= / (1 - u) * (G k * (X + E * eta))) by (apply Rmult_le_compat_r; [apply Rmult_le_pos; lra|apply (G_u u M pow_i HR)]).
    change (G (S k)) with (/ (1 - u) * G k). lra.
  Qed.
  Lemma pre_mul k l X E v vh Y D w wh : pre k X E v vh -> pre l Y D w wh -> pre (k + l) (X * Y) (X * D + E * Y + E * D) (v * w) (vh * wh).
  Proof.
    intros (P0 & P1 & P2 & P3) (Q0 & Q1 & Q2 & Q3). assert (K := Gge k). assert (L := Gge l).
    assert (X0 : 0 <= X * D) by (apply Rmult_le_pos; auto). assert (X1 : 0 <= E * Y) by (apply Rmult_le_pos; auto). assert (X2 : 0 <= E * D) by (apply Rmult_le_pos; auto).
    split; [apply Rmult_le_pos; auto|]. split; [lra|]. split; [rewrite Rabs_mult; apply Rmult_le_compat; auto; apply Rabs_pos|].
    set (a := (G k - 1) * X + G k * (E * eta)) in *. set (b := (G l - 1) * Y + G l * (D * eta)) in *.
    replace (vh * wh - v * w) with (v * (wh - w) + (vh - v) * w + (vh - v) * (wh - w)) by ring.
    assert (A1 : Rabs (v * (wh - w)) <= X * b) by (rewrite Rabs_mult; apply Rmult_le_compat; auto; apply Rabs_pos).
    assert (A2 : Rabs ((vh - v) * w) <= a * Y) by (rewrite Rabs_mult; apply Rmult_le_compat; auto; apply Rabs_pos).
    assert (A3 : Rabs ((vh - v) * (wh - w)) <= a * b) by (rewrite Rabs_mult; apply Rmult_le_compat; auto; apply Rabs_pos).
    eapply Rle_trans; [apply Rabs_triang|]. eapply Rle_trans; [apply Rplus_le_compat_r, Rabs_triang|].
    apply Rle_trans with (X * b + a * Y + a * b); [lra|].
    unfold ProofsFloatTrans.G in *. rewrite pow_add. set (g := (/ (1 - u)) ^ k) in *. set (h := (/ (1 - u)) ^ l) in *.
    assert (T : X * b + a * Y + a * b = (g * h - 1) * (X * Y) + g * h * ((X * D + E * Y) * eta + E * D * (eta * eta))) by (unfold a, b; ring). rewrite T.
    apply Rplus_le_compat_l, Rmult_le_compat_l; [apply Rmult_le_pos; lra|]. assert (E * D * (eta * eta) <= E * D * eta) by (apply Rmult_le_compat_l; [exact X2|]; assert (eta * eta <= eta * 1) by (apply Rmult_le_compat_l; lra); lra). lra.
  Qed.
  Lemma pre_add k X E v vh Y D w wh : pre k X E v vh -> pre k Y D w wh -> pre k (X + Y) (E + D) (v + w) (vh + wh).
  Proof.
    intros (P0 & P1 & P2 & P3) (Q0 & Q1 & Q2 & Q3). split; [lra|]. split; [lra|]. split; [eapply Rle_trans; [apply Rabs_triang|]; lra|].
    replace (vh + wh - (v + w)) with ((vh - v) + (wh - w)) by ring. eapply Rle_trans; [apply Rabs_triang|]. lra.
  Qed.
  Lemma pre_opp k X E v vh : pre k X E v vh -> pre k X E (- v) (- vh).
  Proof. intros (P0 & P1 & P2 & P3). repeat split; auto; [rewrite Rabs_Ropp; exact P2|]. replace (- vh - - v) with (- (vh - v)) by ring. rewrite Rabs_Ropp. exact P3. Qed.
  Lemma pre_near k v vh : near u k v vh -> pre k (Rabs v) 0 v vh.
  Proof. intros N. apply (ap_near u M pow_i HR) in N. destruct N as (N1 & N2). split; [apply Rabs_pos|]. split; [lra|]. split; [exact N1|]. rewrite Rmult_0_l, Rmult_0_r, Rplus_0_r. exact N2. Qed.
  (** ** The square root *)
  Lemma rest_nonneg : 0 <= 1 - x ^ 2. Proof. assert (x * x <= 1) by (destruct (Rle_dec 0 x); [assert (x * x <= 1 * 1) by (apply Rmult_le_compat; lra)|assert ((-x) * (-x) <= 1 * 1) by (apply Rmult_le_compat; lra)]; lra). simpl. lra. Qed.
  Lemma root_error a ah : 0 <= a -> 0 <= ah -> Rabs (ah - a) <= gam u 4 -> a = 1 - x ^ 2 -> Rabs (sqrt ah - sqrt a) <= eta.
  Proof.
    intros Pa Ph D Ea. assert (Sa := sqrt_pos a). assert (Sh := sqrt_pos ah). assert (F : (sqrt ah - sqrt a) * (sqrt ah + sqrt a) = ah - a) by (rewrite <- (sqrt_sqrt a Pa) at 3; rewrite <- (sqrt_sqrt ah Ph) at 3; ring).
    assert (Fa : Rabs (sqrt ah - sqrt a) * (sqrt ah + sqrt a) = Rabs (ah - a)) by (rewrite <- F, Rabs_mult, (Rabs_pos_eq (sqrt ah + sqrt a)) by lra; reflexivity).
    destruct (Rle_dec (Rabs (sqrt ah - sqrt a)) eta) as [|N]; [assumption|exfalso]. apply Rnot_le_lt in N. rewrite <- Ea in Hs. destruct Hs as [Q|Q].
    - assert (T : Rabs (sqrt ah - sqrt a) <= sqrt ah + sqrt a) by (apply Rabs_le; lra).
      assert (B : Rabs (sqrt ah - sqrt a) * Rabs (sqrt ah - sqrt a) <= Rabs (ah - a)) by (rewrite <- Fa; apply Rmult_le_compat_l; [apply Rabs_pos|exact T]).
      assert (eta * eta < Rabs (sqrt ah - sqrt a) * Rabs (sqrt ah - sqrt a)) by (apply Rmult_le_0_lt_compat; lra). simpl in Q. lra.
    - destruct (Req_EM_T (sqrt a) 0) as [Z|Z].
      + assert (G4 : 0 <= gam u 4) by (assert (W := Gge 4); unfold gam, ProofsFloatTrans.G in *; lra). rewrite Z in *. rewrite Rmult_0_r in Q. assert (Zd : Rabs (ah - a) = 0) by (assert (V := Rabs_pos (ah - a)); lra).
        rewrite Zd, Rplus_0_r in Fa. apply Rmult_integral in Fa. destruct Fa as [Fa|Fa]; [lra|]. rewrite Fa, Rminus_0_r, Rabs_R0 in N. lra.
      + assert (B : eta * sqrt a < Rabs (sqrt ah - sqrt a) * sqrt a) by (apply Rmult_lt_compat_r; lra).
        assert (B2 : Rabs (sqrt ah - sqrt a) * sqrt a <= Rabs (sqrt ah - sqrt a) * (sqrt ah + sqrt a)) by (apply Rmult_le_compat_l; [apply Rabs_pos|lra]). lra.
  Qed.
  (** ** Soundness *)
  Definition shape_ok (s : shape) (v vh : R) : Prop := match s with Any => True | Arg => v = x /\ vh = x | Square => v = x ^ 2 | Rest => v = 1 - x ^ 2 end.
  Definition arel (a : av) (v vh : R) : Prop := pre (a_k a) (Q2R (a_M a)) (Q2R (a_E a)) v vh /\ shape_ok (a_shape a) v vh.
  Definition erel (f : list (positive * av)) (e eh : list (positive * R)) : Prop := forall k a, get k f = Some a -> exists v vh, get k e = Some v /\ get k eh = Some vh /\ arel a v vh.
  Lemma pre_size k X X' E v vh : X <= X' -> pre k X E v vh -> pre k X' E v vh.
  Proof. intros L (P0 & P1 & P2 & P3). assert (K := Gge k). split; [lra|]. split; [exact P1|]. split; [lra|]. eapply Rle_trans; [exact P3|]. apply Rplus_le_compat_r, Rmult_le_compat_l; lra. Qed.
  Lemma pre_eq k X X' E E' v vh : X = X' -> E = E' -> pre k X E v vh -> pre k X' E' v vh. Proof. intros -> ->. auto. Qed.
  Lemma mul_ok a b v vh w wh : arel a v vh -> arel b w wh -> arel (av_mul a b) (v * w) (@amul A vh wh).
  Proof.
    intros (P & Sa) (Q & Sb). split.
    - unfold av_mul. cbn [a_k a_M a_E]. eapply pre_eq; [| |eapply pre_round; [exact (pre_mul _ _ _ _ _ _ _ _ _ _ P Q)|apply HR]]; rewrite Q2R_red, ?Q2R_plus, ?Q2R_mult; ring.
    - unfold av_mul. cbn [a_shape]. destruct (a_shape a), (a_shape b); cbn [prod_shape shape_ok] in *; auto. destruct Sa as (-> & _), Sb as (-> & _). simpl. ring.
  Qed.
  Lemma sum_pre a b v vh w wh : arel a v vh -> arel b w wh -> pre (Nat.max (a_k a) (a_k b)) (Q2R (a_M a) + Q2R (a_M b)) (Q2R (a_E a) + Q2R (a_E b)) (v + w) (vh + wh).
  Proof. intros (P & _) (Q & _). apply pre_add; (eapply pre_weak; [|eassumption]); lia. Qed.
  Lemma arel_opp a v vh : arel a v vh -> arel (AV Any (a_k a) (a_M a) (a_E a)) (- v) (- vh).
  Proof. intros (P & _). split; [apply pre_opp, P|exact I]. Qed.
  Lemma add_ok a b v vh w wh : arel a v vh -> arel b w wh -> arel (av_sum a b) (v + w) (@aadd A vh wh).
  Proof.
    intros P Q. split; [|exact I]. unfold av_sum. cbn [a_k a_M a_E]. eapply pre_eq; [| |eapply pre_round; [exact (sum_pre a b v vh w wh P Q)|apply HR]]; rewrite Q2R_red, Q2R_plus; reflexivity.
  Qed.
  Lemma sub_ok a b v vh w wh : arel a v vh -> arel b w wh -> arel (av_sum a b) (v - w) (@fsub (fm_ops M) vh wh).
  Proof.
    intros P Q. split; [|exact I]. unfold av_sum. cbn [a_k a_M a_E]. apply arel_opp in Q.
    eapply pre_eq; [| |eapply pre_round; [exact (sum_pre a (AV Any (a_k b) (a_M b) (a_E b)) v vh (- w) (- wh) P Q)|]]; cbn [a_M a_E]; [rewrite Q2R_red, Q2R_plus; reflexivity|rewrite Q2R_red, Q2R_plus; reflexivity|].
    replace (vh + - wh) with (vh - wh) by ring. apply HR.
  Qed.
  Lemma Q2R_0 : Q2R 0 = 0. Proof. unfold Q2R. cbn. ring. Qed.
  Lemma Q2R_1 : Q2R 1 = 1. Proof. unfold Q2R. cbn. field. Qed.
  Lemma num_near z : near u 1 (IZR z) (fnum M z).
  Proof. apply (near_step u (fm_ops M) (HF u M pow_i HR) 0 _ _ _ (near_0 u M pow_i HR (IZR z))). apply HN. Qed.
  Lemma num_ok z : arel (AV Any 1 (inject_Z (Z.abs z)) 0) (IZR z) (fnum M z).
  Proof. split; [|exact I]. cbn [a_k a_M a_E]. rewrite Q2R_Z, Q2R_0, abs_IZR. apply pre_near, num_near. Qed.
  Lemma Qeq_bool_R a b : Qeq_bool a b = true -> Q2R a = Q2R b. Proof. intros E. apply Qeq_eqR, Qeq_bool_eq, E. Qed.
  Lemma rest_le1 : 1 - x ^ 2 <= 1. Proof. assert (W := pow2_ge_0 x). lra. Qed.
  Lemma sound f e eh : erel f e eh -> forall a t v vh, abound f a = Some t -> eval x e a = Some v -> feval M x eh a = Some vh -> arel t v vh.
  Proof.
    intros He'. assert (OB : forall (T U : Type) (o : option T) (g : T -> option U) r, obind o g = Some r -> exists y, o = Some y /\ g y = Some r) by (intros T U [y|] g r E; [eauto|discriminate]).
    assert (LB : forall (T U : Type) (o : option T) (g : T -> option U) r, lbind o g = Some r -> exists y, o = Some y /\ g y = Some r) by (intros T U [y|] g r E; [eauto|discriminate]).
    induction a as [z| |k|a IH|a IHa b IHb|a IHa b IHb|a IHa b IHb|a IHa b IHb|a IH|a IH]; intros t v vh T E Eh.
    - cbn in T, E, Eh. inversion T; inversion E; inversion Eh; subst. apply num_ok.
    - cbn in T, E, Eh. inversion T; inversion E; inversion Eh; subst. split; [|split; reflexivity]. cbn [a_k a_M a_E]. rewrite Q2R_0, Q2R_1. split; [lra|]. split; [lra|]. split; [apply Rabs_le; lra|].
      rewrite Rminus_diag_eq, Rabs_R0 by reflexivity. unfold ProofsFloatTrans.G. simpl. lra.
    - cbn in T, E, Eh. destruct (He' k t T) as (v' & vh' & E1 & E2 & Q). rewrite E in E1. rewrite Eh in E2. inversion E1; inversion E2; subst. exact Q.
    - cbn [abound eval feval] in T, E, Eh. apply OB in T as (ta & T & T'). apply LB in E as (va & E & E'). apply LB in Eh as (vha & Eh & Eh'). inversion T'; inversion E'; inversion Eh'; subst. apply arel_opp; eauto.
    - cbn [abound eval feval] in T, E, Eh. apply OB in T as (ta & T & T'). apply LB in E as (va & E & E'). apply LB in Eh as (vha & Eh & Eh').
      apply OB in T' as (tb & Tb & T'). apply LB in E' as (vb & Eb & E'). apply LB in Eh' as (vhb & Ehb & Eh'). inversion T'; inversion E'; inversion Eh'; subst. apply add_ok; eauto.
    - cbn [abound eval feval] in T, E, Eh. apply OB in T as (ta & T & T'). apply LB in E as (va & E & E'). apply LB in Eh as (vha & Eh & Eh').
      apply OB in T' as (tb & Tb & T'). apply LB in E' as (vb & Eb & E'). apply LB in Eh' as (vhb & Ehb & Eh'). inversion E'; inversion Eh'; subst v vh. clear E' Eh'.
      assert (Pa := IHa _ _ _ T E Eh). assert (Pb := IHb _ _ _ Tb Eb Ehb). clear IHa IHb.
      assert (Gen : Some (av_sum ta tb) = Some t -> arel t (va - vb) (@fsub (fm_ops M) vha vhb)) by (intros F; inversion F; apply sub_ok; auto).
      destruct (is_one a) eqn:O1; [|exact (Gen T')]. destruct (a_shape tb) eqn:O2; try exact (Gen T'). destruct (a_k tb) as [|[|kb]] eqn:O3; try exact (Gen T').
      destruct (Qeq_bool (a_M tb) 1) eqn:O4; [|exact (Gen T')]. destruct (Qeq_bool (a_E tb) 0) eqn:O5; [|exact (Gen T')]. inversion T'; subst t. clear Gen T'.
      destruct a as [z| | | | | | | | | ]; try discriminate O1. cbn [is_one] in O1. apply Z.eqb_eq in O1. subst z. cbn in E, Eh, T. inversion E; inversion Eh; subst va vha. clear E Eh T Pa.
      destruct Pb as (Pb & Sb). rewrite O2 in Sb. cbn [shape_ok] in Sb. rewrite O3 in Pb. apply Qeq_bool_R in O4. apply Qeq_bool_R in O5. rewrite O4, O5, Q2R_0, Q2R_1 in Pb. subst vb.
      split; [|reflexivity]. cbn [a_k a_M a_E]. rewrite Q2R_0, Q2R_1. assert (P1 := pre_near 1 _ _ (num_near 1)). rewrite (Rabs_pos_eq 1) in P1 by lra.
      assert (Q := pre_add _ _ _ _ _ _ _ _ _ P1 (pre_opp _ _ _ _ _ Pb)). assert (Q2 := fun y => pre_round _ _ _ _ _ y Q).
      specialize (Q2 (@fsub (fm_ops M) (fnum M 1) vhb) ltac:(replace (fnum M 1 + - vhb) with (fnum M 1 - vhb) by ring; apply HR)). destruct Q2 as (_ & _ & _ & Q2).
      split; [lra|]. split; [lra|]. split; [apply Rabs_le; assert (W1 := rest_nonneg); assert (W2 := rest_le1); lra|].
      replace (1 - x ^ 2) with (1 + - x ^ 2) by ring. eapply Rle_trans; [exact Q2|]. rewrite Rplus_0_l, Rmult_0_l, !Rmult_0_r, !Rplus_0_r.
      assert (G2 := Gge 2). assert (Gx : G 4 = G 2 * G 2) by (unfold ProofsFloatTrans.G; rewrite <- pow_add; reflexivity). rewrite Gx.
      assert (0 <= (G 2 - 1) * (G 2 - 1)) by (apply Rmult_le_pos; lra). lra.
    - cbn [abound eval feval] in T, E, Eh. apply OB in T as (ta & T & T'). apply LB in E as (va & E & E'). apply LB in Eh as (vha & Eh & Eh').
      apply OB in T' as (tb & Tb & T'). apply LB in E' as (vb & Eb & E'). apply LB in Eh' as (vhb & Ehb & Eh'). inversion T'; inversion E'; inversion Eh'; subst. apply mul_ok; eauto.
    - destruct b as [z| | | | | | | | | ]; try discriminate T. cbn [abound eval feval] in T, E, Eh. destruct (Z.eqb_spec z 0) as [|Nz]; [discriminate|].
      apply OB in T as (ta & T & T'). apply LB in E as (va & E & E'). apply LB in Eh as (vha & Eh & Eh'). cbn [lbind] in E', Eh'.
      assert (Nr : IZR z <> 0) by (intros F; apply eq_IZR in F; contradiction). destruct (Req_EM_T (IZR z) 0) as [F|_]; [contradiction|].
      assert (Nn := num_near z). assert (Nh := near_neq u M pow_i HR _ _ _ Nn Nr). unfold fdiv in Eh'. destruct (Req_EM_T (fnum M z) 0) as [F|_]; [contradiction|]. inversion T'; inversion E'; inversion Eh'; subst. clear T' E' Eh'.
      assert (Pa := IHa _ _ _ T E Eh). destruct Pa as (Pa & _). assert (Ni := pre_near 1 _ _ (near_inv u (fm_ops M) (HF u M pow_i HR) 1 _ _ Nr Nn)).
      assert (Zq : ~ (inject_Z (Z.abs z) == 0)%Q) by (intros F; apply Qeq_eqR in F; rewrite Q2R_Z, Q2R_0 in F; apply eq_IZR in F; lia).
      split; [|cbn; exact I]. unfold av_mul. cbn [a_k a_M a_E]. eapply pre_eq; [| |eapply pre_round; [exact (pre_mul _ _ _ _ _ _ _ _ _ _ Pa Ni)|]].
      + rewrite Q2R_red, Q2R_mult, Q2R_inv by exact Zq. rewrite Q2R_Z, abs_IZR, Rabs_inv. reflexivity.
      + rewrite Q2R_red, !Q2R_plus, !Q2R_mult, Q2R_inv by exact Zq. rewrite Q2R_Z, abs_IZR, Rabs_inv, Q2R_0. ring.
      + destruct (HF u M pow_i HR) as (_ & _ & _ & _ & Q & _). apply Q. exact Nh.
    - assert (Gen : forall ta, abound f a = Some ta -> a_shape ta = Rest -> Qeq_bool (a_E ta) 0 = true -> Nat.leb (a_k ta) 4 = true -> Qeq_bool (a_M ta) 1 = true -> arel (AV Any 1 1 1) v vh).
      { intros ta T1 O1 O2 O3 O4. cbn [eval feval] in E, Eh. apply LB in E as (va & E & E'). apply LB in Eh as (vha & Eh & Eh'). destruct (IH _ _ _ T1 E Eh) as (P & S1). rewrite O1 in S1. cbn [shape_ok] in S1.
        apply Qeq_bool_R in O2. apply Qeq_bool_R in O4. apply Nat.leb_le in O3. rewrite O2, O4, Q2R_0, Q2R_1 in P. apply (pre_weak _ 4) in P; [|exact O3]. destruct P as (_ & _ & P2 & P3).
        rewrite Rmult_0_l, Rmult_0_r, Rplus_0_r, Rmult_1_r in P3. destruct (Rlt_dec va 0) as [|Na]; [discriminate|]. unfold froot in Eh'. destruct (Rlt_dec vha 0) as [|Nh]; [discriminate|].
        inversion E'; inversion Eh'; subst v vh. apply Rnot_lt_le in Na. apply Rnot_lt_le in Nh. assert (Re := root_error va vha Na Nh P3 S1).
        split; [|exact I]. cbn [a_k a_M a_E]. rewrite Q2R_1. apply pre_round with (sqrt vha).
        - split; [lra|]. split; [lra|]. assert (Sv : sqrt va <= 1) by (rewrite <- sqrt_1; apply sqrt_le_1_alt; subst va; apply rest_le1). assert (Sv0 := sqrt_pos va). split; [apply Rabs_le; lra|]. unfold ProofsFloatTrans.G. simpl. lra.
        - rewrite (Rabs_pos_eq (sqrt vha)) by apply sqrt_pos. destruct (HF u M pow_i HR) as (_ & _ & _ & _ & _ & Q & _). apply Q, Nh. }
      assert (Gen2 : match a with Num _ => True | _ => arel t v vh end).
      { assert (Gen3 : obind (abound f a) (fun a => match a_shape a, Qeq_bool (a_E a) 0, Nat.leb (a_k a) 4, Qeq_bool (a_M a) 1 with Rest, true, true, true => Some (AV Any 1 1 1) | _, _, _, _ => None end) = Some t -> arel t v vh).
        { intros T1. apply OB in T1 as (ta & T1 & T'). destruct (a_shape ta) eqn:O1; try discriminate T'. destruct (Qeq_bool (a_E ta) 0) eqn:O2; try discriminate T'. destruct (Nat.leb (a_k ta) 4) eqn:O3; try discriminate T'. destruct (Qeq_bool (a_M ta) 1) eqn:O4; try discriminate T'. inversion T'; subst t. exact (Gen ta T1 O1 O2 O3 O4). }
        clear Gen IH E Eh. destruct a; try exact I; apply Gen3; exact T. }
      destruct a as [z| | | | | | | | | ]; try exact Gen2. clear Gen Gen2 IH.
      cbn [abound] in T. destruct (Z.ltb_spec z 0) as [|Pz]; [discriminate|]. inversion T; subst t. cbn [eval feval lbind] in E, Eh. unfold froot in Eh.
      destruct (Rlt_dec (IZR z) 0); [discriminate|]. destruct (Rlt_dec (fnum M z) 0); [discriminate|]. inversion E; inversion Eh; subst v vh. assert (Pr : 0 <= IZR z) by (apply IZR_le; lia).
      split; [|exact I]. cbn [a_k a_M a_E]. rewrite Q2R_0, Q2R_Z. apply pre_size with (Rabs (sqrt (IZR z))).
      + rewrite Rabs_pos_eq by apply sqrt_pos. assert (Zs := Z.sqrt_spec z Pz). cbv zeta in Zs. assert (Zn := Z.sqrt_nonneg z). apply Rsqr_incr_0_var; [|apply IZR_le; lia].
        unfold Rsqr. rewrite sqrt_sqrt by exact Pr. rewrite <- mult_IZR. apply IZR_le. unfold Z.succ in Zs. lia.
      + apply pre_near, (near_sq u M pow_i HR); [exact Pr|apply num_near].
    - cbn [abound eval feval] in T, E, Eh. apply OB in T as (ta & T & T'). apply LB in E as (va & E & E'). apply LB in Eh as (vha & Eh & Eh'). inversion T'; inversion E'; inversion Eh'; subst.
      rewrite ?Rmult_1_r. apply mul_ok; eauto.
  Qed.
  Lemma sound_list l : forall f e eh f' e' eh', erel f e eh -> abound_list f l = Some f' -> exec x e l = Some e' -> fexec M x eh l = Some eh' -> erel f' e' eh'.
  Proof.
    induction l as [|[k a] l IH]; intros f e eh f' e' eh' R0 T E Eh; cbn [abound_list exec fexec] in T, E, Eh; [inversion T; inversion E; inversion Eh; subst; exact R0|].
    destruct (abound f a) as [t|] eqn:T1; [|discriminate]. destruct (eval x e a) as [v|] eqn:E1; [|discriminate]. destruct (feval M x eh a) as [vh|] eqn:Eh1; [|discriminate]. cbn [obind lbind] in T, E, Eh.
    eapply IH; [|exact T|exact E|exact Eh]. intros k' t' G'. cbn [get] in *. destruct (Pos.eqb k k').
    - inversion G'; subst. exists v, vh. split; [reflexivity|]. split; [reflexivity|]. eapply sound; eauto.
    - exact (R0 k' t' G').
  Qed.
  Lemma prog_sound p t v vh : prog_bound p = Some t -> run p x = Some v -> frun M p x = Some vh -> arel t v vh.
  Proof.
    unfold prog_bound, run, frun. intros T E Eh. destruct (abound_list [] (fst p)) as [f|] eqn:T1; [|discriminate]. destruct (exec x [] (fst p)) as [e|] eqn:E1; [|discriminate]. destruct (fexec M x [] (fst p)) as [eh|] eqn:Eh1; [|discriminate].
    cbn [obind lbind] in T, E, Eh. assert (R1 : erel f e eh) by (eapply sound_list; [|exact T1|exact E1|exact Eh1]; intros k a G'; discriminate G'). eapply sound; eauto.
  Qed.
End Acc.
