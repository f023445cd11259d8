(** * The product computed with the program's expansions: what it equals and how far it is from the direct product. *)
From Coq Require Import QArith Qreals ZArith List Reals Lia Lra Arith Bool Cantor.
From Coquelicot Require Import Coquelicot.
From Verif Require Import ModelLegendre ModelLegApi ModelOctree SpecOctree ModelFmm SpecFmm LibSum ProofsOctTree ProofsOctLevels ProofsOctFacts ProofsOctLists ProofsFmmCover ProofsFmmFar ProofsOctMore PropOctree PropFmm SpecExp ModelFmmExp ProofsFmmRel ProofsFmmGeo.
From Verif Require PropAcc ModelKernel.
From Verif Require Import SpecFmmAcc ModelExp SpecAcc ProofsHarm ProofsExp ProofsExp3 ProofsExp4 ProofsExp5 ProofsAcc1 ProofsAcc2 ProofsAcc3 ProofsAcc4 ProofsAcc5 ProofsAcc6 ProofsAcc7 ProofsAcc8 ProofsAcc9 ProofsAcc10.
Import ListNotations.
Local Open Scope R_scope.

Notation opt_ := ModelOctree.pt.
Lemma carries_ext p c l l' e : carries p c l e -> (forall n j, mus c l n j = mus c l' n j) ->
  List.Forall (fun s => strength s = 0 \/ match s with Charge _ _ => True | Dipole _ _ v => v <> Pt 0 0 0 end) l' -> carries p c l' e.
Proof. intros (A & B & D & E & F) M N. split; [exact A|]. split; [exact B|]. split; [exact D|]. split; [|exact N]. intros n m L. rewrite <- M. apply E; auto. Qed.
Lemma lcarries_ext p c g g' e : lcarries p c g e -> (forall x, rsum g (mval p x) = rsum g' (mval p x)) -> lcarries p c g' e.
Proof. intros (A & B & D & E) M. split; [exact A|]. split; [exact B|]. split; [exact D|]. intros x. rewrite <- M. apply E. Qed.
Lemma rsum_one {A} (l : list A) f a : NoDup l -> In a l -> (forall b, In b l -> b <> a -> f b = 0) -> rsum l f = f a.
Proof.
  induction l as [|x l IH]; intros N Ha Z; [destruct Ha|]. cbn [rsum]. inversion N; subst. destruct Ha as [->|Ha].
  - rewrite rsum_zero; [ring|]. intros b Hb. apply Z; [right; auto|]. intros ->. contradiction.
  - rewrite (Z x); [|left; auto|intros ->; contradiction]. rewrite IH; auto; [ring|]. intros b Hb. apply Z. right; auto.
Qed.
Lemma mu1_app c k s n j : mu1 c (scale k s) n j = (RtoC k * mu1 c s n j)%C.
Proof. apply mu1_scale. Qed.
Lemma scale_src I ly k w q : scale k (src_of I ly w q) = src_of I ly (k * w) q.
Proof. destruct ly; reflexivity. Qed.

Section Sim.
  Variable I : oin.
  Hypothesis W : wf_in I.
  Variable p : nat.
  Hypothesis Lp : (p <= 10)%nat.
  Variable ly : layer.
  Variable junk : R.
  Notation st := (octree I).
  Notation bs := (st_blocks (octree I)).
  Notation B := (getb (st_blocks (octree I))).
  Notation nq := (o_nq I).
  Notation nb := (length (st_blocks (octree I))).
  Notation ce := (cen I).
  Definition node (i : nat) : pt := rpt (o_pos I i).
  Definition usrc (q : nat) : source := src_of I ly 1 q.
  Definition wsrc (u : nat -> R) : list source := map (fun q => src_of I ly (u q) q) (seq 0 nq).
  Definition unit_m (c x : pt) (q : nat) : R := rsum (seq 0 (p + 1)) (sterm c x (usrc q)).
  Definition unit_l (cm cl x : pt) (q : nat) : R := mval p x (cm, cl, [usrc q]).
  (** formal combinations: of unit sources, and of conversions of unit sources *)
  Definition key (a c q : nat) : nat := Cantor.to_nat (Cantor.to_nat (a, c), q).
  Definition gconv (a c : nat) (u : coefs) : coefs := fun k =>
    let '(ac, q) := Cantor.of_nat k in let '(a', c') := Cantor.of_nat ac in if (Nat.eqb a' a && Nat.eqb c' c)%bool then u q else 0.
  Definition lsum (x : pt) (u : coefs) : R :=
    rsum (seq 0 nb) (fun a => rsum (seq 0 nb) (fun c => rsum (seq 0 nq) (fun q => u (key a c q) * unit_l (ce c) (ce a) x q))).
  Definition lgroups (u : coefs) : list (pt * pt * list source) :=
    flat_map (fun a => map (fun c => (ce c, ce a, map (fun q => src_of I ly (u (key a c q)) q) (seq 0 nq))) (seq 0 nb)) (seq 0 nb).
  Definition gf : geo := {|
    gS := fun _ q k => if Nat.eqb k q then 1 else 0;
    gMM := fun _ _ u => u; gML := gconv; gLL := fun _ _ u => u;
    gEM := fun c i u => rsum (seq 0 nq) (fun q => u q * unit_m (ce c) (node i) q);
    gEL := fun _ i u => lsum (node i) u |}.
  Lemma gconv_key a c u a' c' q : gconv a c u (key a' c' q) = if (Nat.eqb a' a && Nat.eqb c' c)%bool then u q else 0.
  Proof. unfold gconv, key. rewrite !Cantor.cancel_of_to. reflexivity. Qed.
  Lemma lin_sum {A} (l : list A) (k : A -> nat) (w : A -> R) : lin (fun u => rsum l (fun a => u (k a) * w a)).
  Proof.
    split; [|split].
    - intros u v E. apply rsum_ext. intros a _. rewrite E. reflexivity.
    - intros u v. rewrite <- rsum_plus. apply rsum_ext. intros. ring.
    - intros a u. rewrite <- rsum_scal. apply rsum_ext. intros. ring.
  Qed.
  Lemma lin_sum2 {A} (l : list A) (F : A -> coefs -> R) : (forall a, lin (F a)) -> lin (fun u => rsum l (fun a => F a u)).
  Proof.
    intros HF. split; [|split].
    - intros u v E. apply rsum_ext. intros a _. apply (HF a); auto.
    - intros u v. rewrite <- rsum_plus. apply rsum_ext. intros a _. apply (HF a).
    - intros k u. rewrite <- rsum_scal. apply rsum_ext. intros a _. apply (HF a).
  Qed.
  Lemma lin_proj k : lin (fun u => u k). Proof. repeat split; auto. Qed.
  Lemma gf_lin : geo_lin gf.
  Proof.
    split; [|split; [|split; [|split]]].
    - intros a b k. apply lin_proj.
    - intros a b k. cbn [gML gf]. unfold gconv. destruct (Cantor.of_nat k) as [ac q]. destruct (Cantor.of_nat ac) as [a' c']. destruct (_ && _)%bool; [apply lin_proj|]. repeat split; intros; ring.
    - intros a b k. apply lin_proj.
    - intros b i. cbn [gEM gf]. apply (lin_sum (seq 0 nq) (fun q => q)).
    - intros b i. cbn [gEL gf]. unfold lsum. apply lin_sum2. intros a. apply lin_sum2. intros c. apply (lin_sum (seq 0 nq) (fun q => key a c q)).
  Qed.

  (** hypotheses on the positions *)
  Hypothesis Hn : match ly with Single => True | Double n => forall q, (q < nq)%nat -> n q <> Pt 0 0 0 end.
  Hypothesis Hq : forall b q, In b (st_childless st) -> In q (b_quads (B b)) ->
    match ly with Single => rpt (o_qpos I q) <> ce b | Double _ => cx (rpt (o_qpos I q)) <> cx (ce b) \/ cy (rpt (o_qpos I q)) <> cy (ce b) end.
  Hypothesis Hx : forall b i, In b (st_childless st) -> In i (b_nodes (B b)) -> node i <> ce b.
  Hypothesis Hd : 2 / 10000000 < least_side I.
  Hypothesis RX : exact_arithmetic I.

  Lemma mus_wsrc c u n j : mus c (wsrc u) n j = csum (seq 0 nq) (fun q => RtoC (u q) * mu1 c (usrc q) n j)%C.
  Proof.
    unfold mus, wsrc. rewrite csum_map. apply csum_ext. intros q _. rewrite <- mu1_scale. unfold usrc. rewrite scale_src, Rmult_1_r. reflexivity.
  Qed.
  Lemma wsrc_ok u : List.Forall (fun s => strength s = 0 \/ match s with Charge _ _ => True | Dipole _ _ v => v <> Pt 0 0 0 end) (wsrc u).
  Proof.
    apply Forall_forall. intros s Hs. unfold wsrc in Hs. apply in_map_iff in Hs as (q & <- & Hs). apply in_seq in Hs. right. destruct ly as [|n]; cbn; auto. apply Hn. lia.
  Qed.
  Definition RM (b : nat) (m : option expansion) (x : nat * coefs) : Prop :=
    fst x = b /\ exists e, m = Some e /\ carries p (ce b) (wsrc (snd x)) e.
  Definition RL (b : nat) (m : option expansion) (x : nat * coefs) : Prop :=
    fst x = b /\ exists e, m = Some e /\ lcarries p (ce b) (lgroups (snd x)) e.
  Lemma mval_lgroups x u : rsum (lgroups u) (mval p x) = lsum x u.
  Proof.
    assert (F : forall (A B : Type) (l : list A) (g : A -> list B) (f : B -> R), rsum (flat_map g l) f = rsum l (fun a => rsum (g a) f)).
    { intros A B0 l g f. induction l as [|a l IH]; [reflexivity|]. cbn [flat_map rsum]. rewrite rsum_app, IH. reflexivity. }
    unfold lgroups, lsum. rewrite F. apply rsum_ext. intros a _. rewrite rsum_map. apply rsum_ext. intros c _. rewrite mval_sum, rsum_map. apply rsum_ext. intros q _.
    unfold unit_l. rewrite mval_sum. cbn [rsum]. rewrite Rplus_0_r. rewrite <- rsum_scal. apply rsum_ext. intros n _. rewrite <- rsum_scal. apply rsum_ext. intros k _. unfold dterm.
    rewrite <- tv_q. unfold tv. f_equal. apply tm_ext. intros m. unfold star. apply csum_ext. intros j _. f_equal.
    rewrite <- mu1_scale. unfold usrc. rewrite scale_src, Rmult_1_r. reflexivity.
  Qed.
  Lemma wsrc_plus p0 c u v e : carries p0 c (wsrc u ++ wsrc v) e -> carries p0 c (wsrc (fun k => u k + v k)) e.
  Proof.
    intros Ca. eapply carries_ext; [exact Ca| |apply wsrc_ok]. intros n j. rewrite mus_app, !mus_wsrc, <- csum_plus. apply csum_ext. intros q _. rewrite RtoC_plus. ring.
  Qed.
  Lemma wsrc_ext p0 c u v e : (forall k, (k < nq)%nat -> u k = v k) -> carries p0 c (wsrc u) e -> carries p0 c (wsrc v) e.
  Proof. intros E Ca. assert (wsrc u = wsrc v) as <-; auto. unfold wsrc. apply map_ext_in. intros q Hq'. apply in_seq in Hq'. rewrite E by lia. reflexivity. Qed.
  Lemma sim_mz b : RM b (Some (fresh p (block_center (B b)))) (b, fun _ => 0).
  Proof.
    split; [reflexivity|]. eexists. split; [reflexivity|]. cbn [snd]. assert (C0 : carries p (ce b) [] (fresh p (block_center (B b)))) by (apply multipole_carries; [lia|apply mo_new]).
    eapply carries_ext; [exact C0| |apply wsrc_ok]. intros n j. rewrite mus_wsrc. symmetry. apply csum_zero. intros. ring.
  Qed.
  Lemma sim_lz b : RL b (Some (fresh p (block_center (B b)))) (b, fun _ => 0).
  Proof.
    split; [reflexivity|]. eexists. split; [reflexivity|]. cbn [snd]. assert (C0 : lcarries p (ce b) [] (fresh p (block_center (B b)))) by (apply local_carries; [lia|constructor|apply lo_new]).
    eapply lcarries_ext; [exact C0|]. intros x. rewrite mval_lgroups. unfold lsum. symmetry. apply rsum_zero. intros a _. apply rsum_zero. intros c _. apply rsum_zero. intros q _. ring.
  Qed.
  Lemma sim_src b m x w q : In b (st_childless st) -> In q (b_quads (B b)) -> RM b m x ->
    RM b (bind m (fun e => add_source e (src_of I ly w q))) (fst x, fun k => snd x k + w * gS gf (fst x) q k).
  Proof.
    intros Hb Hqb (E1 & e & -> & Ca). split; [exact E1|]. cbn [bind snd].
    assert (Lq : (q < nq)%nat) by (apply (quad_bound I W b); auto; apply (F_cl I W); auto).
    assert (Rg : regular (ce b) (src_of I ly w q)).
    { assert (Z := Hq b q Hb Hqb). destruct ly as [|n]; cbn [src_of regular]; right; auto. }
    destruct (carries_source p (ce b) _ e _ ltac:(lia) Ca Rg) as (e' & A & C'). exists e'. split; [exact A|].
    eapply carries_ext; [exact C'| |apply wsrc_ok]. intros n j. rewrite mus_app, !mus_wsrc.
    transitivity (csum (seq 0 nq) (fun k => RtoC (snd x k) * mu1 (ce b) (usrc k) n j) + csum (seq 0 nq) (fun k => RtoC (if Nat.eqb k q then w else 0) * mu1 (ce b) (usrc k) n j))%C.
    - f_equal. rewrite (csum_one _ _ q); [|apply seq_NoDup|apply in_seq; lia|].
      + rewrite Nat.eqb_refl. unfold mus. cbn [csum]. rewrite <- mu1_scale. unfold usrc. rewrite scale_src, Rmult_1_r. ring.
      + intros k _ Nk. apply Nat.eqb_neq in Nk. rewrite Nk. ring.
    - rewrite <- csum_plus. apply csum_ext. intros k _. rewrite <- Cmult_plus_distr_r, <- RtoC_plus. f_equal. f_equal. cbn [gS gf]. destruct (Nat.eqb k q); ring.
  Qed.
  Lemma sim_addc b m x n y a : RM b m x -> RM b n y -> RM b (bind m (fun e => bind n (fun e' => m_add_scaled e e' a))) (fst x, fun k => snd x k + a * snd y k).
  Proof.
    intros (E1 & e & -> & Ca) (E2 & e' & -> & Cb). split; [exact E1|]. cbn [bind snd]. destruct (carries_scaled p (ce b) _ e _ e' a Ca Cb) as (e2 & A & C'). exists e2. split; [exact A|].
    apply wsrc_plus. eapply carries_ext; [exact C'| |].
    - intros k j. rewrite !mus_app. f_equal. rewrite mus_scale, !mus_wsrc, <- csum_scal. apply csum_ext. intros q _. rewrite RtoC_mult. ring.
    - apply Forall_app. split; apply wsrc_ok.
  Qed.
  Lemma sim_madd b c m x n y : movable (ce c) (ce b) -> RM b m x -> RM c n y -> RM b (lift2 m_translate m n) (madd (lin_eops gf) x y).
  Proof.
    intros Mv (E1 & e & -> & Ca) (E2 & e' & -> & Cb). split; [exact E1|]. cbn [lift2 bind madd lin_eops snd gMM gf]. destruct (carries_translate p (ce b) _ e (ce c) _ e' ltac:(lia) Ca Cb Mv) as (e2 & A & C').
    exists e2. split; [exact A|]. apply wsrc_plus in C'. eapply wsrc_ext; [|exact C']. intros k _. cbn beta. destruct (Nat.eqb (fst x) (fst y)); reflexivity.
  Qed.
  Lemma lgroups_plus c u v e : lcarries p c (lgroups u ++ lgroups v) e -> lcarries p c (lgroups (fun k => u k + v k)) e.
  Proof.
    intros Ca. eapply lcarries_ext; [exact Ca|]. intros x. rewrite rsum_app, !mval_lgroups. unfold lsum. rewrite <- rsum_plus. apply rsum_ext. intros a _. rewrite <- rsum_plus. apply rsum_ext. intros b _.
    rewrite <- rsum_plus. apply rsum_ext. intros q _. ring.
  Qed.
  Lemma lgroups_ext c u v e : (forall k, u k = v k) -> lcarries p c (lgroups u) e -> lcarries p c (lgroups v) e.
  Proof.
    intros E Ca. eapply lcarries_ext; [exact Ca|]. intros x. rewrite !mval_lgroups. unfold lsum. apply rsum_ext. intros a _. apply rsum_ext. intros b _. apply rsum_ext. intros q _. rewrite E. reflexivity.
  Qed.
  Lemma sim_laddl b c m x n y : movable (ce c) (ce b) -> RL b m x -> RL c n y -> RL b (lift2 l_translate m n) (laddl (lin_eops gf) x y).
  Proof.
    intros Mv (E1 & e & -> & Ca) (E2 & e' & -> & Cb). split; [exact E1|]. cbn [lift2 bind laddl lin_eops snd gLL gf]. destruct (lcarries_translate p (ce b) _ e (ce c) _ e' Lp Ca Cb Mv) as (e2 & A & C').
    exists e2. split; [exact A|]. apply lgroups_plus in C'. eapply lgroups_ext; [|exact C']. intros k. cbn beta. destruct (Nat.eqb (fst x) (fst y)); reflexivity.
  Qed.
  Lemma sim_laddm b c m x n y : (b < nb)%nat -> (c < nb)%nat -> ce c <> ce b -> RL b m x -> RM c n y -> RL b (lift2 l_convert m n) (laddm (lin_eops gf) x y).
  Proof.
    intros Lb Lc Nc (E1 & e & -> & Ca) (E2 & e' & -> & Cb). split; [exact E1|]. cbn [lift2 bind laddm lin_eops snd gML gf]. destruct (lcarries_convert p (ce b) _ e (ce c) _ e' Lp Ca Cb Nc) as (e2 & A & C').
    exists e2. split; [exact A|]. apply lgroups_plus. eapply lcarries_ext; [exact C'|]. intros z. rewrite !rsum_app. f_equal. rewrite mval_lgroups. cbn [rsum]. rewrite Rplus_0_r, E1, E2.
    unfold lsum. rewrite (rsum_one _ _ b); [|apply seq_NoDup|apply in_seq; lia|].
    - rewrite (rsum_one _ _ c); [|apply seq_NoDup|apply in_seq; lia|].
      + rewrite mval_sum. unfold wsrc. rewrite rsum_map. apply rsum_ext. intros q _. rewrite gconv_key, !Nat.eqb_refl. cbn [andb].
        unfold unit_l. rewrite mval_sum. cbn [rsum]. rewrite Rplus_0_r. rewrite <- rsum_scal. apply rsum_ext. intros i _. rewrite <- rsum_scal. apply rsum_ext. intros k _. unfold dterm.
        rewrite <- tv_q. unfold tv. f_equal. apply tm_ext. intros t. unfold star. apply csum_ext. intros j _. f_equal. rewrite <- mu1_scale. unfold usrc. rewrite scale_src, Rmult_1_r. reflexivity.
      + intros c' _ N'. apply rsum_zero. intros q _. rewrite gconv_key. apply Nat.eqb_neq in N'. rewrite N', andb_false_r. ring.
    - intros a' _ N'. apply rsum_zero. intros c' _. apply rsum_zero. intros q _. rewrite gconv_key. apply Nat.eqb_neq in N'. rewrite N'. cbn [andb]. ring.
  Qed.
  Lemma sim_evM c n y i : node i <> ce c -> RM c n y -> read junk (bind n (fun e => m_evaluate e (node i))) = evM (lin_eops gf) y i.
  Proof.
    intros Nx (E2 & e & -> & Ca). cbn [bind evM lin_eops gEM gf]. assert (Mo := carries_moments _ _ _ _ Ca). destruct Ca as (A1 & A2 & A3 & A4 & A5). rewrite m_eval_ok by (rewrite ?A1, ?A2; auto; lia).
    cbn [read]. rewrite A1, A2, E2. rewrite (full_mom p (at_ e) (mus (ce c) (wsrc (snd y)))) by (auto; intros k j; apply mus_conj).
    rewrite (rsum_ext _ _ (fun n => rsum (wsrc (snd y)) (fun s => sterm (ce c) (node i) s n))) by (intros; apply tm_mus). rewrite rsum_swap. unfold wsrc. rewrite rsum_map. apply rsum_ext. intros q _.
    unfold unit_m. rewrite <- rsum_scal. apply rsum_ext. intros k _. unfold sterm. rewrite <- tm_scal. apply tm_ext. intros j. rewrite <- mu1_scale. unfold usrc. rewrite scale_src, Rmult_1_r. reflexivity.
  Qed.
  Lemma sim_evL b n y i : node i <> ce b -> RL b n y -> read junk (bind n (fun e => l_evaluate e (node i))) = evL (lin_eops gf) y i.
  Proof.
    intros Nx (E2 & e & -> & Ca). cbn [bind evL lin_eops gEL gf]. destruct Ca as (A1 & A2 & A3 & A4). rewrite l_eval_ok by (rewrite ?A1, ?A2; auto; lia). cbn [read]. rewrite A1, A2.
    replace (full (at_ e) (wl (psub (node i) (ce b))) (psub (node i) (ce b)) p) with (full (at_ e) (fun _ => 1) (psub (node i) (ce b)) p) by reflexivity. rewrite A4. apply mval_lgroups.
  Qed.
  Theorem code_product K phi owned s i : good_sched I st s ->
    fmm_product (code_eops I st p ly junk) I st K phi owned s i = fmm_product (lin_eops gf) I st K phi owned s i.
  Proof.
    intros Hs. assert (Pd : 0 < least_side I) by lra.
    assert (Mvp : forall k, (0 < k < nb)%nat -> 1 / 10000000 < distance (ce k) (ce (b_parent (B k)))).
    { intros k Hk. assert (X := parent_distance I W RX k Hk). assert (Y := side_least I W RX k ltac:(lia)). lra. }
    apply (product_rel (code_eops I st p ly junk) (lin_eops gf) I st K phi owned s RM RL Hs).
    - apply sim_mz.
    - apply sim_lz.
    - intros. apply sim_src; auto.
    - intros. apply sim_addc; auto.
    - intros. apply (sim_madd b b); [left; reflexivity|auto|auto].
    - intros l k m m' n n' Hl Hk R1 R2. apply (F_level_ids I W) in Hk; [|lia]. destruct Hk as (K1 & K2).
      assert (K0 : (0 < k)%nat) by (destruct (Nat.eq_dec k 0) as [->|]; [assert (Z := proj2 (level_pos I bs (F_tree I W) 0 K1) eq_refl); lia|lia]).
      apply (sim_madd _ k); [right; apply Mvp; lia|auto|auto].
    - intros. apply (sim_laddl b b); [left; reflexivity|auto|auto].
    - intros l k m m' n n' Hl Hk R1 R2. apply (dfill_in I W) in Hk; [|lia]. destruct Hk as (K1 & K2 & _).
      assert (K0 : (0 < k)%nat) by (destruct (Nat.eq_dec k 0) as [->|]; [assert (Z := proj2 (level_pos I bs (F_tree I W) 0 K1) eq_refl); lia|lia]).
      apply (sim_laddl _ (b_parent (B k))); [right; rewrite distance_sym; apply Mvp; lia|auto|auto].
    - intros l b c t m m' n n' Hl Hb Ht Hc R1 R2. destruct (nonint_bound I W l b c t Hl Hb Ht Hc) as (Hb' & Hc'). apply (sim_laddm b c); auto; [lia|]. apply (nonint_apart I W RX l b c t); auto.
    - intros l b c t n n' j Hl Hb Ht Hc Hj R1. apply (sim_evM c); auto. apply (nonint_node I W RX l b c t j); auto.
    - intros b n n' j Hb Hj _ R1. apply (sim_evL b); auto.
  Qed.
End Sim.

(** ** Error of the far field *)
Lemma sqrt3 : 1.732 < sqrt 3 < 1.733 /\ sqrt 3 * sqrt 3 = 3.
Proof.
  assert (S3 : sqrt 3 * sqrt 3 = 3) by (apply sqrt_sqrt; lra). assert (P := sqrt_pos 3). split; [|auto]. split.
  - apply Rsqr_incrst_0; [unfold Rsqr; lra|lra|auto].
  - apply Rsqr_incrst_0; [unfold Rsqr; lra|auto|lra].
Qed.
Definition unit_src (ly : layer) (q : nat) : source := match ly with Single => Charge 1 (Pt 0 0 0) | Double n => Dipole 1 (Pt 0 0 0) (n q) end.
Lemma error_scale s p k r t : 0 < t -> 0 <= k < r -> error s p (k * t) (r * t) = error s p k r / (match s with Charge _ _ => t | Dipole _ _ _ => t * t end).
Proof.
  intros Pt K. assert (Rt : k * t / (r * t) = k / r) by (field; split; lra). assert (Df : r * t - k * t = (r - k) * t) by ring. unfold error. destruct s; cbn [unit_error]; rewrite Rt, Df; field; repeat split; lra.
Qed.
Lemma error_pos s p k r : 0 <= k < r -> 0 <= error s p k r.
Proof. intros K. apply (PropAcc.C57_error_is_monotone s p k r k r); lra. Qed.
Lemma error_side s p d d' : 0 < d <= d' -> error s p (sqrt 3 * d') (2 * d') <= error s p (sqrt 3 * d) (2 * d).
Proof.
  intros Pd. assert (R3 := sqrt3). rewrite !error_scale by lra. assert (E := error_pos s p (sqrt 3) 2 ltac:(lra)). unfold Rdiv. apply Rmult_le_compat_l; auto.
  destruct s; [apply Rinv_le_contravar; lra|]. apply Rinv_le_contravar; [apply Rmult_lt_0_compat; lra|]. apply Rmult_le_compat; lra.
Qed.
Lemma error_eval s p d : 0 < d -> error s p (sqrt 3 / 2 * d) (3 / 2 * d) <= error s p (sqrt 3 * d) (2 * d).
Proof.
  intros Pd. destruct sqrt3 as (R3 & S3). rewrite !error_scale by lra. unfold Rdiv at 1 4. apply Rmult_le_compat_r.
  { left. apply Rinv_0_lt_compat. destruct s; auto. apply Rmult_lt_0_compat; auto. }
  unfold error. apply Rmult_le_compat_l; [apply Rabs_pos|].
  assert (Q1 : sqrt 3 / 2 / (3 / 2) = sqrt 3 / 3) by field. assert (P1 : 0 <= sqrt 3 / 3 <= sqrt 3 / 2) by lra.
  assert (Pw : forall n, (sqrt 3 / 3) ^ n <= (sqrt 3 / 2) ^ n) by (intros n; apply pow_incr; auto).
  assert (Pp : forall n, 0 <= (sqrt 3 / 3) ^ n) by (intros n; apply pow_le; lra).
  destruct s; cbn [unit_error]; rewrite Q1.
  - unfold Rdiv. apply Rmult_le_compat; auto; [left; apply Rinv_0_lt_compat; lra|]. apply Rinv_le_contravar; lra.
  - apply Rmult_le_compat_l; [apply sqrt_pos|]. assert (As : forall x y z : R, x * y / z = x * (y * / z)) by (intros; unfold Rdiv; ring). rewrite !As. apply Rmult_le_compat; auto.
    + assert (Z := pos_INR p). apply Rmult_le_pos; [nra|]. left. apply Rinv_0_lt_compat. apply Rmult_lt_0_compat; lra.
    + assert (Z := pos_INR p). set (a := 3 / 2 - sqrt 3 / 2). set (b := 2 - sqrt 3). assert (Pa : 0.6335 < a < 0.634) by (unfold a; lra). assert (Pb : 0.267 < b < 0.268) by (unfold b; lra).
      assert (Pb2 : b * b <= 0.072) by nra. assert (Pa2 : 0.401 <= a * a) by nra.
      apply (Rmult_le_reg_r ((a * a) * (b * b))); [apply Rmult_lt_0_compat; apply Rmult_lt_0_compat; lra|].
      replace ((INR p + 1 - INR p * (sqrt 3 / 3)) * / (a * a) * (a * a * (b * b))) with ((INR p + 1 - INR p * (sqrt 3 / 3)) * (b * b)) by (field; lra).
      replace ((INR p + 1 - INR p * (sqrt 3 / 2)) * / (b * b) * (a * a * (b * b))) with ((INR p + 1 - INR p * (sqrt 3 / 2)) * (a * a)) by (field; lra).
      set (y := INR p) in *. clearbody y.
      assert (A1 : 0 <= y + 1 - y * (sqrt 3 / 3)) by nra. assert (A2 : 0 <= y + 1 - y * (sqrt 3 / 2)) by nra.
      apply Rle_trans with ((y + 1 - y * (sqrt 3 / 3)) * 0.072); [apply Rmult_le_compat_l; auto|]. apply Rle_trans with ((y + 1 - y * (sqrt 3 / 2)) * 0.401); [|apply Rmult_le_compat_l; auto]. nra.
Qed.

Section Ways.
  Variable I : oin.
  Hypothesis W : wf_in I.
  Variable p : nat.
  Variable ly : layer.
  Hypothesis GP : general_position I ly.
  Notation st := (octree I).
  Notation bs := (st_blocks (octree I)).
  Notation B := (getb (st_blocks (octree I))).
  Notation G := (gf I p ly).
  Definition dlt (q : nat) : coefs := fun k => if Nat.eqb k q then 1 else 0.
  Lemma up_id q b n : carry_up G bs q b n = dlt q.
  Proof. induction n as [|n IH]; [reflexivity|]. cbn [carry_up]. cbn [gMM gf]. exact IH. Qed.
  Lemma down_id b n u : carry_down G bs b n u = u.
  Proof. revert u. induction n as [|n IH]; intros u; [reflexivity|]. cbn [carry_down]. rewrite IH. reflexivity. Qed.
  Lemma pick {A} (w : A -> R) (l : list A) (f : A -> R) a : NoDup l -> In a l -> f a = 1 -> (forall b, b <> a -> f b = 0) -> rsum l (fun x => f x * w x) = w a.
  Proof. intros N Ha F1 F0. rewrite (rsum_one _ _ a); auto; [rewrite F1; ring|]. intros b _ Nb. rewrite F0 by auto. ring. Qed.
  Lemma m2l_value b c i q : (b < length bs)%nat -> (c < length bs)%nat -> (q < o_nq I)%nat -> lsum I p ly (node I i) (gconv b c (dlt q)) = unit_l I p ly (cen I c) (cen I b) (node I i) q.
  Proof.
    intros Lb Lc Lq. unfold lsum. rewrite (rsum_one _ _ b); [|apply seq_NoDup|apply in_seq; lia|].
    - rewrite (rsum_one _ _ c); [|apply seq_NoDup|apply in_seq; lia|].
      + rewrite (rsum_one _ _ q); [|apply seq_NoDup|apply in_seq; lia|].
        * rewrite gconv_key, !Nat.eqb_refl. unfold dlt. rewrite Nat.eqb_refl. cbn [andb]. ring.
        * intros k _ N. rewrite gconv_key, !Nat.eqb_refl. unfold dlt. apply Nat.eqb_neq in N. rewrite N. cbn [andb]. ring.
      + intros c' _ N'. apply rsum_zero. intros k _. rewrite gconv_key. apply Nat.eqb_neq in N'. rewrite N', andb_false_r. ring.
    - intros a' _ N'. apply rsum_zero. intros c' _. apply rsum_zero. intros k _. rewrite gconv_key. apply Nat.eqb_neq in N'. rewrite N'. cbn [andb]. ring.
  Qed.
  Lemma meval_value c i q : (q < o_nq I)%nat -> rsum (seq 0 (o_nq I)) (fun k => dlt q k * unit_m I p ly (cen I c) (node I i) k) = unit_m I p ly (cen I c) (node I i) q.
  Proof.
    intros Lq. apply (pick (fun k => unit_m I p ly (cen I c) (node I i) k)); [apply seq_NoDup|apply in_seq; lia|unfold dlt; rewrite Nat.eqb_refl; auto|].
    intros k N. unfold dlt. apply Nat.eqb_neq in N. rewrite N. reflexivity.
  Qed.
  Lemma normal_ok : match ly with Single => True | Double n => forall q, (q < o_nq I)%nat -> n q <> Pt 0 0 0 end.
  Proof. destruct GP as (_ & _ & _ & N & _). destruct ly as [|n]; auto. intros q Lq E. specialize (N q Lq). rewrite E in N. cbn in N. lra. Qed.
  Lemma kernel_potential i q : (q < o_nq I)%nat -> node I i <> rpt (o_qpos I q) -> code_kernel I ly i q = potential (usrc I ly q) (node I i) / 4 / PI.
  Proof.
    intros Lq Nq. destruct GP as (_ & _ & _ & N & _). assert (PI0 := PI_neq0).
    assert (Sq : ModelKernel.square 3 (sep I i q) = square (psub (node I i) (rpt (o_qpos I q)))).
    { unfold ModelKernel.square, sep, square, psub, node, rpt. cbn. ring. }
    assert (Nm : ModelKernel.norm 3 (sep I i q) = distance (node I i) (rpt (o_qpos I q))) by (unfold ModelKernel.norm, distance; rewrite Sq; reflexivity).
    assert (D0 : distance (node I i) (rpt (o_qpos I q)) <> 0). { rewrite distance_rho. apply rho_sub; auto. }
    destruct ly as [|n]; cbn [code_kernel usrc src_of potential].
    - unfold ModelKernel.kernels3_d. cbv zeta. rewrite Nm. field. auto.
    - specialize (N q Lq). assert (Uv : unit_vector (n q) = n q).
      { unfold unit_vector. rewrite N, sqrt_1. destruct (n q) as [x y z]. cbn. f_equal; field. }
      unfold usrc. cbn [src_of potential]. cbv zeta. rewrite Uv. unfold ModelKernel.kernels3_D. cbv zeta. rewrite Nm. unfold node, rpt at 2 4 6. unfold sep. cbn [cx cy cz]. unfold rpt at 1 2 3. cbn [cx cy cz].
      set (r := distance _ _) in *. unfold rpt. cbn [cx cy cz]. field. auto.
  Qed.
  Lemma parts : 0 < least_side I /\ 2 / 10000000 < least_side I.
  Proof. destruct GP as (_ & _ & _ & _ & L & _). unfold smallest_side, blk in L. unfold least_side, root_side. lra. Qed.
  Lemma far_value q d : 0 < d -> far_error ly p d = INR (p + 1) * error (usrc I ly q) p (sqrt 3 * d) (2 * d) / 4 / PI.
  Proof.
    intros Pd. assert (R3 := sqrt3). assert (P0 := PI_neq0). assert (Rt : sqrt 3 * d / (2 * d) = sqrt 3 / 2) by (field; lra).
    unfold far_error, error, usrc. destruct ly; cbn [src_of strength unit_error]; rewrite Rt, Rabs_R1; cbn [pow].
    all: replace (2 * d - sqrt 3 * d) with ((2 - sqrt 3) * d) by ring; field; repeat split; auto; apply Rgt_not_eq; lra.
  Qed.
  Lemma far_pos d : 0 < d -> 0 <= far_error ly p d.
  Proof.
    intros Pd. rewrite (far_value 0 d Pd). assert (R3 := sqrt3). assert (P0 := PI_RGT_0). assert (E := error_pos (usrc I ly 0) p (sqrt 3 * d) (2 * d) ltac:(nra)).
    assert (N := pos_INR (p + 1)). unfold Rdiv. apply Rmult_le_pos; [apply Rmult_le_pos; [apply Rmult_le_pos; auto|lra]|]. left. apply Rinv_0_lt_compat. auto.
  Qed.
  Lemma gap_distinct g b c i q : (0 < Q2R g) -> gap g (B b) (B c) -> inside (o_pos I i) (B b) -> inside (o_qpos I q) (B c) -> node I i <> rpt (o_qpos I q).
  Proof.
    intros Pg (a & Ha & G) I1 I2 E. destruct (I1 a Ha) as (A1 & A2). destruct (I2 a Ha) as (A3 & A4). apply Qle_Rle in A1, A2, A3, A4. rewrite Q2R_plus in A2, A4.
    unfold node, rpt in E. assert (Ex := f_equal cx E). assert (Ey := f_equal cy E). assert (Ez := f_equal cz E). cbn [cx cy cz] in Ex, Ey, Ez. clear E.
    destruct a as [|[|a]]; cbn [axis] in *; destruct G as [G|G]; apply Qle_Rle in G; rewrite !Q2R_plus in G; lra.
  Qed.
  Lemma usrc_pos q : position (usrc I ly q) = rpt (o_qpos I q). Proof. unfold usrc. destruct ly; reflexivity. Qed.
  Lemma usrc_ok q : (q < o_nq I)%nat -> strength (usrc I ly q) = 0 \/ match usrc I ly q with Charge _ _ => True | Dipole _ _ v => v <> Pt 0 0 0 end.
  Proof. intros Lq. right. assert (N := normal_ok). unfold usrc. destruct ly; cbn; auto. Qed.
  Lemma Q4 x y : (4 * x <= 3 * (y * y))%Q -> 4 * Q2R x <= 3 * (Q2R y * Q2R y).
  Proof. intros L. apply Qle_Rle in L. rewrite !Q2R_mult in L. change 4%Q with (inject_Z 4) in L. change 3%Q with (inject_Z 3) in L. rewrite !Q2R_num in L. auto. Qed.
  Lemma Q9 x y : (9 * (y * y) <= 4 * x)%Q -> 9 * (Q2R y * Q2R y) <= 4 * Q2R x.
  Proof. intros L. apply Qle_Rle in L. rewrite !Q2R_mult in L. change 4%Q with (inject_Z 4) in L. change 9%Q with (inject_Z 9) in L. rewrite !Q2R_num in L. auto. Qed.
  Lemma Q1 x y : (4 * (y * y) <= x)%Q -> 4 * (Q2R y * Q2R y) <= Q2R x.
  Proof. intros L. apply Qle_Rle in L. rewrite !Q2R_mult in L. change 4%Q with (inject_Z 4) in L. rewrite !Q2R_num in L. auto. Qed.
  Lemma half_diag x y (d : R) : 0 <= d -> 4 * Q2R (dist2 x y) <= 3 * (d * d) -> distance (rpt x) (rpt y) <= sqrt 3 / 2 * d.
  Proof. intros Pd L. destruct sqrt3 as (R3 & S3). apply dist_upper; [nra|]. replace (sqrt 3 / 2 * d * (sqrt 3 / 2 * d)) with ((sqrt 3 * sqrt 3) / 4 * (d * d)) by field. rewrite S3. lra. Qed.
  Lemma dist_pos x y : 0 <= distance x y. Proof. apply sqrt_pos. Qed.
  Lemma way_error K b e i q w : kd K = code_kernel I ly -> (q < o_nq I)%nat -> In w (ways I st i q) ->
    Rabs (way_kernel G bs K b e i q w - kd K i q) <= far_error ly p (least_side I).
  Proof.
    intros Kd Lq Hw. destruct parts as (P0 & P1). destruct sqrt3 as (R3 & S3). assert (PI0 := PI_RGT_0). assert (HR := proj1 GP). assert (RX : exact_arithmetic I) by (destruct GP as (_ & _ & _ & _ & _ & RX); exact RX).
    destruct w as [b'|b'|b' c|b' c]; cbn [way_kernel].
    - rewrite Rminus_eq_0, Rabs_R0. apply far_pos; auto.
    - rewrite Rminus_eq_0, Rabs_R0. apply far_pos; auto.
    - rewrite up_id, down_id, Kd. cbn [gEL gML gf]. assert (F := Hw). apply (m2l_facts I W RX) in F. destruct F as (F1 & F2 & F3 & F4 & F5 & F6 & F7).
      assert (Sb := side_least I W RX b' F3). unfold side in Sb. set (d := Q2R (b_delta (B b'))) in *.
      rewrite m2l_value by auto. rewrite kernel_potential; auto.
      2:{ apply (gap_distinct (b_delta (B b')) b' c); auto; [fold d; lra| |]. - apply C33_nodes_lie_in_their_block; auto. - apply C33_quadrature_points_lie_in_their_block; auto. }
      destruct (C39_m2l_converges I i q b' c W RX Hw HR) as (A1 & A2 & A3). unfold blk in *. apply Q4 in A1, A2. apply Q1 in A3. fold d in A1, A2, A3.
      assert (X1 := half_diag _ _ d ltac:(lra) A1). assert (X2 := half_diag _ _ d ltac:(lra) A2).
      assert (X3 : 2 * d <= distance (rpt (centre (B c))) (rpt (centre (B b')))). { rewrite distance_sym. apply dist_ge; lra. }
      assert (Y1 := dist_pos (rpt (o_pos I i)) (rpt (centre (B b')))). assert (Y2 := dist_pos (rpt (o_qpos I q)) (rpt (centre (B c)))).
      assert (Ds : sqrt 3 * d < 2 * d) by nra.
      assert (E := source_m2l p (cen I c) (cen I b') (node I i) (usrc I ly q) (usrc_ok q Lq)). rewrite usrc_pos in E. unfold cen in E. rewrite !center_centre in E. fold (node I i) in X1, Y1. specialize (E ltac:(lra)).
      assert (E2 := PropAcc.C57_error_is_monotone (usrc I ly q) p _ _ (sqrt 3 * d) (2 * d) ltac:(split; [|apply Rle_trans with (sqrt 3 / 2 * d + sqrt 3 / 2 * d); [apply Rplus_le_compat; [exact X1|exact X2]|lra]]; lra) Ds X3).
      assert (E3 := error_side (usrc I ly q) p (least_side I) d ltac:(lra)).
      rewrite (far_value q) by auto. unfold unit_l. rewrite mval_sum. cbn [rsum]. rewrite Rplus_0_r. unfold cen. rewrite !center_centre.
      match goal with |- Rabs (?u / 4 / PI - ?v / 4 / PI) <= _ => replace (u / 4 / PI - v / 4 / PI) with ((u - v) * / (4 * PI)) by (field; lra) end.
      rewrite Rabs_mult, (Rabs_right (/ (4 * PI))) by (left; apply Rinv_0_lt_compat; lra).
      match goal with |- _ <= ?u / 4 / PI => replace (u / 4 / PI) with (u * / (4 * PI)) by (field; lra) end.
      apply Rmult_le_compat_r; [left; apply Rinv_0_lt_compat; lra|]. eapply Rle_trans; [exact E|]. apply Rmult_le_compat_l; [apply pos_INR|]. lra.
    - rewrite up_id, Kd. cbn [gEM gf]. assert (F := Hw). apply (meval_facts I W RX) in F. destruct F as (F1 & F2 & F3 & F4 & F5 & F6 & F7).
      assert (Sc := side_least I W RX c F4). unfold side in Sc. set (d := Q2R (b_delta (B c))) in *.
      rewrite meval_value by auto. rewrite kernel_potential; auto.
      2:{ apply (gap_distinct (b_delta (B c)) b' c); auto; [fold d; lra| |]. - apply C33_nodes_lie_in_their_block; auto. - apply C33_quadrature_points_lie_in_their_block; auto. }
      destruct (C39_evaluation_converges I i q b' c W RX Hw HR) as (A2 & A3). unfold blk in *. apply Q4 in A2. apply Q9 in A3. fold d in A2, A3.
      assert (X2 := half_diag _ _ d ltac:(lra) A2).
      assert (X3 : 3 / 2 * d <= distance (node I i) (rpt (centre (B c)))) by (apply dist_ge; lra).
      assert (Y2 := dist_pos (rpt (o_qpos I q)) (rpt (centre (B c)))).
      assert (Ds : sqrt 3 / 2 * d < 3 / 2 * d) by nra.
      assert (E := source_error p (cen I c) (node I i) (usrc I ly q) (usrc_ok q Lq)). rewrite usrc_pos in E. unfold cen in E. rewrite !center_centre in E. specialize (E ltac:(lra)).
      assert (E2 := PropAcc.C57_error_is_monotone (usrc I ly q) p _ _ (sqrt 3 / 2 * d) (3 / 2 * d) (conj Y2 X2) Ds X3).
      assert (E3 := error_side (usrc I ly q) p (least_side I) d ltac:(lra)). assert (E4 := error_eval (usrc I ly q) p d ltac:(lra)).
      assert (E5 := error_pos (usrc I ly q) p (sqrt 3 * least_side I) (2 * least_side I) ltac:(nra)).
      rewrite (far_value q) by auto. unfold unit_m. unfold cen. rewrite !center_centre.
      match goal with |- Rabs (?u / 4 / PI - ?v / 4 / PI) <= _ => replace (u / 4 / PI - v / 4 / PI) with ((u - v) * / (4 * PI)) by (field; lra) end.
      rewrite Rabs_mult, (Rabs_right (/ (4 * PI))) by (left; apply Rinv_0_lt_compat; lra).
      match goal with |- _ <= ?u / 4 / PI => replace (u / 4 / PI) with (u * / (4 * PI)) by (field; lra) end.
      apply Rmult_le_compat_r; [left; apply Rinv_0_lt_compat; lra|]. eapply Rle_trans; [exact E|]. rewrite plus_INR. assert (Pp := pos_INR p). change (INR 1) with 1. nra.
  Qed.
End Ways.
Theorem product_error I p ly junk K phi owned s i : wf_in I -> (0 < o_nqc I)%nat -> (p <= 10)%nat -> general_position I ly -> kd K = code_kernel I ly ->
  good_sched I (octree I) s -> (i < o_nd I)%nat -> owned i = true ->
  Rabs (fmm_product (code_eops I (octree I) p ly junk) I (octree I) K phi owned s i - direct_product I K phi (kd K i) i)
  <= far_error ly p (smallest_side I) * suml (seq 0 (o_nq I)) (fun q => Rabs (density I K phi q)).
Proof.
  intros W Wq Lp GP Kd Hs Hi Ho. destruct (leaf_of_node I W i Hi) as (b & Hb & Hib). destruct (parts I ly GP) as (P0 & P1). assert (RX : exact_arithmetic I) by (destruct GP as (_ & _ & _ & _ & _ & RX); exact RX).
  rewrite (code_product I W p Lp ly junk); auto.
  - apply (C40_expansion_error_bounds_the_product_error I (gf I p ly) K phi owned s i b (leafq I)); auto.
    + apply gf_lin.
    + intros q Lq. apply (leafq_facts I W); auto.
    + intros q w Lq Hw. apply (way_error I W p ly GP K b (leafq I q) i q w); auto.
  - apply (normal_ok I ly GP).
  - intros b' q Hb' Hq'. destruct GP as (_ & G2 & _). specialize (G2 b' q Hb' Hq'). unfold cen. rewrite center_centre. exact G2.
  - intros b' j Hb' Hj'. destruct GP as (_ & _ & G3 & _). specialize (G3 b' j Hb' Hj'). unfold cen. rewrite center_centre. exact G3.
Qed.
