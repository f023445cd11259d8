(** Property theorems C82, continued: the assembled matrices under renumbering. *)
From Coq Require Import Reals List Bool Arith Lia Lra Permutation.
From Verif Require Import LibSum ModelOctree ModelFmm ModelAssemble ModelRules ModelFloat ProofsBit ProofsRndDirect.
From Verif Require ModelKernel.
From Verif Require Import ModelBem ModelSolve SpecSolve SpecRenumber.
From Verif Require PropCoincide ProofsBem.
Import ListNotations.
Local Open Scope nat_scope.

(** the same mesh with the unknowns numbered differently: number [i] of [J] is number [pi i] of [I] *)
Record renumbered_mesh (pi rho : nat -> nat) (I J : oin) : Prop := {
  rm_nd : o_nd J = o_nd I; rm_nc : o_nc J = o_nc I; rm_nqc : o_nqc J = o_nqc I;
  rm_bij : bijection (o_nd I) pi rho;
  rm_low : forall c d, c < o_nc I -> In d (o_cdofs I c) -> d < o_nd I;
  rm_dofs : forall c, c < o_nc I -> o_cdofs J c = map rho (o_cdofs I c);
  rm_dbl : forall i k, i < o_nd I -> k < o_nd I -> (In k (o_dbl J i) <-> In (pi k) (o_dbl I (pi i))) }.

Lemma mem_iff d l : mem d l = true <-> In d l.
Proof.
  unfold mem. rewrite existsb_exists. split; [intros (x & Hx & E); apply Nat.eqb_eq in E; subst; auto|intros Hd; exists d; split; auto; apply Nat.eqb_refl].
Qed.
Section Mesh.
  Variables (pi rho : nat -> nat) (I J : oin).
  Hypothesis RM : renumbered_mesh pi rho I J.
  Let n := o_nd I.
  Lemma m_pi i : i < n -> pi i < n. Proof. intros Hi. apply (rm_bij _ _ _ _ RM i Hi). Qed.
  Lemma m_rho i : i < n -> rho i < n. Proof. intros Hi. apply (rm_bij _ _ _ _ RM i Hi). Qed.
  Lemma m_rp i : i < n -> rho (pi i) = i. Proof. intros Hi. apply (rm_bij _ _ _ _ RM i Hi). Qed.
  Lemma m_pr i : i < n -> pi (rho i) = i. Proof. intros Hi. apply (rm_bij _ _ _ _ RM i Hi). Qed.

  Lemma m_singular i c : i < n -> c < o_nc I -> singular_index J i c = singular_index I (pi i) c.
  Proof.
    intros Hi Hc. unfold singular_index. rewrite (rm_dofs _ _ _ _ RM c Hc). assert (L := rm_low _ _ _ _ RM c).
    assert (L' : forall d, In d (o_cdofs I c) -> d < n) by (intros; apply L; auto). clear L. revert L'. generalize (o_cdofs I c) 0.
    induction l as [|d l IH]; intros k L; cbn; auto.
    assert (mem (rho d) (o_dbl J i) = mem d (o_dbl I (pi i))) as ->.
    { assert (Ld : d < n) by (apply L; left; auto). apply eq_true_iff_eq. rewrite !mem_iff, (rm_dbl _ _ _ _ RM) by (auto; apply m_rho; auto). rewrite m_pr by auto. tauto. }
    rewrite IH by (intros; apply L; right; auto). reflexivity.
  Qed.

  (** In every arithmetic the stored matrices have the same entries, up to the numbering, whichever process owns the row. *)
  Theorem C82_matrix_entries : forall (A : arith) K K' T T' owned owned' i d,
    i < o_nd I -> d < o_nd I -> owned (pi i) = true -> owned' i = true ->
    (forall q, kd K' i q = kd K (pi i) q) -> (forall q j, shp K' q j = shp K q j) -> (forall q, jxw K' q = jxw K q) ->
    (forall idx, sr_n T' idx = sr_n T idx) -> (forall c idx q, sr_kernel T' i c idx q = sr_kernel T (pi i) c idx q) ->
    (forall idx q j, sr_shape T' idx q j = sr_shape T idx q j) -> (forall c idx q, sr_jxw T' c idx q = sr_jxw T c idx q) ->
    @entry A (@assemble_adds A J K' T' owned') i d = @entry A (@assemble_adds A I K T owned) (pi i) (pi d).
  Proof.
    intros A K K' T T' owned owned' i d Hi Hd Ho Ho' K1 K2 K3 T1 T2 T3 T4.
    rewrite !entry_rows by (auto; try apply m_pi; auto; rewrite (rm_nd _ _ _ _ RM); auto). rewrite (rm_nc _ _ _ _ RM).
    apply PropCoincide.fold_ext. intros a c Hc. apply in_seq in Hc. assert (Lc : c < o_nc I) by lia. rewrite (rm_dofs _ _ _ _ RM c Lc), map_length.
    assert (R : forall j, @local_row A J K' T' i c j = @local_row A I K T (pi i) c j).
    { intros j. unfold local_row. rewrite m_singular by auto. destruct (singular_index I (pi i) c).
      - unfold singular_row. rewrite T1. apply PropCoincide.fold_ext. intros b q _. rewrite T2, T3, T4. reflexivity.
      - unfold quads_of_cell. rewrite (rm_nqc _ _ _ _ RM). apply PropCoincide.fold_ext. intros b q _. rewrite K1, K2, K3. reflexivity. }
    assert (Step : forall a j, j < length (o_cdofs I c) ->
      @ent_step A i d a (i, nth j (map rho (o_cdofs I c)) 0, @local_row A J K' T' i c j) = @ent_step A (pi i) (pi d) a (pi i, nth j (o_cdofs I c) 0, @local_row A I K T (pi i) c j)).
    { intros b j Hj. unfold ent_step. cbn [fst snd]. rewrite !Nat.eqb_refl, R. cbn [andb].
      rewrite (nth_indep _ 0 (rho 0)) by (rewrite map_length; auto). rewrite map_nth.
      assert (Le : nth j (o_cdofs I c) 0 < n) by (apply (rm_low _ _ _ _ RM c); auto; apply nth_In; auto).
      set (e := nth j (o_cdofs I c) 0) in *.
      destruct (Nat.eqb_spec (rho e) d) as [E|E], (Nat.eqb_spec e (pi d)) as [F|F]; auto; exfalso.
      - apply F. rewrite <- E, m_pr; auto.
      - apply E. rewrite F, m_rp; auto. }
    assert (G : forall l a, (forall j, In j l -> j < length (o_cdofs I c)) ->
      fold_left (@ent_step A i d) (map (fun j => (i, nth j (map rho (o_cdofs I c)) 0, @local_row A J K' T' i c j)) l) a =
      fold_left (@ent_step A (pi i) (pi d)) (map (fun j => (pi i, nth j (o_cdofs I c) 0, @local_row A I K T (pi i) c j)) l) a).
    { induction l as [|j l IH]; intros b Hl; [reflexivity|]. cbn [map fold_left]. rewrite Step by (apply Hl; left; auto). apply IH. intros; apply Hl; right; auto. }
    apply G. intros j Hj. apply in_seq in Hj. lia.
  Qed.
  (** exact and rounded matrices computed from the same points, weights and normals *)
  Theorem C82_stored_matrices : forall (F : flops) dim m node node' P Sg owned owned' i d,
    i < o_nd I -> d < o_nd I -> owned (pi i) = true -> owned' i = true -> (forall k, k < o_nd I -> node' k = node (pi k)) ->
    stored dim m J node' P Sg owned' i d = stored dim m I node P Sg owned (pi i) (pi d) /\
    fstored dim m J node' P Sg owned' i d = fstored dim m I node P Sg owned (pi i) (pi d).
  Proof. intros F dim m node node' P Sg owned owned' i d Hi Hd Ho Ho' Hn. split; apply C82_matrix_entries; auto; cbn; intros; rewrite Hn; auto. Qed.
  (** the products *)
  Theorem C82_products : forall dim m node node' P Sg owned owned' x x' i,
    i < o_nd I -> owned (pi i) = true -> owned' i = true -> (forall k, k < o_nd I -> node' k = node (pi k)) ->
    (forall k, k < o_nd I -> x' k = x (pi k)) ->
    stored_vmult dim m J node' P Sg owned' x' i = stored_vmult dim m I node P Sg owned x (pi i).
  Proof.
    intros dim m node node' P Sg owned owned' x x' i Hi Ho Ho' Hn Hx. unfold stored_vmult, direct_vmult. cbn [aadd amul exact_arith]. rewrite !fold_left_plus, !Rplus_0_l.
    rewrite (rm_nd _ _ _ _ RM). fold n.
    assert (P0 : Permutation (map pi (seq 0 n)) (seq 0 n)).
    { apply NoDup_Permutation_bis.
      - assert (Inj : forall l, (forall a, In a l -> a < n) -> NoDup l -> NoDup (map pi l)).
        { induction l as [|a l IH]; intros Hl ND; cbn; [constructor|]. inversion ND; subst. constructor; [|apply IH; auto; intros; apply Hl; right; auto].
          intros X. apply in_map_iff in X as (b & Eb & Ib). assert (b = a); [|subst; auto]. rewrite <- (m_rp b), <- (m_rp a), Eb; auto; apply Hl; [left|right]; auto. }
        apply Inj; [intros a Ha; apply in_seq in Ha; lia|apply seq_NoDup].
      - rewrite map_length. auto.
      - intros a Ha. apply in_map_iff in Ha as (b & <- & Hb). apply in_seq in Hb. apply in_seq. assert (X := m_pi b). lia. }
    etransitivity; [|apply (suml_perm _ _ _ P0)]. rewrite suml_map. apply suml_ext. intros d Hd. apply in_seq in Hd. assert (Ld : d < n) by lia.
    rewrite (Hx d Ld). f_equal. exact (proj1 (C82_stored_matrices exact_flops dim m node node' P Sg owned owned' i d Hi Ld Ho Ho' Hn)).
  Qed.
End Mesh.
