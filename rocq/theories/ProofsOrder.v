From Coq Require Import ZArith List Bool Lia Psatz.
From Verif Require Import ModelStore ProofsStore ModelOrder.
Import ListNotations.
Local Open Scope Z_scope.

Lemma in_zrange a b x : In x (zrange a b) <-> a <= x < b.
Proof.
  unfold zrange. rewrite in_map_iff. split.
  - intros (k & <- & Hk). apply in_seq in Hk. lia.
  - intros H. exists (Z.to_nat (x - a)). split; [lia|]. apply in_seq. lia.
Qed.

Ltac inz :=
  repeat match goal with
  | H : In _ (flat_map _ _) |- _ => apply in_flat_map in H; destruct H as (? & ? & ?)
  | H : In _ (_ ++ _) |- _ => apply in_app_iff in H; destruct H
  | H : In _ (zrange _ _) |- _ => apply in_zrange in H
  | H : In _ (if ?c then _ else _) |- _ => destruct c eqn:?
  | H : In _ [] |- _ => destruct H
  | H : In _ (_ :: _) |- _ => destruct H as [H|H]; [subst|]
  | H : (_ >? _) = false |- _ => rewrite Z.gtb_ltb, Z.ltb_ge in H
  end.

Lemma lec10 n m nn mm : 0 <= m <= n -> n <= 10 -> 0 <= nn <= 10 -> - nn <= mm <= nn ->
  0 <= lec_index 10 n m nn mm < lec_size 10.
Proof. intros. apply lec_range; [lia|reflexivity|unfold lec_ok; lia]. Qed.

Lemma coef_ok p n m : 0 <= p <= 20 -> 0 <= m <= n -> n <= p -> 0 <= tri_index n m < tri_size p.
Proof. intros. apply tri_range; try lia; nia. Qed.

Ltac bnd := first [ apply coef_ok; lia | apply lec10; lia | lia ].

Lemma p2m_safe p : 0 <= p <= 20 -> forall a, In a (p2m_accesses p) -> in_bounds a.
Proof. intros Hp a H. unfold p2m_accesses in H. inz; cbn [in_bounds]; bnd. Qed.
Lemma p2mn_safe p : 0 <= p <= 20 -> forall a, In a (p2m_normder_accesses p) -> in_bounds a.
Proof. intros Hp a H. unfold p2m_normder_accesses in H. inz; cbn [in_bounds]; bnd. Qed.
Lemma m2m_safe p : 0 <= p <= 20 -> forall a, In a (m2m_accesses p) -> in_bounds a.
Proof. intros Hp a H. unfold m2m_accesses in H. inz; cbn [in_bounds]; bnd. Qed.
Lemma eval_safe p : 0 <= p <= 20 -> forall a, In a (eval_accesses p) -> in_bounds a.
Proof. intros Hp a H. unfold eval_accesses in H. inz; cbn [in_bounds]; bnd. Qed.
Lemma l2l_safe p : 0 <= p <= 10 -> forall a, In a (l2l_accesses p) -> in_bounds a.
Proof. intros Hp a H. unfold l2l_accesses in H. inz; cbn [in_bounds]; bnd. Qed.
Lemma m2l_safe p : 0 <= p <= 10 -> forall a, In a (m2l_accesses p) -> in_bounds a.
Proof. intros Hp a H. unfold m2l_accesses in H. inz; cbn [in_bounds]; bnd. Qed.
Lemma m2l_build_safe : forall a, In a m2l_build_accesses -> in_bounds a.
Proof. intros a H. unfold m2l_build_accesses in H. inz; cbn [in_bounds]; bnd. Qed.
Lemma l2l_build_safe : forall a, In a l2l_build_accesses -> in_bounds a.
Proof. intros a H. unfold l2l_build_accesses in H. inz; cbn [in_bounds]; bnd. Qed.

Lemma fmm_safe p : 0 <= p <= 10 -> forall a, In a (fmm_accesses p) -> in_bounds a.
Proof.
  intros Hp a H. unfold fmm_accesses in H. rewrite !in_app_iff in H.
  destruct H as [H|[H|[H|[H|[H|H]]]]].
  - revert a H; apply p2m_safe; lia.
  - revert a H; apply p2mn_safe; lia.
  - revert a H; apply m2m_safe; lia.
  - revert a H; apply m2l_safe; lia.
  - revert a H; apply l2l_safe; lia.
  - revert a H; apply eval_safe; lia.
Qed.

Lemma m2l_unsafe p : 10 < p -> In (Leg (p + p) 0) (m2l_accesses p).
Proof.
  intros Hp. unfold m2l_accesses.
  apply in_flat_map. exists p. split; [apply in_zrange; lia|].
  apply in_flat_map. exists 0. split; [apply in_zrange; lia|]. apply in_app_iff; left.
  apply in_flat_map. exists p. split; [apply in_zrange; lia|].
  apply in_flat_map. exists 0. split; [apply in_app_iff; right; apply in_zrange; lia|].
  simpl. auto.
Qed.
Lemma l2l_unsafe p : 10 < p -> In (L2Ltab p 0) (l2l_accesses p).
Proof.
  intros Hp. unfold l2l_accesses.
  apply in_flat_map. exists p. split; [apply in_zrange; lia|].
  apply in_flat_map. exists 0. split; [apply in_zrange; lia|]. apply in_app_iff; left.
  apply in_flat_map. exists p. split; [apply in_zrange; lia|].
  apply in_flat_map. exists 0. split; [apply in_zrange; lia|].
  destruct (Z.abs (0 - 0) >? p - p) eqn:E; [rewrite Z.gtb_ltb, Z.ltb_lt in E; lia|].
  simpl. auto.
Qed.
Lemma p2m_unsafe p : 20 < p -> In (Leg p 0) (p2m_accesses p).
Proof.
  intros Hp. unfold p2m_accesses.
  apply in_flat_map. exists p. split; [apply in_zrange; lia|].
  apply in_flat_map. exists 0. split; [apply in_zrange; lia|]. simpl. auto.
Qed.

Lemma fmm_safe_iff p : 0 <= p -> ((forall a, In a (fmm_accesses p) -> in_bounds a) <-> p <= 10).
Proof.
  intros Hp. split.
  - intros H. destruct (Z_le_gt_dec p 10) as [L|L]; [exact L|exfalso].
    assert (B := H (Leg (p + p) 0)). cbn [in_bounds] in B.
    enough (0 <= p + p <= 20 /\ 0 <= 0 <= p + p) by lia. apply B.
    unfold fmm_accesses. rewrite !in_app_iff. right; right; right; left. apply m2l_unsafe; lia.
  - intros L. apply fmm_safe; lia.
Qed.
Lemma l2l_safe_iff p : 0 <= p -> ((forall a, In a (l2l_accesses p) -> in_bounds a) <-> p <= 10).
Proof.
  intros Hp. split.
  - intros H. destruct (Z_le_gt_dec p 10) as [L|L]; [exact L|exfalso].
    assert (B := H _ (l2l_unsafe p ltac:(lia))). cbn [in_bounds] in B. lia.
  - intros L. apply l2l_safe; lia.
Qed.
Lemma p2m_safe_iff p : 0 <= p -> ((forall a, In a (p2m_accesses p) -> in_bounds a) <-> p <= 20).
Proof.
  intros Hp. split.
  - intros H. destruct (Z_le_gt_dec p 20) as [L|L]; [exact L|exfalso].
    assert (B := H _ (p2m_unsafe p ltac:(lia))). cbn [in_bounds] in B. lia.
  - intros L. apply p2m_safe; lia.
Qed.
