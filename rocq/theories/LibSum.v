(** Finite sums over R and over lists: general lemmas, no model content. *)
From Coq Require Import Reals List Lia Lra Arith Permutation.
Import ListNotations.
Local Open Scope R_scope.

(** sum of f 0 .. f (n-1) *)
Fixpoint sumn (n : nat) (f : nat -> R) : R :=
  match n with O => 0 | S k => sumn k f + f k end.

Definition suml {T} (l : list T) (f : T -> R) : R := fold_right (fun x a => f x + a) 0 l.

Lemma sumn_ext n f g : (forall i, (i < n)%nat -> f i = g i) -> sumn n f = sumn n g.
Proof. induction n; simpl; intros H; [reflexivity|]. rewrite IHn, H; auto. Qed.
Lemma sumn_plus n f g : sumn n (fun i => f i + g i) = sumn n f + sumn n g.
Proof. induction n; simpl; [lra|]. rewrite IHn; lra. Qed.
Lemma sumn_minus n f g : sumn n (fun i => f i - g i) = sumn n f - sumn n g.
Proof. induction n; simpl; [lra|]. rewrite IHn; lra. Qed.
Lemma sumn_scal n c f : sumn n (fun i => c * f i) = c * sumn n f.
Proof. induction n; simpl; [lra|]. rewrite IHn; lra. Qed.
Lemma sumn_scal_r n c f : sumn n (fun i => f i * c) = sumn n f * c.
Proof. induction n; simpl; [lra|]. rewrite IHn; lra. Qed.
Lemma sumn_opp n f : sumn n (fun i => - f i) = - sumn n f.
Proof. induction n; simpl; [lra|]. rewrite IHn; lra. Qed.
Lemma sumn_zero n f : (forall i, (i < n)%nat -> f i = 0) -> sumn n f = 0.
Proof. induction n; simpl; intros H; [reflexivity|]. rewrite IHn, H; auto; lra. Qed.
Lemma sumn_const n c : sumn n (fun _ => c) = INR n * c.
Proof. induction n; [simpl; lra|]. rewrite S_INR. simpl sumn. rewrite IHn; lra. Qed.
Lemma sumn_swap n m f : sumn n (fun i => sumn m (fun j => f i j)) = sumn m (fun j => sumn n (fun i => f i j)).
Proof.
  induction n; simpl.
  - rewrite sumn_zero; auto.
  - rewrite IHn, sumn_plus. reflexivity.
Qed.
Lemma sumn_nonneg n f : (forall i, (i < n)%nat -> 0 <= f i) -> 0 <= sumn n f.
Proof. induction n; simpl; intros H; [lra|]. pose proof (H n ltac:(lia)). pose proof (IHn ltac:(auto)). lra. Qed.
Lemma sumn_single n k f : (k < n)%nat -> (forall i, (i < n)%nat -> i <> k -> f i = 0) -> sumn n f = f k.
Proof.
  induction n; intros Hk H; [lia|]. simpl. destruct (Nat.eq_dec k n) as [->|N].
  - rewrite sumn_zero; [lra|]. intros; apply H; lia.
  - rewrite IHn by (try lia; intros; apply H; lia). rewrite (H n); try lia. lra.
Qed.

Lemma suml_app {T} (a b : list T) f : suml (a ++ b) f = suml a f + suml b f.
Proof. induction a; simpl; [lra|]. rewrite IHa; lra. Qed.
Lemma suml_ext {T} (l : list T) f g : (forall x, In x l -> f x = g x) -> suml l f = suml l g.
Proof. induction l; simpl; intros H; [reflexivity|]. rewrite H, IHl; auto. Qed.
Lemma suml_perm {T} (a b : list T) f : Permutation a b -> suml a f = suml b f.
Proof. induction 1; simpl; lra. Qed.
Lemma suml_plus {T} (l : list T) f g : suml l (fun x => f x + g x) = suml l f + suml l g.
Proof. induction l; simpl; [lra|]. rewrite IHl; lra. Qed.
Lemma suml_scal {T} (l : list T) c f : suml l (fun x => c * f x) = c * suml l f.
Proof. induction l; simpl; [lra|]. rewrite IHl; lra. Qed.
Lemma suml_zero {T} (l : list T) f : (forall x, In x l -> f x = 0) -> suml l f = 0.
Proof. induction l; simpl; intros H; [reflexivity|]. rewrite H, IHl; auto; lra. Qed.
Lemma suml_map {T U} (h : T -> U) (l : list T) f : suml (map h l) f = suml l (fun x => f (h x)).
Proof. induction l; simpl; [reflexivity|]. rewrite IHl; reflexivity. Qed.
Lemma suml_flat_map {T U} (h : T -> list U) (l : list T) f : suml (flat_map h l) f = suml l (fun x => suml (h x) f).
Proof. induction l; simpl; [reflexivity|]. rewrite suml_app, IHl; reflexivity. Qed.
Lemma suml_seq n f : suml (seq 0 n) f = sumn n f.
Proof.
  induction n; [reflexivity|]. rewrite seq_S, suml_app. simpl. rewrite IHn. lra.
Qed.
Lemma fold_left_plus {T} (l : list T) f a : fold_left (fun acc x => acc + f x) l a = a + suml l f.
Proof. revert a; induction l; simpl; intros; [lra|]. rewrite IHl; lra. Qed.
Lemma fold_left_minus {T} (l : list T) f a : fold_left (fun acc x => acc - f x) l a = a - suml l f.
Proof. revert a; induction l; simpl; intros; [lra|]. rewrite IHl; lra. Qed.
