(** * A homogeneous linear system with fewer equations than unknowns has a nonzero solution. *)
From Coq Require Import Reals List Arith Lia Lra Permutation.
From Verif Require Import LibSum.
Import ListNotations.
Local Open Scope R_scope.

Lemma suml_mid {T} (a b : list T) p f : suml (a ++ p :: b) f = f p + suml (a ++ b) f.
Proof. rewrite !suml_app. change (suml (p :: b) f) with (f p + suml b f). lra. Qed.

Lemma row_zero_or_pivot (L : list nat) (a : nat -> R) : (forall l, In l L -> a l = 0) \/ exists p, In p L /\ a p <> 0.
Proof.
  induction L as [|x L IH]; [left; intros l []|].
  destruct (Req_dec (a x) 0) as [E|E]; [|right; exists x; split; [left|]; auto].
  destruct IH as [IH|(p & Hp & N)]; [left; intros l [<-|Hl]; auto|right; exists p; split; [right|]; auto].
Qed.

Lemma nonzero_solution (rows : list (nat -> R)) : forall L : list nat, NoDup L -> (length rows < length L)%nat ->
  exists z : nat -> R, (forall l, ~ In l L -> z l = 0) /\ (exists l, In l L /\ z l <> 0) /\
    forall a, In a rows -> suml L (fun l => a l * z l) = 0.
Proof.
  remember (length rows) as m eqn:Em. revert rows Em. induction m as [|m IH]; intros rows Em L ND Len.
  - destruct rows; [|discriminate]. destruct L as [|x L]; [cbn in Len; lia|].
    exists (fun l => if Nat.eqb l x then 1 else 0). split; [|split].
    + intros l Hl. destruct (Nat.eqb_spec l x) as [->|]; auto. exfalso. apply Hl. left. auto.
    + exists x. split; [left; auto|]. rewrite Nat.eqb_refl. lra.
    + intros a [].
  - destruct rows as [|b rows]; [discriminate|]. injection Em as Em.
    destruct (row_zero_or_pivot L b) as [Z|(p & Hp & Np)].
    + destruct (IH rows Em L ND ltac:(lia)) as (z & Z1 & Z2 & Z3). exists z. split; [auto|]. split; [auto|].
      intros a [<-|Ha]; [|auto]. apply suml_zero. intros x Hx. rewrite (Z x Hx). lra.
    + apply in_split in Hp as (L1 & L2 & ->). assert (ND' := NoDup_remove_1 _ _ _ ND). assert (NI := NoDup_remove_2 _ _ _ ND).
      rewrite app_length in Len. cbn in Len.
      destruct (IH (map (fun a l => a l - a p * (b l / b p)) rows) ltac:(rewrite map_length; auto) (L1 ++ L2) ND' ltac:(rewrite app_length; lia)) as (z & Z1 & Z2 & Z3).
      set (w := - suml (L1 ++ L2) (fun l => b l * z l) / b p).
      exists (fun l => if Nat.eqb l p then w else z l).
      assert (Sum : forall a, suml (L1 ++ p :: L2) (fun l => a l * (if Nat.eqb l p then w else z l)) = a p * w + suml (L1 ++ L2) (fun l => a l * z l)).
      { intros a. rewrite suml_mid, Nat.eqb_refl. f_equal. apply suml_ext. intros l Hl. destruct (Nat.eqb_spec l p) as [->|]; auto. tauto. }
      split; [|split].
      * intros l Hl. destruct (Nat.eqb_spec l p) as [->|]; [exfalso; apply Hl; apply in_elt|]. apply Z1. intros X. apply Hl. apply in_app_or in X. apply in_or_app. cbn. tauto.
      * destruct Z2 as (l & Hl & Nz). exists l. split; [apply in_app_or in Hl; apply in_or_app; cbn; tauto|]. destruct (Nat.eqb_spec l p) as [->|]; [tauto|auto].
      * intros a Ha. rewrite Sum. destruct Ha as [<-|Ha].
        -- unfold w. field. auto.
        -- assert (E := Z3 _ (in_map (fun a l => a l - a p * (b l / b p)) _ _ Ha)). cbn in E.
           assert (E' : suml (L1 ++ L2) (fun l => (a l - a p * (b l / b p)) * z l) = suml (L1 ++ L2) (fun l => a l * z l) + suml (L1 ++ L2) (fun l => - (a p / b p) * (b l * z l))).
           { rewrite <- suml_plus. apply suml_ext. intros l _. field. auto. }
           rewrite suml_scal in E'. rewrite E in E'. unfold w.
           replace (a p * (- suml (L1 ++ L2) (fun l => b l * z l) / b p)) with (- (a p / b p) * suml (L1 ++ L2) (fun l => b l * z l)) by (field; auto).
           lra.
Qed.
