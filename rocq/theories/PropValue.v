(** Property theorem C04. *)
From Coq Require Import ZArith List Bool Lia.
From Verif Require Import ModelStore ModelValue SpecValue ProofsValue.
Import ListNotations.

(** For both classes ([frees] = true: MultipoleExpansion, false: LocalExpansion): every program
    that the value semantics of SpecValue.v accepts runs without undefined behaviour and every
    object shows exactly the value it has there. For MultipoleExpansion the number of allocated
    buffers is the number of living owners (no leak); for LocalExpansion one buffer leaks for each
    assignment to an object that already owned coefficients. *)
Theorem C04_value_semantics : forall (A C : Type) (zero : A) (origin : C) frees os w,
  vrun zero origin [] os = Some w ->
  exists s, run zero origin frees init os = Some s /\ (forall i, obs s i = vobs w i) /\
    live_buffers (hp s) = (owners w + if frees then 0 else overwrites zero origin [] os)%nat.
Proof. exact @value_semantics. Qed.

(** Self-assignment: accepted, but the object loses all its coefficients. *)
Theorem C04_self_assignment_refuted : forall (A C : Type) (zero : A) (origin : C) frees os w id v b,
  vrun zero origin [] os = Some w -> vget w id = Some v -> v_coeffs v = Some b ->
  exists s', run zero origin frees init (os ++ [Assign id id]) = Some s' /\
    obs s' id = Some (v_p v, v_center v, v_zero v, Some (repeat Uninit (length b))).
Proof. exact @self_assign. Qed.

(** Copying or assigning from a default-constructed expansion is undefined behaviour. *)
Theorem C04_default_source_refuted : forall (A C : Type) (zero : A) (origin : C) frees os w id v,
  vrun zero origin [] os = Some w -> vget w id = Some v -> v_coeffs v = None ->
  run zero origin frees init (os ++ [CopyNew id]) = None /\
  (forall dst, dst <> id -> run zero origin frees init (os ++ [Assign dst id]) = None).
Proof. exact @copy_default_ub. Qed.

(** A program with copies, assignments and writes through a copy. *)
Definition demo : list (@op Z Z) :=
  [New 2 7%Z; SetC 0 2 1 5%Z; CopyNew 0; SetC 1 2 1 9%Z; New 1 3%Z; Assign 2 0; SetZero 2 false; Destroy 0].
Example C04_applies : exists w, vrun 0%Z 0%Z [] demo = Some w /\
  vget w 0 = None /\
  (match vget w 1 with Some v => v_coeffs v = Some [Val 0; Val 0; Val 0; Val 0; Val 9; Val 0]%Z | None => False end) /\
  (match vget w 2 with Some v => v_p v = 2%Z /\ v_center v = 7%Z /\ v_coeffs v = Some [Val 0; Val 0; Val 0; Val 0; Val 5; Val 0]%Z | None => False end) /\
  overwrites 0%Z 0%Z [] demo = 1%nat.
Proof. eexists; repeat split; vm_compute; reflexivity. Qed.
