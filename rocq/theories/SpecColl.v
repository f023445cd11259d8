(** * Processes that communicate through collective calls only

    Independent of the boundary element code: [np] processes, each with the list of collective
    operations it will perform.  A process arrives at its next operation whenever it likes and is
    then blocked until all processes have arrived; the operation takes place only if all of them
    arrived with the same operation. *)
From Coq Require Import List Arith Bool.
Import ListNotations.

Section Joint.
  Context {T : Type}.
  Variable np : nat.

  Record joint := { todo : nat -> list T; arrived : nat -> bool }.

  Inductive jstep : joint -> joint -> Prop :=
  | j_arrive : forall j p e l,
      (p < np)%nat -> arrived j p = false -> todo j p = e :: l ->
      jstep j {| todo := todo j; arrived := fun q => if (q =? p)%nat then true else arrived j q |}
  | j_done : forall j e,
      (0 < np)%nat ->
      (forall p, (p < np)%nat -> arrived j p = true /\ exists l, todo j p = e :: l) ->
      jstep j {| todo := fun p => tl (todo j p); arrived := fun _ => false |}.

  Inductive jreach : joint -> joint -> Prop :=
  | jr_refl : forall j, jreach j j
  | jr_step : forall j k l, jreach j k -> jstep k l -> jreach j l.

  Definition jstart (prog : nat -> list T) : joint := {| todo := prog; arrived := fun _ => false |}.
  Definition finished (j : joint) : Prop := forall p, (p < np)%nat -> todo j p = [].

  (** whatever the order in which the processes run, somebody can always go on until all are done,
      and no execution is infinite *)
  Definition deadlock_free (prog : nat -> list T) : Prop :=
    (forall j, jreach (jstart prog) j -> finished j \/ exists k, jstep j k) /\
    (forall f : nat -> joint, f 0 = jstart prog -> ~ (forall n, jstep (f n) (f (S n)))).
End Joint.
