(** * Concurrent execution of the parallel loops: shared memory, parallel_for, WorkStream.

    bem_fma.cc runs its loops with tbb::parallel_for (source/bem_fma.cc 2185, 2280, 2635, 3195,
    3451, 3537) and dealii::WorkStream::run (383, 583, 1099, 1282, 1909, 2509, 2956, 3391).  This
    file is the machine those loops run on; the loops themselves are in ModelWork.

    The memory model is deliberately weak.  A task is a sequence of reads and writes of shared
    locations; any interleaving of the tasks is possible.  A write to a location that does not fit a
    machine word happens in two steps, between which every other task may see an ARBITRARY value, so
    that a read racing with a write returns garbage.  Writes to word-sized locations are atomic.

    WorkStream::run(items, worker, copier, scratch, copy_data) keeps a finite number of CopyData
    objects (slots).  A worker runs on an item with any free slot, in whatever state the previous
    item left that slot; workers run concurrently with each other and with the copier; copiers run
    one at a time (never two at once), in any order.  (deal.II runs copiers in the order of the
    items: this is one of the executions of the model.)  The scratch objects of the code are empty. *)
From Coq Require Import List Arith Bool Permutation.
Import ListNotations.

Section Conc.
  Variables L V : Type.            (* shared locations and what they hold *)
  Variable leq : L -> L -> bool.   (* equality of locations *)
  Variable word : L -> bool.       (* locations that are read and written atomically *)

  Definition mem := L -> V.
  Definition put (m : mem) (l : L) (v : V) : mem := fun l' => if leq l l' then v else m l'.

  (** a task: local computation between reads and writes of shared memory *)
  Inductive prog (A : Type) : Type :=
  | Ret (a : A)
  | Rd (l : L) (k : V -> prog A)
  | Wr (l : L) (v : V) (k : prog A).
  Arguments Ret {A}. Arguments Rd {A}. Arguments Wr {A}.

  (** a task running alone *)
  Fixpoint exec {A} (p : prog A) (m : mem) : mem * A :=
    match p with
    | Ret a => (m, a)
    | Rd l k => exec (k (m l)) m
    | Wr l v k => exec k (put m l v)
    end.

  Fixpoint bind {A B} (p : prog A) (f : A -> prog B) : prog B :=
    match p with Ret a => f a | Rd l k => Rd l (fun v => bind (k v) f) | Wr l v k => Wr l v (bind k f) end.
  (** a for loop *)
  Fixpoint for_each {A X} (xs : list X) (body : A -> X -> prog A) (a : A) : prog A :=
    match xs with [] => Ret a | x :: r => bind (body a x) (for_each r body) end.

  (** a running task; [Mid l v k] is inside the write of v to l *)
  Inductive tstate (A : Type) : Type := Run (p : prog A) | Mid (l : L) (v : V) (k : prog A).
  Arguments Run {A}. Arguments Mid {A}.

  Inductive tstep {A} : mem -> tstate A -> mem -> tstate A -> Prop :=
  | t_read : forall m l k, tstep m (Run (Rd l k)) m (Run (k (m l)))
  | t_write : forall m l v k, word l = true -> tstep m (Run (Wr l v k)) (put m l v) (Run k)
  | t_tear : forall m l v k g, word l = false -> tstep m (Run (Wr l v k)) (put m l g) (Mid l v k)
  | t_mend : forall m l v k, tstep m (Mid l v k) (put m l v) (Run k).

  (** ** tbb::parallel_for: every iteration is a task (running a subrange of iterations one after
      the other is one of the interleavings) *)
  Inductive pstep : mem * list (tstate unit) -> mem * list (tstate unit) -> Prop :=
  | p_step : forall m m' l1 t t' l2, tstep m t m' t' -> pstep (m, l1 ++ t :: l2) (m', l1 ++ t' :: l2).
  Inductive psteps : mem * list (tstate unit) -> mem * list (tstate unit) -> Prop :=
  | ps_refl : forall s, psteps s s
  | ps_step : forall s1 s2 s3, pstep s1 s2 -> psteps s2 s3 -> psteps s1 s3.
  Definition finished (t : tstate unit) : Prop := t = Run (Ret tt).
  (** parallel_for(range, body) called in memory m may leave memory m' *)
  Definition parallel_for {X} (items : list X) (body : X -> prog unit) (m m' : mem) : Prop :=
    exists ts, psteps (m, map (fun x => Run (body x)) items) (m', ts) /\ Forall finished ts.

  (** ** WorkStream::run *)
  Section WorkStream.
    Variables X D : Type.              (* work items, CopyData *)
    Variable worker : X -> D -> prog D.
    Variable copier : D -> prog unit.

    Inductive sstate := Free (d : D) | Working (x : X) (t : tstate D) | Ready (x : X) (d : D)
                      | Copying (x : X) (d : D) (t : tstate unit).
    Record wstate := { w_mem : mem; w_todo : list X; w_slot : nat -> sstate; w_done : list X }.
    Definition set_slot (f : nat -> sstate) (s : nat) (v : sstate) : nat -> sstate :=
      fun s' => if Nat.eqb s s' then v else f s'.
    Definition not_copying (x : sstate) : Prop := match x with Copying _ _ _ => False | _ => True end.

    (** [n] is the number of CopyData objects *)
    Inductive wstep (n : nat) : wstate -> wstate -> Prop :=
    | w_start : forall m l1 x l2 f dn s d, s < n -> f s = Free d ->
        wstep n {| w_mem := m; w_todo := l1 ++ x :: l2; w_slot := f; w_done := dn |}
                {| w_mem := m; w_todo := l1 ++ l2; w_slot := set_slot f s (Working x (Run (worker x d))); w_done := dn |}
    | w_work : forall m m' td f dn s x t t', s < n -> f s = Working x t -> tstep m t m' t' ->
        wstep n {| w_mem := m; w_todo := td; w_slot := f; w_done := dn |}
                {| w_mem := m'; w_todo := td; w_slot := set_slot f s (Working x t'); w_done := dn |}
    | w_worked : forall m td f dn s x d, s < n -> f s = Working x (Run (Ret d)) ->
        wstep n {| w_mem := m; w_todo := td; w_slot := f; w_done := dn |}
                {| w_mem := m; w_todo := td; w_slot := set_slot f s (Ready x d); w_done := dn |}
    | w_grab : forall m td f dn s x d, s < n -> f s = Ready x d -> (forall s', s' < n -> not_copying (f s')) ->
        wstep n {| w_mem := m; w_todo := td; w_slot := f; w_done := dn |}
                {| w_mem := m; w_todo := td; w_slot := set_slot f s (Copying x d (Run (copier d))); w_done := dn |}
    | w_copy : forall m m' td f dn s x d t t', s < n -> f s = Copying x d t -> tstep m t m' t' ->
        wstep n {| w_mem := m; w_todo := td; w_slot := f; w_done := dn |}
                {| w_mem := m'; w_todo := td; w_slot := set_slot f s (Copying x d t'); w_done := dn |}
    | w_release : forall m td f dn s x d, s < n -> f s = Copying x d (Run (Ret tt)) ->
        wstep n {| w_mem := m; w_todo := td; w_slot := f; w_done := dn |}
                {| w_mem := m; w_todo := td; w_slot := set_slot f s (Free d); w_done := dn ++ [x] |}.
    Inductive wsteps (n : nat) : wstate -> wstate -> Prop :=
    | ws_refl : forall s, wsteps n s s
    | ws_step : forall s1 s2 s3, wstep n s1 s2 -> wsteps n s2 s3 -> wsteps n s1 s3.
    Definition complete (n : nat) (s : wstate) : Prop :=
      w_todo s = [] /\ forall k, k < n -> exists d, w_slot s k = Free d.
    (** every slot starts as a copy of the sample *)
    Definition w_init (items : list X) (sample : D) (m : mem) : wstate :=
      {| w_mem := m; w_todo := items; w_slot := fun _ => Free sample; w_done := [] |}.
    (** WorkStream::run(items, worker, copier, sample) called in memory m with n CopyData objects
        may leave memory m', having run the copiers in the order [dn] *)
    Definition work_stream (n : nat) (items : list X) (sample : D) (m m' : mem) (dn : list X) : Prop :=
      exists s, wsteps n (w_init items sample m) s /\ complete n s /\ w_mem s = m' /\ w_done s = dn.

    (** the loop this replaces: for every item, work on a fresh CopyData and copy it *)
    Definition seq1 (sample : D) (m : mem) (x : X) : mem :=
      let (m1, d) := exec (worker x sample) m in fst (exec (copier d) m1).
    Definition seq_loop (sample : D) (m : mem) (xs : list X) : mem := fold_left (seq1 sample) xs m.
  End WorkStream.
End Conc.
Arguments Ret {L V A}. Arguments Rd {L V A}. Arguments Wr {L V A}.
Arguments Run {L V A}. Arguments Mid {L V A}.
Arguments bind {L V A B}. Arguments for_each {L V A X}.
