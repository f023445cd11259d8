(** Ownership of the coefficient buffers of MultipoleExpansion and LocalExpansion: a small heap
    machine for programs that construct, copy, assign, modify and destroy expansions. *)
From Coq Require Import ZArith List Bool.
From Verif Require Import ModelStore.
Import ListNotations.

Section Machine.
  (** [A]: std::complex<double>; [C]: dealii::Point<3>. *)
  Context {A C : Type} (zero : A) (origin : C).

  (** Data members, include/multipole_expansion.h:34-46 and include/local_expansion.h:27-38
      (the pointer to the Legendre table, shared and never owned, is left out).
      [o_ptr = None] is the NULL pointer. *)
  Record obj := { o_p : Z; o_center : C; o_zero : bool; o_ptr : option nat }.

  (** A buffer is [None] once deleted. *)
  Definition heap := list (option (list (cell A))).
  (** Objects by number; [None] once destroyed. *)
  Record state := { objs : list (option obj); hp : heap }.
  Definition init : state := {| objs := []; hp := [] |}.

  Inductive op : Type :=
  | NewDefault                            (* MultipoleExpansion() *)
  | New (p : Z) (c : C)                   (* MultipoleExpansion(order, center, legendre) *)
  | CopyNew (src : nat)                   (* MultipoleExpansion(other) *)
  | Assign (dst src : nat)                (* operator= *)
  | SetC (id : nat) (n m : Z) (v : A)     (* SetCoeff *)
  | SetZero (id : nat) (b : bool)         (* the public member is_zero *)
  | Destroy (id : nat).                   (* destructor *)

  Definition get_obj (s : state) (i : nat) : option obj :=
    match nth_error (objs s) i with Some (Some o) => Some o | _ => None end.

  (** Live contents of a buffer. *)
  Definition deref (h : heap) (ptr : option nat) : option (list (cell A)) :=
    match ptr with
    | None => None
    | Some l => match nth_error h l with Some (Some b) => Some b | _ => None end
    end.

  (** [delete[] ptr] guarded by [if (ptr != NULL)] (source/multipole_expansion.cc:57-58,71-72,
      source/local_expansion.cc:60-61). Deleting a dead buffer is undefined. *)
  Definition del (h : heap) (ptr : option nat) : option heap :=
    match ptr with
    | None => Some h
    | Some l => match nth_error h l with
                | Some (Some _) => Some (list_upd h l None)
                | _ => None
                end
    end.

  (** [memcpy(this->_M_n_m, other.GetCoeffs(), sizeof(complex) * (p+1)*(p+2)/2)] where the
      destination is buffer [l] just allocated with [tri_size p] cells. NULL or dead source, or a
      source shorter than the copy, is undefined. When source and destination are the same
      buffer nothing changes. *)
  Definition memcpy_buf (h : heap) (l : nat) (src : option nat) (p : Z) : option heap :=
    match deref h src with
    | Some b => if (Z.to_nat (tri_size p) <=? length b)%nat
                then Some (list_upd h l (Some (firstn (Z.to_nat (tri_size p)) b)))
                else None
    | None => None
    end.

  (** One operation. [frees] distinguishes the two classes: MultipoleExpansion::operator=
      (source/multipole_expansion.cc:51-66) deletes the old buffer first, while
      LocalExpansion::operator= (source/local_expansion.cc:64-79) does not.
      Result [None]: undefined behaviour. *)
  Definition step (frees : bool) (s : state) (o : op) : option state :=
    match o with
    | NewDefault =>  (* source/multipole_expansion.cc:12-20, source/local_expansion.cc:18-26 *)
        Some {| objs := objs s ++ [Some {| o_p := 0; o_center := origin; o_zero := true; o_ptr := None |}];
                hp := hp s |}
    | New p c =>     (* source/multipole_expansion.cc:23-35, source/local_expansion.cc:29-43 *)
        Some {| objs := objs s ++ [Some {| o_p := p; o_center := c; o_zero := true;
                                          o_ptr := Some (length (hp s)) |}];
                hp := hp s ++ [Some (new_buffer (Val zero) p)] |}
    | CopyNew src => (* source/multipole_expansion.cc:37-47, source/local_expansion.cc:45-57 *)
        match get_obj s src with
        | None => None
        | Some so =>
            let l := length (hp s) in
            let h1 := hp s ++ [Some (new_buffer Uninit (o_p so))] in
            match memcpy_buf h1 l (o_ptr so) (o_p so) with
            | None => None
            | Some h2 => Some {| objs := objs s ++ [Some {| o_p := o_p so; o_center := o_center so;
                                                           o_zero := o_zero so; o_ptr := Some l |}];
                                 hp := h2 |}
            end
        end
    | Assign dst src =>
        match get_obj s dst, get_obj s src with
        | Some d, Some so =>
            match (if frees then del (hp s) (o_ptr d) else Some (hp s)) with
            | None => None
            | Some h0 =>
                let l := length h0 in
                let h1 := h0 ++ [Some (new_buffer Uninit (o_p so))] in
                let d' := {| o_p := o_p so; o_center := o_center so; o_zero := o_zero so;
                             o_ptr := Some l |} in
                let objs' := list_upd (objs s) dst (Some d') in
                (* [other.GetCoeffs()] is read after [this] was updated: it matters when
                   [dst = src] *)
                match nth_error objs' src with
                | Some (Some so') =>
                    match memcpy_buf h1 l (o_ptr so') (o_p so) with
                    | None => None
                    | Some h2 => Some {| objs := objs'; hp := h2 |}
                    end
                | _ => None
                end
            end
        | _, _ => None
        end
    | SetC id n m v =>
        match get_obj s id with
        | Some o =>
            match o_ptr o, deref (hp s) (o_ptr o) with
            | Some l, Some b =>
                match set_coeff b n m (Val v) with
                | Some b' => Some {| objs := objs s; hp := list_upd (hp s) l (Some b') |}
                | None => None
                end
            | _, _ => None
            end
        | None => None
        end
    | SetZero id z =>
        match get_obj s id with
        | Some o => Some {| objs := list_upd (objs s) id
                              (Some {| o_p := o_p o; o_center := o_center o; o_zero := z; o_ptr := o_ptr o |});
                            hp := hp s |}
        | None => None
        end
    | Destroy id =>  (* source/multipole_expansion.cc:69-73, source/local_expansion.cc:58-62 *)
        match get_obj s id with
        | Some o =>
            match del (hp s) (o_ptr o) with
            | Some h => Some {| objs := list_upd (objs s) id None; hp := h |}
            | None => None
            end
        | None => None
        end
    end.

  Fixpoint run (frees : bool) (s : state) (os : list op) : option state :=
    match os with
    | [] => Some s
    | o :: t => match step frees s o with Some s' => run frees s' t | None => None end
    end.

  (** What a user can observe of an object. *)
  Definition obs (s : state) (i : nat) : option (Z * C * bool * option (list (cell A))) :=
    match get_obj s i with
    | Some o => Some (o_p o, o_center o, o_zero o, deref (hp s) (o_ptr o))
    | None => None
    end.

  (** Buffers still allocated. *)
  Fixpoint live_buffers (h : heap) : nat :=
    match h with
    | [] => 0
    | Some _ :: t => S (live_buffers t)
    | None :: t => live_buffers t
    end.
End Machine.
