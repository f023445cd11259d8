(** Specification of C04: expansions as plain values. No heap, no pointers. *)
From Coq Require Import ZArith List Bool.
From Verif Require Import ModelStore ModelValue.
Import ListNotations.

Section Spec.
  Context {A C : Type} (zero : A) (origin : C).

  (** order, center, zero flag, coefficients ([None] for a default-constructed expansion, which
      has none). *)
  Record value := { v_p : Z; v_center : C; v_zero : bool; v_coeffs : option (list (cell A)) }.
  Definition world := list (option value).

  Definition vget (w : world) (i : nat) : option value :=
    match nth_error w i with Some (Some v) => Some v | _ => None end.

  (** Value semantics; [None] marks the programs excluded from the claim: use of a destroyed
      object, copying from a default-constructed expansion, self-assignment, negative or huge
      orders, coefficient indices outside 0 <= m <= n <= p. *)
  Definition vstep (w : world) (o : @op A C) : option world :=
    match o with
    | NewDefault => Some (w ++ [Some {| v_p := 0; v_center := origin; v_zero := true; v_coeffs := None |}])
    | New p c => if ((0 <=? p) && ((p + 1) * (p + 2) <? 2 ^ 32))%Z
                 then Some (w ++ [Some {| v_p := p; v_center := c; v_zero := true;
                                          v_coeffs := Some (repeat (Val zero) (Z.to_nat ((p + 1) * (p + 2) / 2))) |}])
                 else None
    | CopyNew src => match vget w src with
                     | Some v => match v_coeffs v with Some _ => Some (w ++ [Some v]) | None => None end
                     | None => None
                     end
    | Assign dst src =>
        if Nat.eqb dst src then None else
        match vget w dst, vget w src with
        | Some _, Some v => match v_coeffs v with Some _ => Some (list_upd w dst (Some v)) | None => None end
        | _, _ => None
        end
    | SetC id n m x =>
        match vget w id with
        | Some v =>
            match v_coeffs v with
            | Some l =>
                if ((0 <=? m) && (m <=? n) && (n <=? v_p v))%Z
                then Some (list_upd w id (Some {| v_p := v_p v; v_center := v_center v; v_zero := v_zero v;
                             v_coeffs := Some (list_upd l (Z.to_nat (n * (n + 1) / 2 + m)) (Val x)) |}))
                else None
            | None => None
            end
        | None => None
        end
    | SetZero id b =>
        match vget w id with
        | Some v => Some (list_upd w id (Some {| v_p := v_p v; v_center := v_center v; v_zero := b;
                                                 v_coeffs := v_coeffs v |}))
        | None => None
        end
    | Destroy id => match vget w id with Some _ => Some (list_upd w id None) | None => None end
    end.

  Fixpoint vrun (w : world) (os : list (@op A C)) : option world :=
    match os with
    | [] => Some w
    | o :: t => match vstep w o with Some w' => vrun w' t | None => None end
    end.

  Definition vobs (w : world) (i : nat) : option (Z * C * bool * option (list (cell A))) :=
    match vget w i with
    | Some v => Some (v_p v, v_center v, v_zero v, v_coeffs v)
    | None => None
    end.

  (** Number of living objects that own coefficients. *)
  Fixpoint owners (w : world) : nat :=
    match w with
    | [] => 0
    | Some v :: t => (match v_coeffs v with Some _ => 1 | None => 0 end) + owners t
    | None :: t => owners t
    end.

  (** How many assignments of a program hit an object that already owns coefficients. *)
  Fixpoint overwrites (w : world) (os : list (@op A C)) : nat :=
    match os with
    | [] => 0
    | o :: t =>
        (match o with
         | Assign dst _ => match vget w dst with
                           | Some v => match v_coeffs v with Some _ => 1 | None => 0 end
                           | None => 0
                           end
         | _ => 0
         end) + (match vstep w o with Some w' => overwrites w' t | None => 0 end)
    end.
End Spec.
