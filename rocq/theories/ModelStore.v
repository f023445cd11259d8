(** Coefficient storage of MultipoleExpansion, LocalExpansion and LocalExpansionCoeff. *)
From Coq Require Import ZArith List Bool.
Import ListNotations.
Local Open Scope Z_scope.

(** C++ [unsigned int] arithmetic: results are reduced modulo 2^32 (32-bit [unsigned int]
    is assumed, as on every platform deal.II supports). *)
Definition u32 (z : Z) : Z := z mod 2 ^ 32.

Section Buffers.
  Context {A : Type}.

  (** Raw array access [buf[i]] with an unsigned index. [None] = out of bounds (undefined
      behaviour in C++). *)
  Definition arr_get (buf : list A) (i : Z) : option A := nth_error buf (Z.to_nat i).

  Fixpoint list_upd (l : list A) (k : nat) (v : A) : list A :=
    match l, k with
    | [], _ => []
    | _ :: t, O => v :: t
    | x :: t, S k' => x :: list_upd t k' v
    end.

  (** Raw array store [buf[i] = v]; [None] = out of bounds. *)
  Definition arr_set (buf : list A) (i : Z) (v : A) : option (list A) :=
    if (Z.to_nat i <? length buf)%nat then Some (list_upd buf (Z.to_nat i) v) else None.
End Buffers.

(** include/multipole_expansion.h:104,110,116 and include/local_expansion.h:99,105,111:
    [(n) * (n + 1) / 2 + m], all operands [unsigned int]. *)
Definition tri_index (n m : Z) : Z := u32 (u32 (n * u32 (n + 1)) / 2 + m).

(** source/multipole_expansion.cc:31,42,59, source/local_expansion.cc:38,51,72: number of complex
    numbers allocated, [(p + 1) * (p + 2) / 2]. *)
Definition tri_size (p : Z) : Z := u32 (u32 (p + 1) * u32 (p + 2)) / 2.

(** include/multipole_expansion.h:101-105 (GetCoeff), include/local_expansion.h:96-100. *)
Definition get_coeff {A} (buf : list A) (n m : Z) : option A := arr_get buf (tri_index n m).

(** include/multipole_expansion.h:107-111 (SetCoeff), include/local_expansion.h:102-106. *)
Definition set_coeff {A} (buf : list A) (n m : Z) (v : A) : option (list A) :=
  arr_set buf (tri_index n m) v.

(** include/multipole_expansion.h:113-117 (AddToCoeff), include/local_expansion.h:108-112;
    [plus] is complex addition. *)
Definition add_to_coeff {A} (plus : A -> A -> A) (buf : list A) (n m : Z) (v : A)
  : option (list A) :=
  match arr_get buf (tri_index n m) with
  | Some old => arr_set buf (tri_index n m) (plus old v)
  | None => None
  end.

(** source/multipole_expansion.cc:24-35, source/local_expansion.cc:31-43: the sized
    constructors allocate [tri_size p] cells and fill them with 0. *)
Definition new_buffer {A} (zero : A) (p : Z) : list A := repeat zero (Z.to_nat (tri_size p)).

(** source/local_expansion_coeff.cc:66-70 getNNOffset. *)
Definition lec_nn_offset (nn : Z) : Z := u32 (nn * nn).
(** source/local_expansion_coeff.cc:72-76 getMOffset: [(_p + 1) * (_p + 1) * m]. *)
Definition lec_m_offset (p m : Z) : Z := u32 (u32 (u32 (p + 1) * u32 (p + 1)) * m).
(** source/local_expansion_coeff.cc:78-82 getNOffset: [((_p+1)*(_p+1)*(n+1)*(n)) / 2]. *)
Definition lec_n_offset (p n : Z) : Z :=
  u32 (u32 (u32 (u32 (p + 1) * u32 (p + 1)) * u32 (n + 1)) * n) / 2.

(** source/local_expansion_coeff.cc:53,63: the index used by [get] and [set]. The caller
    (source/local_expansion.cc:220,234) passes a signed [mm], possibly negative, to a
    parameter of type [const unsigned int &]: it is converted modulo 2^32 first. *)
Definition lec_index (p n m nn mm : Z) : Z :=
  u32 (u32 (u32 (u32 (u32 mm + nn) + lec_nn_offset nn) + lec_m_offset p m) + lec_n_offset p n).

(** source/local_expansion_coeff.cc:41-45 getNumberOfElements, and the allocation
    source/local_expansion_coeff.cc:26,32: [(_p+1)*(_p+1)*(_p+1)*(_p+2)/2]. *)
Definition lec_size (p : Z) : Z :=
  u32 (u32 (u32 (u32 (p + 1) * u32 (p + 1)) * u32 (p + 1)) * u32 (p + 2)) / 2.

(** source/local_expansion_coeff.cc:47-54 get. *)
Definition lec_get {A} (p : Z) (buf : list A) (n m nn mm : Z) : option A :=
  arr_get buf (lec_index p n m nn mm).
(** source/local_expansion_coeff.cc:56-64 set. *)
Definition lec_set {A} (p : Z) (buf : list A) (n m nn mm : Z) (v : A) : option (list A) :=
  arr_set buf (lec_index p n m nn mm) v.

(** A memory cell of a freshly allocated array of doubles. *)
Inductive cell (A : Type) : Type :=
| Val (v : A)       (* fully written *)
| Uninit.           (* not written, or only some of its bytes written *)
Arguments Val {A} v.
Arguments Uninit {A}.

(** [memcpy(dst, src, nbytes)] between arrays of [w]-byte elements, [dst] freshly
    allocated: the first [nbytes / w] elements are copied, a partially copied element and all
    later ones do not hold the source value. *)
Fixpoint memcpy_cells {A} (w : Z) (src : list (cell A)) (nbytes : Z) : list (cell A) :=
  match src with
  | [] => []
  | x :: t => (if w <=? nbytes then x else Uninit) :: memcpy_cells w t (nbytes - w)
  end.

(** source/local_expansion_coeff.cc:29-34: copy constructor. [sizeof(double)] is 8; the byte
    count passed is the number of elements. *)
Definition lec_copy {A} (p : Z) (orig : list (cell A)) : list (cell A) :=
  memcpy_cells 8 orig (lec_size p).
