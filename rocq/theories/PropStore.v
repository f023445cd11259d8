(** Property theorems C01, C02, C03, C10. *)
From Coq Require Import ZArith List Bool Lia.
From Verif Require Import ModelStore ProofsStore ModelOrder ProofsOrder.
Import ListNotations.
Local Open Scope Z_scope.

(** C01. [buf] is any buffer of the size allocated for order [p]. *)
Theorem C01_set_then_get : forall (A : Type) (p : Z) (buf : list A),
  0 <= p -> (p + 1) * (p + 2) < 2 ^ 32 -> Z.of_nat (length buf) = tri_size p ->
  forall n m v, 0 <= m <= n -> n <= p ->
  exists buf', set_coeff buf n m v = Some buf'
    /\ length buf' = length buf
    /\ get_coeff buf' n m = Some v
    /\ forall n' m', 0 <= m' <= n' -> n' <= p -> (n', m') <> (n, m) ->
         exists w, get_coeff buf n' m' = Some w /\ get_coeff buf' n' m' = Some w.
Proof. intros A. exact (@coeff_store_lemma A). Qed.

Theorem C01_add_to : forall (A : Type) (plus : A -> A -> A) (p : Z) (buf : list A),
  0 <= p -> (p + 1) * (p + 2) < 2 ^ 32 -> Z.of_nat (length buf) = tri_size p ->
  forall n m v, 0 <= m <= n -> n <= p ->
  exists old buf', get_coeff buf n m = Some old
    /\ add_to_coeff plus buf n m v = Some buf'
    /\ length buf' = length buf
    /\ get_coeff buf' n m = Some (plus old v)
    /\ forall n' m', 0 <= m' <= n' -> n' <= p -> (n', m') <> (n, m) ->
         get_coeff buf' n' m' = get_coeff buf n' m'.
Proof. intros A. exact (@add_coeff_lemma A). Qed.

(** Every cell of the allocation is reached by exactly one index pair, and the allocation has the
    size the constructor requests. *)
Theorem C01_cells_bijection : forall p, 0 <= p -> (p + 1) * (p + 2) < 2 ^ 32 ->
  tri_size p = (p + 1) * (p + 2) / 2 /\
  (forall n m, 0 <= m <= n -> n <= p -> 0 <= tri_index n m < tri_size p) /\
  (forall i, 0 <= i < tri_size p ->
     exists n m, (0 <= m <= n /\ n <= p /\ tri_index n m = i) /\
       forall n' m', 0 <= m' <= n' -> n' <= p -> tri_index n' m' = i -> n' = n /\ m' = m).
Proof.
  intros p Hp H. split; [rewrite tri_size_eq by auto; unfold T; f_equal; ring|].
  split; [intros; apply tri_range; auto|].
  intros i Hi. destruct (tri_surj p i Hp H Hi) as (n & m & A1 & A2 & A3).
  exists n, m. split; [auto|]. intros n' m' B1 B2 B3.
  apply (tri_inj p); auto. congruence.
Qed.

(** The sized constructor yields the zero expansion. *)
Theorem C01_new_is_zero : forall (A : Type) (zero : A) p, 0 <= p -> (p + 1) * (p + 2) < 2 ^ 32 ->
  Z.of_nat (length (new_buffer zero p)) = tri_size p /\
  forall n m, 0 <= m <= n -> n <= p -> get_coeff (new_buffer zero p) n m = Some zero.
Proof. intros A zero p Hp H. split; [apply new_buffer_length|intros; apply (new_buffer_zero zero p)]; auto. Qed.

(** C02. *)
Theorem C02_set_then_get : forall (A : Type) (p : Z) (buf : list A),
  0 <= p -> (p + 1) ^ 3 * (p + 2) < 2 ^ 32 -> Z.of_nat (length buf) = lec_size p ->
  forall n m nn mm v, 0 <= m <= n -> n <= p -> 0 <= nn <= p -> - nn <= mm <= nn ->
  exists buf', lec_set p buf n m nn mm v = Some buf'
    /\ length buf' = length buf
    /\ lec_get p buf' n m nn mm = Some v
    /\ forall n' m' nn' mm', 0 <= m' <= n' -> n' <= p -> 0 <= nn' <= p -> - nn' <= mm' <= nn' ->
         (n', m', nn', mm') <> (n, m, nn, mm) ->
         exists w, lec_get p buf n' m' nn' mm' = Some w /\ lec_get p buf' n' m' nn' mm' = Some w.
Proof.
  intros A p buf Hp H HL n m nn mm v H1 H2 H3 H4.
  destruct (lec_store_lemma p buf Hp H HL n m nn mm v) as (b & B1 & B2 & B3 & B4).
  { repeat split; lia. }
  exists b. repeat split; auto. intros. apply B4; auto. repeat split; lia.
Qed.

Theorem C02_cells_bijection : forall p, 0 <= p -> (p + 1) ^ 3 * (p + 2) < 2 ^ 32 ->
  (forall n m nn mm, 0 <= m <= n -> n <= p -> 0 <= nn <= p -> - nn <= mm <= nn ->
     0 <= lec_index p n m nn mm < lec_size p) /\
  (forall i, 0 <= i < lec_size p ->
     exists n m nn mm, (0 <= m <= n /\ n <= p /\ 0 <= nn <= p /\ - nn <= mm <= nn /\
                        lec_index p n m nn mm = i) /\
       forall n' m' nn' mm', 0 <= m' <= n' -> n' <= p -> 0 <= nn' <= p -> - nn' <= mm' <= nn' ->
         lec_index p n' m' nn' mm' = i -> n' = n /\ m' = m /\ nn' = nn /\ mm' = mm).
Proof.
  intros p Hp H. split.
  - intros; apply lec_range; auto; repeat split; lia.
  - intros i Hi. destruct (lec_surj p i Hp H Hi) as (n & m & nn & mm & O & E).
    exists n, m, nn, mm. split; [unfold lec_ok in O; intuition lia|].
    intros. apply (lec_inj p); auto; [repeat split; lia|congruence].
Qed.

(** C03. The copy constructor keeps an entry exactly when its 8 bytes lie within the first
    [lec_size p] bytes; every other entry of the copy is uninitialised. *)
Theorem C03_copy_keeps_only_first_eighth : forall (A : Type) p (orig : list (cell A)) n m nn mm,
  0 <= p -> (p + 1) ^ 3 * (p + 2) < 2 ^ 32 -> Z.of_nat (length orig) = lec_size p ->
  0 <= m <= n -> n <= p -> 0 <= nn <= p -> - nn <= mm <= nn ->
  (8 * (lec_index p n m nn mm + 1) <= lec_size p ->
     lec_get p (lec_copy p orig) n m nn mm = lec_get p orig n m nn mm) /\
  (lec_size p < 8 * (lec_index p n m nn mm + 1) ->
     lec_get p (lec_copy p orig) n m nn mm = Some Uninit).
Proof.
  intros A p orig n m nn mm Hp H HL H1 H2 H3 H4.
  rewrite lec_copy_char by (auto; repeat split; lia).
  destruct (Z.leb_spec (8 * lec_index p n m nn mm + 8) (lec_size p)); split; intro; auto; lia.
Qed.

(** In particular no copy of an initialised table is equal to the original, whatever the order. *)
Theorem C03_copy_preserves_refuted : forall (A : Type) p (orig : list (cell A)),
  0 <= p -> (p + 1) ^ 3 * (p + 2) < 2 ^ 32 -> Z.of_nat (length orig) = lec_size p ->
  (forall c, In c orig -> c <> Uninit) ->
  exists n m nn mm, (0 <= m <= n /\ n <= p /\ 0 <= nn <= p /\ - nn <= mm <= nn) /\
    lec_get p (lec_copy p orig) n m nn mm <> lec_get p orig n m nn mm.
Proof.
  intros A p orig Hp H HL HI. exists p, p, p, p. split; [lia|].
  rewrite lec_copy_loses_last by auto. intro E. symmetry in E.
  unfold lec_get, arr_get in E. apply nth_error_In in E. exact (HI _ E eq_refl).
Qed.

(** C10. [fmm_accesses p] lists every table access of the expansion operators at order [p]. *)
Theorem C10_safe_iff : forall p, 0 <= p ->
  ((forall a, In a (fmm_accesses p) -> in_bounds a) <-> p <= 10).
Proof. exact fmm_safe_iff. Qed.

Theorem C10_local_translation_safe_iff : forall p, 0 <= p ->
  ((forall a, In a (l2l_accesses p) -> in_bounds a) <-> p <= 10).
Proof. exact l2l_safe_iff. Qed.

Theorem C10_multipole_safe_iff : forall p, 0 <= p ->
  ((forall a, In a (p2m_accesses p) -> in_bounds a) <-> p <= 20).
Proof. exact p2m_safe_iff. Qed.

(** The tables themselves are built without an out-of-bounds access. *)
Theorem C10_table_construction_safe : forall a,
  In a m2l_build_accesses \/ In a l2l_build_accesses -> in_bounds a.
Proof. intros a [H|H]; [apply m2l_build_safe|apply l2l_build_safe]; exact H. Qed.

(** Non-vacuity. *)
Example C01_applies : (0 <= 6) /\ (6 + 1) * (6 + 2) < 2 ^ 32
  /\ Z.of_nat (length (new_buffer 0 6)) = tri_size 6 /\ tri_size 6 = 28
  /\ match set_coeff (new_buffer 0 6) 4 3 7 with Some b => get_coeff b 4 3 = Some 7 | None => False end.
Proof. repeat split; vm_compute; congruence. Qed.
Example C02_applies : lec_ok 10 7 3 4 (-4) /\ (10 + 1) ^ 3 * (10 + 2) < 2 ^ 32 /\ lec_size 10 = 7986
  /\ lec_index 10 7 3 4 (-4) = 3767.
Proof. repeat split; vm_compute; congruence. Qed.
Example C03_applies : let t := repeat (Val 5%Z) (Z.to_nat (lec_size 2)) in
  Z.of_nat (length t) = lec_size 2 /\ (forall c, In c t -> c <> Uninit) /\
  lec_get 2 (lec_copy 2 t) 2 2 2 2 = Some Uninit /\ lec_get 2 (lec_copy 2 t) 0 0 0 0 = Some (Val 5).
Proof.
  intro t. split; [reflexivity|]. split; [|split; reflexivity].
  intros c H. apply repeat_spec in H. subst. discriminate.
Qed.
Example C10_not_safe_at_11 : exists a, In a (fmm_accesses 11) /\ ~ in_bounds a.
Proof.
  exists (Leg 22 0). split; [|simpl; lia].
  apply in_or_app. right. apply in_or_app. right. apply in_or_app. right. apply in_or_app. left.
  exact (m2l_unsafe 11 ltac:(lia)).
Qed.
