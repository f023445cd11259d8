(** Table accesses made by the expansion operators, as a function of the truncation order. *)
From Coq Require Import ZArith List Bool.
From Verif Require Import ModelStore.
Import ListNotations.
Local Open Scope Z_scope.

(** [for (int k = a; k < b; k++)] *)
Definition zrange (a b : Z) : list Z :=
  map (fun k => a + Z.of_nat k) (seq 0 (Z.to_nat (b - a))).

(** The kinds of table an expansion operator indexes. *)
Inductive access : Type :=
| Leg (n m : Z)             (* leg_pointers[n][m]: GetAssLegFunSph(n, m, .) *)
| LegDer (n m : Z)          (* leg_der_pointers[n][m]: GetAssLegFunSphDeriv(n, m, .) *)
| Coef (p n m : Z)          (* GetCoeff/AddToCoeff(n, m) on an expansion of order p *)
| Anm (n m : Z)             (* A_n_m(n, m) of the static 21x21 matrix *)
| M2Ltab (n m nn mm : Z)    (* mExp_to_lExp_Coeff.get(n, m, nn, mm) *)
| L2Ltab (n m : Z).         (* lExp_to_lExp_Coeff[n][m] (outer vectors; the two inner maps
                               are std::map and never out of bounds) *)

(** Whether the access is inside the table.
    - source/ass_leg_function.cc:8-12 and 246-250: 21 rows, row n has n+1 entries;
    - coefficient buffers: [tri_size p] cells;
    - source/multipole_expansion.cc:9-10, source/local_expansion.cc:9: FullMatrix 21 x 21;
    - source/local_expansion.cc:11-12: LocalExpansionCoeff built with order 10;
    - source/local_expansion.cc:14-16, include/local_expansion.h:187-190: vectors of sizes 11
      and n+1. *)
Definition in_bounds (a : access) : Prop :=
  match a with
  | Leg n m | LegDer n m => 0 <= n <= 20 /\ 0 <= m <= n
  | Coef p n m => 0 <= tri_index n m < tri_size p
  | Anm n m => 0 <= n <= 20 /\ 0 <= m <= 20
  | M2Ltab n m nn mm => 0 <= lec_index 10 n m nn mm < lec_size 10
  | L2Ltab n m => 0 <= n <= 10 /\ 0 <= m <= n
  end.

(** source/multipole_expansion.cc:108-124 (Add(strength, point)). *)
Definition p2m_accesses (p : Z) : list access :=
  flat_map (fun n => flat_map (fun m => [Leg n (Z.abs m); Coef p n m]) (zrange 0 (n + 1)))
           (zrange 0 (p + 1)).

(** source/multipole_expansion.cc:161-186 (AddNormDer). *)
Definition p2m_normder_accesses (p : Z) : list access :=
  flat_map (fun n => flat_map (fun m => [Leg n (Z.abs m); LegDer n (Z.abs m); Coef p n m])
                              (zrange 0 (n + 1)))
           (zrange 0 (p + 1)).

(** source/multipole_expansion.cc:212-247 (Add(other), distinct centers), [p] the order of both. *)
Definition m2m_accesses (p : Z) : list access :=
  flat_map (fun n => flat_map (fun m =>
    flat_map (fun nn => flat_map (fun mm =>
      if Z.abs (m - mm) >? n - nn then []
      else [Coef p (Z.abs (n - nn)) (Z.abs (m - mm)); Leg nn (Z.abs mm); Anm (Z.abs nn) (Z.abs mm);
            Anm (Z.abs (n - nn)) (Z.abs (m - mm)); Anm (Z.abs n) (Z.abs m)])
      (zrange (-1 * nn) (nn + 1))) (zrange 0 (n + 1))
    ++ [Coef p n m]) (zrange 0 (n + 1))) (zrange 0 (p + 1)).

(** source/multipole_expansion.cc:282-295 (Evaluate), source/local_expansion.cc:266-283. *)
Definition eval_accesses (p : Z) : list access :=
  flat_map (fun n => [Leg n 0; Coef p n 0] ++
    flat_map (fun m => [Leg n (Z.abs m); Coef p n m]) (zrange 1 (n + 1))) (zrange 0 (p + 1)).

(** source/local_expansion.cc:128-161 (Add(LocalExpansion), distinct centers). *)
Definition l2l_accesses (p : Z) : list access :=
  flat_map (fun n => flat_map (fun m =>
    flat_map (fun nn => flat_map (fun mm =>
      if Z.abs (mm - m) >? nn - n then []
      else [Coef p (Z.abs nn) (Z.abs mm); Leg (nn - n) (Z.abs (mm - m)); L2Ltab n m])
      (zrange (-1 * nn) (nn + 1))) (zrange n (p + 1))
    ++ [Coef p n m]) (zrange 0 (n + 1))) (zrange 0 (p + 1)).

(** source/local_expansion.cc:202-240 (Add(MultipoleExpansion)): the two inner loops over
    mm < 0 and mm >= 0 make the same accesses. *)
Definition m2l_accesses (p : Z) : list access :=
  flat_map (fun n => flat_map (fun m =>
    flat_map (fun nn => flat_map (fun mm =>
      [Coef p nn (Z.abs mm); Leg (nn + n) (Z.abs (mm - m)); M2Ltab n m nn mm])
      (zrange (-1 * nn) 0 ++ zrange 0 (nn + 1))) (zrange 0 (p + 1))
    ++ [Coef p n m]) (zrange 0 (n + 1))) (zrange 0 (p + 1)).

(** include/local_expansion.h:144-180 (mExp_to_lExp_Coeff_Build, called with 10): accesses to
    A_n_m and stores into the table. *)
Definition m2l_build_accesses : list access :=
  flat_map (fun n => flat_map (fun m => flat_map (fun nn => flat_map (fun mm =>
      [Anm nn (Z.abs mm); Anm (n + nn) (Z.abs (m - mm)); Anm n (Z.abs m); M2Ltab n m nn mm])
      (zrange (-1 * nn) (nn + 1))) (zrange 0 11)) (zrange 0 (n + 1))) (zrange 0 11).

(** include/local_expansion.h:182-214 (lExp_to_lExp_Coeff_Build, called with 10). *)
Definition l2l_build_accesses : list access :=
  flat_map (fun n => flat_map (fun m => flat_map (fun nn => flat_map (fun mm =>
      [Anm (nn - n) (Z.abs (mm - m)); Anm nn (Z.abs mm); Anm n (Z.abs m); L2Ltab n m])
      (zrange (-1 * nn) (nn + 1))) (zrange n 11)) (zrange 0 (n + 1))) (zrange 0 11).

(** All accesses of an FMM product with truncation order [p] (source/bem_fma.cc uses one order,
    [trunc_order], for all its expansions). *)
Definition fmm_accesses (p : Z) : list access :=
  p2m_accesses p ++ p2m_normder_accesses p ++ m2m_accesses p ++ m2l_accesses p ++ l2l_accesses p
  ++ eval_accesses p.
