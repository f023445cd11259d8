(** * Free coefficients of the hypersingular equation: compute_hypersingular_free_coeffs (bem_problem.cc 1248-1554), dim = 3.

    Doubles are exact reals; [None] in an [option R] or [option v3] is NaN (0/0 or acos outside [-1,1]; no other division
    by zero can occur in this function, since a vector divided by its own norm 0 gives 0/0); a comparison with NaN is
    false; [None] at the outermost level is an access outside a vector. *)
From Coq Require Import Reals List Arith Bool.
From Verif Require Import LibSum.
Import ListNotations.
Local Open Scope R_scope.

Record v3 := V { vx : R; vy : R; vz : R }.
Definition comp (a : v3) (i : nat) : R := match i with 0%nat => vx a | 1%nat => vy a | _ => vz a end.
Definition vadd (a b : v3) : v3 := V (vx a + vx b) (vy a + vy b) (vz a + vz b).
Definition vsub (a b : v3) : v3 := V (vx a - vx b) (vy a - vy b) (vz a - vz b).
Definition smul (k : R) (a : v3) : v3 := V (k * vx a) (k * vy a) (k * vz a).
Definition dot (a b : v3) : R := vx a * vx b + vy a * vy b + vz a * vz b.
(** cross_product_3d *)
Definition cross (a b : v3) : v3 := V (vy a * vz b - vz a * vy b) (vz a * vx b - vx a * vz b) (vx a * vy b - vy a * vx b).
(** Tensor<1,3>::norm *)
Definition nrm (a : v3) : R := sqrt (dot a a).
(** a /= a.norm() *)
Definition normalize (a : v3) : option v3 := if Req_EM_T (nrm a) 0 then None else Some (V (vx a / nrm a) (vy a / nrm a) (vz a / nrm a)).
(** acos *)
Definition facos (x : R) : option R := if Rle_dec (-1) x then if Rle_dec x 1 then Some (acos x) else None else None.

(** the mesh data the function reads *)
Record hmesh := {
  h_cells : nat;
  h_dofs : nat -> list nat;              (* cell->get_dof_indices *)
  h_normal : nat -> nat -> v3;           (* dofs_fe_values.normal_vector(i_loc) on a cell *)
  h_double : nat -> list nat;            (* double_nodes_set, in increasing order *)
  h_b : nat -> nat -> v3 }.              (* evaluate_free_term_b on a cell for a local dof *)

(** normals of node i, 1292-1313 *)
Definition gather (M : hmesh) (i : nat) : list v3 :=
  flat_map (fun c => flat_map (fun il => flat_map (fun d => if Nat.eqb d i then [h_normal M c il] else []) (h_double M (nth il (h_dofs M c) 0%nat)))
                              (seq 0 (length (h_dofs M c)))) (seq 0 (h_cells M)).
(** unique_normals, 1321-1329 *)
Definition near (a b : v3) : bool := if Rlt_dec (nrm (vsub a b)) (1 / 100000) then true else false.
Definition unique (l : list v3) : list v3 := fold_left (fun u n => if existsb (near n) u then u else u ++ [n]) l [].
(** average_normal, 1331-1334 *)
Definition average (u : list v3) : option v3 :=
  normalize (fold_left (fun a n => vadd a (smul (1 / INR (length u)) n)) u (V 0 0 0)).
(** projection_matrix * n / norm, 1337-1344; (-avg avg^T + I) n written out *)
Definition project (avg n : v3) : v3 := vsub n (smul (dot avg n) avg).
Definition projected (avg : option v3) (n : v3) : option v3 := match avg with Some a => normalize (project a n) | None => None end.

(** one round of the search, 1367-1394: index of the next normal *)
Definition candidate (avg prev q : option v3) : option (R * R) :=
  match avg, prev, q with
  | Some a, Some p, Some q => match facos (dot p q) with Some s => Some (dot a (cross p q), s) | None => None end
  | _, _, _ => None
  end.
Definition next_step (avg prev : option v3) (qs : list (option v3)) (st : R * nat) (p : nat) : R * nat :=
  match candidate avg prev (nth p qs None) with
  | Some (quadrant, sorter) => if Rlt_dec 0 quadrant then if Rlt_dec sorter (fst st) then (sorter, p) else st else st
  | None => st
  end.
Definition next_index (avg prev : option v3) (qs : list (option v3)) : nat :=
  snd (fold_left (next_step avg prev qs) (seq 0 (length qs)) (100, 0%nat)).
Definition erase {A} (k : nat) (l : list A) : list A := firstn k l ++ skipn (S k) l.
(** the loop 1361-1401 *)
Fixpoint order (fuel : nat) (avg prev : option v3) (ns : list v3) (qs : list (option v3)) : list v3 :=
  match fuel with
  | O => []
  | S f => let k := next_index avg prev qs in nth k ns (V 0 0 0) :: order f avg (nth k qs None) (erase k ns) (erase k qs)
  end.
(** unique_ordered_normals, 1356-1401; unique_normals[0] must exist *)
Definition ordered (u : list v3) : option (list v3) :=
  match u with
  | [] => None
  | n0 :: rest => let avg := average u in Some (n0 :: order (length rest) avg (projected avg n0) rest (map (projected avg) rest))
  end.

(** unique_tangents, 1406-1427, normalised *)
Definition tangent (l : list v3) (k : nat) : option v3 :=
  let n j := nth j l (V 0 0 0) in let N := length l in
  normalize (if Nat.eqb k 0 || Nat.eqb k N then cross (n 0%nat) (n (N - 1)%nat) else cross (n k) (n (k - 1)%nat)).
(** geom_alpha, 1428-1440 *)
Definition osub (a b : option R) : option R := match a, b with Some x, Some y => Some (x - y) | _, _ => None end.
Definition geom_alpha (l : list v3) : option R :=
  let n j := nth j l (V 0 0 0) in let N := length l in
  let s := if Nat.ltb 1 N
           then osub (fold_left (fun a k => osub a (facos (dot (n k) (n (k - 1)%nat)))) (seq 1 (N - 1)) (Some (2 * PI)))
                     (facos (dot (n (N - 1)%nat) (n 0%nat)))
           else Some (2 * PI) in
  match s with Some x => Some (x / (4 * PI)) | None => None end.
(** C_matrix[i][j], 1449-1475 *)
Definition C_entry (l : list v3) (i j : nat) : option R :=
  match geom_alpha l with
  | None => None
  | Some a =>
    let c0 := if Nat.eqb i j then 0 + a else 0 in
    if Nat.ltb 1 (length l)
    then fold_left (fun c k => match c, tangent l (k + 1), tangent l k with
                               | Some c, Some t', Some t => let n := nth k l (V 0 0 0) in
                                   Some (c - 1 / 4 / PI * (comp (cross (vsub t' t) n) i * comp n j))
                               | _, _, _ => None
                               end) (seq 0 (length l)) (Some c0)
    else Some c0
  end.
(** hyp_alpha(i) and C_ij[.][i] *)
Definition hyp_alpha (M : hmesh) (i : nat) : option (option R) := option_map geom_alpha (ordered (unique (gather M i))).
Definition hyp_C (M : hmesh) (i di dj : nat) : option (option R) := option_map (fun l => C_entry l di dj) (ordered (unique (gather M i))).

(** the same matrix in two dimensions, 1465-1468: "1 / 2 / numbers::PI" is an integer division *)
Definition C_entry_2d (alpha : R) (tn : list (R * R * (R * R))) (i j : nat) : R :=
  let cc (p : R * R) k := match k with 0%nat => fst p | _ => snd p end in
  fold_left (fun c x => c - INR (1 / 2)%nat / PI * (cc (fst x) i * cc (snd x) j)) tn (if Nat.eqb i j then 0 + alpha else 0).

(** b_i, 1516-1550: the additions of a process that owns the dofs in [own], and the vector after compress;
    b_i is not cleared before, so it starts from the values left by the previous call *)
Definition b_adds (M : hmesh) (own : nat -> bool) : list (nat * v3) :=
  flat_map (fun c => flat_map (fun il => let g := nth il (h_dofs M c) 0%nat in if own g then map (fun d => (d, h_b M c il)) (h_double M g) else [])
                              (seq 0 (length (h_dofs M c)))) (seq 0 (h_cells M)).
Definition b_vector (M : hmesh) (owner : nat -> nat) (np : nat) (b0 : nat -> nat -> R) (d i : nat) : R :=
  b0 d i + suml (seq 0 np) (fun me => suml (b_adds M (fun g => Nat.eqb (owner g) me)) (fun x => if Nat.eqb (fst x) i then comp (snd x) d else 0)).
