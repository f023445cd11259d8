(** * Restoring conformity along edges.

    Models ComputationalDomain<3>::make_edges_conformal with double nodes
    (source/computational_domain.cc 1011-1114) and compute_double_vertex_cache (1117-1185).

    Simplifications: coordinates are exact rationals, distances are compared squared; the mesh is its
    vertices and active cells (four vertex indices and four boundary marks); what deal.II makes of
    the refinement flags is any function.  edge_cells (a std::set) is a list: only membership
    matters. *)
From Coq Require Import QArith List Arith Bool.
From Verif Require Import ModelOctree.
Import ListNotations.
Local Open Scope nat_scope.

Record tcell := { c_vert : nat -> nat; c_bnd : nat -> bool }.     (* vertex_index(v), face(f)->at_boundary() *)
Record tmesh := { t_nv : nat; t_pos : nat -> pt; t_cells : list tcell }.

(** deal.II's numbering of the faces of a quadrilateral: face -> its two vertices *)
Definition face_vert (f k : nat) : nat :=
  match f, k with
  | 0, 0 => 0 | 0, _ => 2 | 1, 0 => 1 | 1, _ => 3 | 2, 0 => 0 | 2, _ => 1 | _, 0 => 2 | _, _ => 3
  end.
(** cell->face(f)->vertex(k) *)
Definition fpoint (m : tmesh) (c : tcell) (f k : nat) : pt := t_pos m (c_vert c (face_vert f k)).

Definition sq (x : Q) : Q := (x * x)%Q.
Definition d2 (a b : pt) : Q := (sq (px a - px b) + sq (py a - py b) + sq (pz a - pz b))%Q.
Definition tol2 : Q := 1 # 100000000000000.                       (* (1e-7)^2 *)
Definition ltb_tol (a b : pt) : bool := negb (Qle_bool tol2 (d2 a b)).     (* distance < 1e-7 *)
Definition leb_tol (a b : pt) : bool := Qle_bool (d2 a b) tol2.            (* distance <= 1e-7 *)
Definition mid (a b : pt) : pt := mkpt ((1 # 2) * (px a + px b)) ((1 # 2) * (py a + py b)) ((1 # 2) * (pz a + pz b)).
Definition peqb (a b : pt) : bool := Qeq_bool (px a) (px b) && Qeq_bool (py a) (py b) && Qeq_bool (pz a) (pz b).

(** ** compute_double_vertex_cache *)
(** double_vertex_vector[i] (1131-1140) *)
Definition doubles (m : tmesh) (i : nat) : list nat :=
  filter (fun j => leb_tol (t_pos m i) (t_pos m j)) (seq 0 (t_nv m)).
(** vert_to_elems[i] (1148-1159): one entry per cell and local index *)
Definition elems (m : tmesh) (i : nat) : list tcell :=
  flat_map (fun c => map (fun _ => c) (filter (fun v => Nat.eqb (c_vert c v) i) (seq 0 4))) (t_cells m).
(** cell->at_boundary() *)
Definition at_boundary (c : tcell) : bool := existsb (c_bnd c) (seq 0 4).
(** edge_cells (1162-1164) *)
Definition edge_cells (m : tmesh) : list tcell := filter at_boundary (t_cells m).
(** vertex_on_boundary[i] (1162-1181) *)
Definition on_boundary (m : tmesh) (i : nat) : bool :=
  existsb (fun c => at_boundary c && existsb (fun f => c_bnd c f && existsb (fun v =>
      (peqb (fpoint m c f 0) (t_pos m (c_vert c v)) || peqb (fpoint m c f 1) (t_pos m (c_vert c v)))
      && Nat.eqb (c_vert c v) i) (seq 0 4)) (seq 0 4)) (t_cells m).

(** ** one pass of the loop *)
Definition origin : pt := mkpt 0 0 0.
(** the value written to nodes[kk] by cell [c], if any (1039-1060): the last match wins *)
Definition far_end (m : tmesh) (i : nat) (c : tcell) : option pt :=
  fold_left (fun r f =>
      if c_bnd c f then
        if ltb_tol (t_pos m i) (fpoint m c f 0) then Some (fpoint m c f 1)
        else if ltb_tol (t_pos m i) (fpoint m c f 1) then Some (fpoint m c f 0) else r
      else r) (seq 0 4) None.
(** std::vector<Point> nodes(2), written at index kk for every incident cell kk (1034-1062);
    None = a write at an index >= 2 *)
Definition end_nodes (m : tmesh) (i : nat) : option (pt * pt) :=
  let get k := match nth_error (elems m i) k with
               | Some c => match far_end m i c with Some p => p | None => origin end
               | None => origin end in
  if existsb (fun c => match far_end m i c with Some _ => true | None => false end) (skipn 2 (elems m i))
  then None else Some (get 0, get 1).

Inductive flag := Isotropic | Cut (axis : nat).
(** flags set for vertex i (1066-1098) *)
Definition flags_for (iso : bool) (m : tmesh) (i : nat) : option (list (tcell * flag)) :=
  if on_boundary m i && Nat.eqb (length (doubles m i)) 1 then
    match end_nodes m i with
    | None => None
    | Some (a, b) =>
        Some (flat_map (fun c => flat_map (fun d =>
          if c_bnd c d && ltb_tol (mid a b) (mid (fpoint m c d 0) (fpoint m c d 1))
          then [(c, if iso then Isotropic else Cut (if Nat.eqb d 0 || Nat.eqb d 1 then 1 else 0))] else [])
          (seq 0 4)) (edge_cells m))
    end
  else Some [].
(** all set_refine_flag calls of a pass (1029-1100); None = out-of-bounds write *)
Fixpoint pass_from (iso : bool) (m : tmesh) (l : list nat) : option (list (tcell * flag)) :=
  match l with
  | [] => Some []
  | i :: r => match flags_for iso m i, pass_from iso m r with
              | Some a, Some b => Some (a ++ b)
              | _, _ => None
              end
  end.
Definition pass (iso : bool) (m : tmesh) : option (list (tcell * flag)) := pass_from iso m (seq 0 (t_nv m)).

(** ** the loop (1017-1110) *)
Inductive outcome := Done (m : tmesh) | Running | Bad.
Section Loop.
  Variable execute : tmesh -> list (tcell * flag) -> tmesh.   (* prepare_ and execute_coarsening_and_refinement *)
  Fixpoint make_edges_conformal (iso : bool) (fuel : nat) (m : tmesh) : outcome :=
    match fuel with
    | O => Running
    | S n => match pass iso m with
             | None => Bad
             | Some [] => Done m
             | Some fl => make_edges_conformal iso n (execute m fl)
             end
    end.
End Loop.
