(** * Moving, turning and scaling a mesh (C76). *)
From Coq Require Import Reals List Arith Bool.
From Verif Require Import LibSum ModelOctree ModelFmm ModelAssemble ModelRules ModelBem ModelSolve.
Import ListNotations.
Local Open Scope R_scope.

(** rotations and reflections of the plane or of space *)
Definition turned (dim : nat) (A : nat -> nat -> R) (v : nat -> R) : nat -> R := fun k => suml (seq 0 dim) (fun j => A k j * v j).
Definition orthogonal (dim : nat) (A : nat -> nat -> R) : Prop := forall j k, (j < dim)%nat -> (k < dim)%nat ->
  suml (seq 0 dim) (fun l => A l j * A l k) = if Nat.eqb j k then 1 else 0.
(** x' is the image of x: scaled by s, turned by A, displaced by t *)
Definition image (dim : nat) (s : R) (A : nat -> nat -> R) (t x x' : nat -> R) : Prop :=
  forall k, (k < dim)%nat -> x' k = s * turned dim A x k + t k.
(** the same rule on the moved mesh: points moved, normals turned, areas multiplied by s^(dim-1), shape functions kept *)
Definition image_regular (dim : nat) (s : R) (A : nat -> nat -> R) (t : nat -> R) (nq : nat) (P P' : regular_points) : Prop := forall q, (q < nq)%nat ->
  image dim s A t (rp_at P q) (rp_at P' q) /\ (forall k, (k < dim)%nat -> rp_normal P' q k = turned dim A (rp_normal P q) k) /\
  rp_jxw P' q = s ^ (dim - 1) * rp_jxw P q /\ forall j, rp_shape P' q j = rp_shape P q j.
Definition image_singular (dim : nat) (s : R) (A : nat -> nat -> R) (t : nat -> R) (S S' : singular_points) : Prop :=
  (forall idx, sp_n S' idx = sp_n S idx) /\ (forall idx q j, sp_shape S' idx q j = sp_shape S idx q j) /\
  forall c idx q, image dim s A t (sp_at S c idx q) (sp_at S' c idx q) /\
    (forall k, (k < dim)%nat -> sp_normal S' c idx q k = turned dim A (sp_normal S c idx q) k) /\
    sp_jxw S' c idx q = s ^ (dim - 1) * sp_jxw S c idx q.

(** integral of the shape function of dof d with the rules used for the row of node i *)
Definition shape_integral (I : oin) (P : regular_points) (S : singular_points) (i d : nat) : R :=
  suml (seq 0 (o_nc I)) (fun c => suml (seq 0 (length (o_cdofs I c))) (fun j => if Nat.eqb (nth j (o_cdofs I c) 0%nat) d then
    match singular_index I i c with
    | Some idx => suml (seq 0 (sp_n S idx)) (fun q => sp_shape S idx q j * sp_jxw S c idx q)
    | None => suml (quads_of_cell I c) (fun q => rp_shape P q j * rp_jxw P q)
    end else 0)).
(** no evaluation point is at the node *)
Definition off_node (dim : nat) (x y : nat -> R) : Prop := exists k, (k < dim)%nat /\ x k <> y k.
Definition points_off_node (dim : nat) (I : oin) (node : nat -> nat -> R) (P : regular_points) (S : singular_points) (i : nat) : Prop :=
  (forall q, (q < o_nq I)%nat -> off_node dim (rp_at P q) (node i)) /\ forall c idx q, off_node dim (sp_at S c idx q) (node i).

(** ** The whole problem in other units *)
(** values given or found at the nodes, when lengths are multiplied by s: potentials stay, fluxes are divided by s *)
Definition in_units (s : R) (potential : nat -> bool) (v : vec) : vec := fun i => if potential i then v i else v i / s.
(** the discrete problem on the moved mesh, with the same boundary conditions in the new units: operators as in the
    theorems on the matrices, normals turned, surface gradients turned and divided by s where the program reads them *)
Record moved_system (s : R) (A : nat -> nat -> R) (rhs : vec) (S S' : system) : Prop := {
  ms_n : s_n S' = s_n S;
  ms_dir : s_dir S' = s_dir S;
  ms_have : s_have_dirichlet S' = s_have_dirichlet S;
  ms_doubles : s_doubles S' = s_doubles S;
  ms_cont : s_cont S' = s_cont S;
  ms_hanging : s_hanging S' = s_hanging S;
  ms_N : forall v i, (i < s_n S)%nat -> s_N S' v i = s_N S v i;
  ms_D : forall v i, (i < s_n S)%nat -> s_D S' v i = s * s_D S v i;
  ms_normal : forall i k, (i < s_n S)%nat -> (k < 3)%nat -> s_normal S' i k = turned 3 A (s_normal S i) k;
  ms_sgrad : forall i k, (i < s_n S)%nat -> (k < 3)%nat -> s_dir S i = true ->
    s_sgrad S' (in_units s (s_dir S) rhs) i k = turned 3 A (s_sgrad S rhs i) k / s }.
(** hanging nodes: homogeneous lines between nodes of one kind *)
Definition plain_hanging (S : system) : Prop := forall h l, (h < s_n S)%nat -> s_hanging S h = Some l ->
  l_inhom l = Some 0 /\ forall e, In e (l_entries l) -> s_dir S (fst e) = s_dir S h.
