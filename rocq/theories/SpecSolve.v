(** * What the returned potential and flux should satisfy (C65, C66). *)
From Coq Require Import Reals List Bool Arith.
From Verif Require Import LibSum ModelBem ModelSolve.
Import ListNotations.
Local Open Scope R_scope.

(** The double-node sets are the classes of an equivalence on 0..n-1, listed increasingly. *)
Definition coincidence (n : nat) (doubles : nat -> list nat) : Prop :=
  (forall i, (i < n)%nat -> In i (doubles i)) /\
  (forall i j, (i < n)%nat -> In j (doubles i) -> (j < n)%nat /\ doubles j = doubles i) /\
  (forall i, (i < n)%nat -> NoDup (doubles i)).

(** The discrete boundary integral equation at row i, with the alpha that makes constants solutions. *)
Definition bie_row (S : system) (phi dphi : vec) (i : nat) : Prop :=
  s_N S phi i - phi i * s_N S (fun _ => 1) i = s_D S dphi i.

(** i is the first Dirichlet node of its group; another Dirichlet node shares the group of i. *)
Definition first_dirichlet (S : system) (i f : nat) : Prop :=
  exists pre post, s_doubles S i = pre ++ f :: post /\ s_dir S f = true /\ forall j, In j pre -> s_dir S j = false.
Definition other_dirichlet (S : system) (i : nat) : Prop :=
  exists j, In j (s_doubles S i) /\ j <> i /\ s_dir S j = true.
Definition neumann_group (S : system) (i : nat) : Prop := forall j, In j (s_doubles S i) -> s_dir S j = false.

(** the nodes to which coincidence with other nodes adds no condition: Dirichlet nodes, unless fluxes are
    imposed at edges between Dirichlet faces, and the first node of a group of Neumann nodes *)
Definition free_of_doubles (S : system) (i : nat) : Prop :=
  if s_dir S i then s_cont S = false \/ ~ other_dirichlet S i
  else neumann_group S i /\ exists post, s_doubles S i = i :: post.
(** the nodes at which the integral equation is kept *)
Definition equation_node (S : system) (i : nat) : Prop :=
  constrained (s_hanging S) i = false /\ free_of_doubles S i.

(** the unknown of a node: the flux at Dirichlet nodes, the potential at the others *)
Definition unknown (S : system) (phi dphi : vec) (i : nat) : R := if s_dir S i then dphi i else phi i.

(** the system with other layer operators *)
Definition with_layers (S : system) (N D : vec -> vec) : system := {|
  s_n := s_n S; s_direct := s_direct S; s_N := N; s_D := D; s_dir := s_dir S; s_have_dirichlet := s_have_dirichlet S;
  s_doubles := s_doubles S; s_normal := s_normal S; s_sgrad := s_sgrad S; s_cont := s_cont S; s_hanging := s_hanging S; s_close := s_close S |}.
(** the value of row i of the problem for the unknowns x when all data vanish: the integral equation at the
    equation nodes, the linear part of the relation at the others *)
Definition homogeneous_row (S : system) (c : constraints) (x : vec) (i : nat) : R :=
  match c i with
  | None => let phi := fun k => if s_dir S k then 0 else x k in let dphi := fun k => if s_dir S k then x k else 0 in
            s_N S phi i - phi i * s_N S (fun _ => 1) i - s_D S dphi i
  | Some l => x i - suml (l_entries l) (fun e => snd e * x (fst e))
  end.
(** the problem determines its unknowns, with condition [M] *)
Definition stable (S : system) (rhs : vec) (M : R) : Prop :=
  forall c x r, merge (s_n S) (node_constraints S rhs) (s_hanging S) = Some c ->
    (forall i, (i < s_n S)%nat -> Rabs (homogeneous_row S c x i) <= r) -> forall i, (i < s_n S)%nat -> Rabs (x i) <= M * r.
