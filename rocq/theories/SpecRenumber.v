(** * The same boundary element problem with the unknowns numbered differently (C82). *)
From Coq Require Import Reals List Bool Arith Permutation.
From Verif Require Import LibSum ModelBem ModelSolve SpecSolve.
Import ListNotations.
Local Open Scope R_scope.

(** [pi] maps the numbers 0..n-1 one-to-one onto themselves, [rho] is its inverse *)
Definition bijection (n : nat) (pi rho : nat -> nat) : Prop :=
  forall i, (i < n)%nat -> (pi i < n)%nat /\ (rho i < n)%nat /\ rho (pi i) = i /\ pi (rho i) = i.

(** the hanging-node relation of a node, up to the order in which its parents are listed *)
Definition renamed_line (n : nat) (pi : nat -> nat) (l l' : option line) : Prop :=
  match l, l' with
  | None, None => True
  | Some a, Some b => l_inhom b = l_inhom a /\ Permutation (map (fun e => (pi (fst e), snd e)) (l_entries b)) (l_entries a) /\
      (forall e, In e (l_entries b) -> (fst e < n)%nat)
  | _, _ => False
  end.

(** Node [i] of [S'] is node [pi i] of [S]: kind, coincident nodes, normal, surface gradient of the imposed data,
    hanging-node relation, data and matrix rows are those of node [pi i]. *)
Record renumbered (pi rho : nat -> nat) (S S' : system) (rhs rhs' : vec) : Prop := {
  rn_n : s_n S' = s_n S;
  rn_bij : bijection (s_n S) pi rho;
  rn_dir : forall i, (i < s_n S)%nat -> s_dir S' i = s_dir S (pi i);
  rn_have : s_have_dirichlet S' = s_have_dirichlet S;
  rn_dbl : forall i k, (i < s_n S)%nat -> (k < s_n S)%nat -> (In k (s_doubles S' i) <-> In (pi k) (s_doubles S (pi i)));
  rn_normal : forall i d, (i < s_n S)%nat -> s_normal S' i d = s_normal S (pi i) d;
  rn_sgrad : forall i d, (i < s_n S)%nat -> s_sgrad S' rhs' i d = s_sgrad S rhs (pi i) d;
  rn_cont : s_cont S' = s_cont S;
  rn_hang : forall i, (i < s_n S)%nat -> renamed_line (s_n S) pi (s_hanging S (pi i)) (s_hanging S' i);
  rn_N : forall x x' i, (i < s_n S)%nat -> (forall k, (k < s_n S)%nat -> x' k = x (pi k)) -> s_N S' x' i = s_N S x (pi i);
  rn_D : forall x x' i, (i < s_n S)%nat -> (forall k, (k < s_n S)%nat -> x' k = x (pi k)) -> s_D S' x' i = s_D S x (pi i);
  rn_rhs : forall i, (i < s_n S)%nat -> rhs' i = rhs (pi i) }.

(** coincident nodes have the same matrix rows (C81); the imposed potential has one value per point; if edge
    fluxes are imposed, every pair of Dirichlet nodes at a point gives a node the same flux; hanging nodes do not coincide with other nodes *)
Definition same_rows (S : system) (i j : nat) : Prop := forall x, s_N S x i = s_N S x j /\ s_D S x i = s_D S x j.
Record regular (S : system) (rhs : vec) : Prop := {
  rg_rows : forall i j, (i < s_n S)%nat -> In j (s_doubles S i) -> same_rows S i j;
  rg_data : forall i j, (i < s_n S)%nat -> In j (s_doubles S i) -> s_dir S i = true -> s_dir S j = true -> rhs i = rhs j;
  rg_flux : s_cont S = true -> forall i j k, (i < s_n S)%nat -> In j (s_doubles S i) -> In k (s_doubles S i) -> i <> j -> i <> k ->
     s_dir S i = true -> s_dir S j = true -> s_dir S k = true ->
     this_normal_gradient (s_normal S i) (s_normal S j) (s_sgrad S rhs i) (s_sgrad S rhs j) =
     this_normal_gradient (s_normal S i) (s_normal S k) (s_sgrad S rhs i) (s_sgrad S rhs k);
  rg_hang : forall i j, (i < s_n S)%nat -> constrained (s_hanging S) i = true -> In j (s_doubles S i) -> j = i }.
