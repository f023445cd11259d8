(** * What deal.II guarantees about two handlers on one mesh (inputs of C87): like SpecOwn.well_numbered, for two
    elements that need not be equal. *)
From Coq Require Import List Arith.
From Verif Require Import ModelOwn ModelTwoFe.

Definition two_handlers (E : elements) : Prop :=
  2 <= el_dim E /\
  (forall c, c < el_cells E -> el_sub E c < el_np E) /\
  (forall c i, c < el_cells E -> In i (el_dofs E c) -> i < el_n E) /\
  (forall i, i < el_n E -> exists c, c < el_cells E /\ In i (el_dofs E c)) /\
  (forall c j, c < el_cells E -> In j (el_vdofs E c) -> j < el_dim E * el_m E) /\
  (forall j, j < el_dim E * el_m E -> exists c, c < el_cells E /\ In j (el_vdofs E c)).

(** process p owns vector unknown j *)
Definition owns_vector (E : elements) (old : nat -> nat) (p j : nat) : Prop :=
  exists v, el_vset E old p = Some v /\ v j = true.
