(** * What deal.II guarantees about the dof handlers (specification of the inputs of C71). *)
From Coq Require Import List Arith.
From Verif Require Import ModelOwn.

(** subdomain ids are process numbers; the dofs of the cells are numbers below n_dofs, every dof lies on some
    cell; component d of scalar dof i has number d*n + i in the vector-valued handler and lies on the same cells *)
Definition well_numbered (U : numbering) : Prop :=
  0 < nu_dim U /\
  (forall c, c < nu_cells U -> nu_sub U c < nu_np U) /\
  (forall c i, c < nu_cells U -> In i (nu_dofs U c) -> i < nu_n U) /\
  (forall i, i < nu_n U -> exists c, c < nu_cells U /\ In i (nu_dofs U c)) /\
  (forall c j, c < nu_cells U -> (In j (nu_vdofs U c) <-> exists d i, d < nu_dim U /\ In i (nu_dofs U c) /\ j = d * nu_n U + i)).
