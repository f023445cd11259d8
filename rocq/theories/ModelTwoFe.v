(** * Scalar and vector finite elements chosen separately.

    The parameter file chooses the element of the scalar handler dh and the element of the vector handler
    gradient_dh independently (source/bem_problem.cc 500-516, 541-553, 118-151: FEQ or FEDGQ, any order); reinit
    (159-162, 172-187, 226-267), compute_reordering_vectors (731-751) and compute_errors
    (source/boundary_conditions.cc 434-438, 456-465) index the tables of one with numbers of the other.  ModelOwn models
    the same code for equal elements; here the number of nodes of the vector element is a separate number.

    Reading std::vector::operator[] outside its size is undefined behaviour: [None].  deal.II's part is that of ModelOwn.
    gradient_dh has dim components per node of its element (FESystem, 125-127, 139-141), so
    gradient_dh.n_dofs() = dim * m. *)
From Coq Require Import List Arith Bool.
From Verif Require Import ModelBem ModelBc ModelOwn.
Import ListNotations.
Local Open Scope nat_scope.

Record elements := {
  el_n : nat;                       (* dh.n_dofs() *)
  el_m : nat;                       (* nodes of the vector element: gradient_dh.n_dofs() / dim *)
  el_dim : nat;
  el_cells : nat;
  el_dofs : nat -> list nat;        (* dofs of a cell in dh, after component_wise (175) *)
  el_vdofs : nat -> list nat;       (* dofs of a cell in gradient_dh, after component_wise (176) *)
  el_sub : nat -> nat;              (* subdomain id of a cell *)
  el_np : nat }.

Section TwoFe.
  Variable E : elements.
  (** gradient_dh.n_dofs() *)
  Definition el_nv : nat := el_dim E * el_m E.
  (** original_to_sub_wise, vec_original_to_sub_wise: compute_subdomain_wise (740-741) *)
  Definition el_o2s : nat -> nat := subdomain_wise (el_n E) (el_np E) (association (el_cells E) (el_dofs E) (el_sub E)).
  Definition el_vo2s : nat -> nat := subdomain_wise el_nv (el_np E) (association (el_cells E) (el_vdofs E) (el_sub E)).
  (** sub_wise_to_original (735-736, 743-748): one loop over the indices of gradient_dh fills both inverse tables; [old]
      is the content left by resize (zeros in the first call, the values of the previous call later) *)
  Definition el_s2o (old : nat -> nat) : nat -> nat :=
    fold_left (fun t i => if Nat.ltb i (el_n E) then upd t (el_o2s i) i else t) (seq 0 el_nv) old.
  (** dh after DoFRenumbering::subdomain_wise, dofs_domain_association (186, 226-228) *)
  Definition el_domain (i : nat) : option nat := association (el_cells E) (fun c => map el_o2s (el_dofs E c)) (el_sub E) i.
  (** vec_original_to_sub_wise[k] *)
  Definition el_vread (k : nat) : option nat := if Nat.ltb k el_nv then Some (el_vo2s k) else None.
  (** the loop over idim (261-266) for dof i with dummy = sub_wise_to_original[i] *)
  Definition el_components (dummy : nat) (v : option (nat -> bool)) : option (nat -> bool) :=
    fold_left (fun v d => match v, el_vread (el_nv / el_dim E * d + dummy) with
                          | Some v, Some j => Some (upd v j true) | _, _ => None end) (seq 0 (el_dim E)) v.
  (** vector_this_cpu_set of process [me] (257-267) *)
  Definition el_vset (old : nat -> nat) (me : nat) : option (nat -> bool) :=
    fold_left (fun v i => if is_sub (el_domain i) me then el_components (el_s2o old i) v else v)
              (seq 0 (el_n E)) (Some (fun _ => false)).
  (** the vector dof whose normal is used for component d at scalar dof i (boundary_conditions.cc 306-311,
      bem_problem.cc 1958-1964) *)
  Definition el_normal_dof (old : nat -> nat) (d i : nat) : option nat := el_vread (el_nv / el_dim E * d + el_s2o old i).
  (** the vector dof compared with component d of the exact gradient at original scalar dof i in compute_errors
      (boundary_conditions.cc 434-438, 463), and in the hypersingular gradients (bem_problem.cc 2787-2793, 2839-2845) *)
  Definition el_error_dof (d i : nat) : option nat := el_vread (d * el_n E + i).
End TwoFe.
