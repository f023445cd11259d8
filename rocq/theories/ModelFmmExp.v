(** * The fast multipole product with the program's own expansions.

    Instance of the loops of ModelFmm (bem_fma.cc 1750-3284) in which the expansion objects are those of
    ModelExp: MultipoleExpansion and LocalExpansion of order trunc_order about the block centres.  An object
    is an [option]: None is an object on which undefined behaviour or a division by zero has happened.
    A value read from such an object is the arbitrary number [junk]. *)
From Coq Require Import QArith Qreals Reals List Arith Bool.
From Verif Require Import ModelLegendre ModelOctree ModelFmm SpecExp.
From Verif Require ModelExp ModelKernel.
Import ListNotations.
Local Open Scope nat_scope.

(** Point<3> of the octree seen as a point of the expansion classes *)
Definition rpt (p : pt) : ModelExp.pt := ModelExp.Pt (Q2R (px p)) (Q2R (py p)) (Q2R (pz p)).
(** blockCenter = GetPMin() + deltaHalf (bem_fma.cc 1826-1830, 2172-2176, 2622-2626) *)
Definition block_center (b : block) : ModelExp.pt :=
  ModelExp.Pt (Q2R (px (b_min b)) + Q2R (b_delta b) / 2) (Q2R (py (b_min b)) + Q2R (b_delta b) / 2) (Q2R (pz (b_min b)) + Q2R (b_delta b) / 2).
(** "Ker2", the Dirichlet matrix: Add(strength, point); "Ker1", the Neumann matrix:
    AddNormDer(strength, point, normal) (bem_fma.cc 1880-1896) *)
Inductive layer := Single | Double (normal : nat -> ModelExp.pt).
Definition src_of (I : oin) (ly : layer) (w : R) (q : nat) : source :=
  match ly with Single => Charge w (rpt (o_qpos I q)) | Double n => Dipole w (rpt (o_qpos I q)) (n q) end.
Definition lift2 {A B C : Type} (f : A -> B -> option C) (a : option A) (b : option B) : option C :=
  bind a (fun x => bind b (f x)).
Definition read (junk : R) (o : option R) : R := match o with Some v => v | None => junk end.
Definition code_eops (I : oin) (st : ost) (p : nat) (ly : layer) (junk : R) : eops := {|
  ME := option ModelExp.expansion; LE := option ModelExp.expansion;
  mz := fun b => Some (ModelExp.fresh p (block_center (getb (st_blocks st) b)));                     (* 2177-2180 *)
  msrc := fun m w q => bind m (fun e => add_source e (src_of I ly w q));                              (* 1880-1896 *)
  madd := lift2 ModelExp.m_translate;                                                                (* 2475, 2491 *)
  maddc := fun m m' a => bind m (fun e => bind m' (fun e' => ModelExp.m_add_scaled e e' a));          (* 2268-2273 *)
  lz := fun b => Some (ModelExp.fresh p (block_center (getb (st_blocks st) b)));                     (* 2628-2631 *)
  laddl := lift2 ModelExp.l_translate;                                                               (* 2791, 2921 *)
  laddm := lift2 ModelExp.l_convert;                                                                 (* 2827 *)
  evM := fun m i => read junk (bind m (fun e => ModelExp.m_evaluate e (rpt (o_pos I i))));            (* 2885 *)
  evL := fun l i => read junk (bind l (fun e => ModelExp.l_evaluate e (rpt (o_pos I i)))) |}.         (* 3187 *)

(** R = quadPoints - support_points, LaplaceKernel::kernels(R, D, s); the factor s, or D * normal
    (bem_fma.cc 889-913, 1226-1245) *)
Definition sep (I : oin) (i q : nat) : ModelKernel.vec := fun k =>
  match k with
  | 0 => (Q2R (px (o_qpos I q)) - Q2R (px (o_pos I i)))%R
  | 1 => (Q2R (py (o_qpos I q)) - Q2R (py (o_pos I i)))%R
  | _ => (Q2R (pz (o_qpos I q)) - Q2R (pz (o_pos I i)))%R
  end.
Definition code_kernel (I : oin) (ly : layer) (i q : nat) : R :=
  match ly with
  | Single => ModelKernel.kernels3_d (sep I i q)
  | Double n => (ModelKernel.kernels3_D (sep I i q) 0%nat * ModelExp.cx (n q) + ModelKernel.kernels3_D (sep I i q) 1%nat * ModelExp.cy (n q)
                 + ModelKernel.kernels3_D (sep I i q) 2%nat * ModelExp.cz (n q))%R
  end.
Definition code_kern (I : oin) (ly : layer) (shape : nat -> nat -> R) (JxW : nat -> R) (singular : nat -> nat -> nat -> R) : kern :=
  {| kd := code_kernel I ly; shp := shape; jxw := JxW; sing := singular |}.
