(** * The fast product with expansions in rounded arithmetic.

    Instance of the loops of ModelFmm (bem_fma.cc 1750-3284) in which the expansion objects are those of ModelFloatExp and
    ModelFloatExp2.  None is an object with a coefficient that is not finite (NaN or infinity): the routines never make it finite again.
    A value read from such an object is the arbitrary number [junk]. *)
From Coq Require Import QArith Qreals Reals List Arith Bool ZArith.
From Verif Require Import ModelLegendre ModelOctree ModelFmm ModelFmmExp ModelFloat ModelFloatExp ModelFloatExp2.
From Verif Require ModelExp.
Import ListNotations.
Local Open Scope R_scope.

Section FloatFmm.
  Variable M : fmath.
  Variable pow_i : Z -> R.
  Variables (I : oin) (st : ost) (p : nat) (ly : layer) (junk : R).
  (** blockCenter = GetPMin() + deltaHalf, deltaHalf(i) = delta/2 (bem_fma.cc 1826-1830, 2172-2176, 2622-2626), computed *)
  Definition fcoordinate (x d : Q) : R := @aadd (@f_arith (fm_ops M)) (Q2R x) (@adiv (@f_arith (fm_ops M)) (Q2R d) 2).
  Definition fblock_center (b : nat) : ModelExp.pt :=
    let B := getb (st_blocks st) b in
    ModelExp.Pt (fcoordinate (px (b_min B)) (b_delta B)) (fcoordinate (py (b_min B)) (b_delta B)) (fcoordinate (pz (b_min B)) (b_delta B)).
  (** Add(other, sol): an object that is not finite is not flagged zero, so it is skipped only for sol == 0 (multipole_expansion.cc 75-92) *)
  Definition fadd_scaled_nan (m m' : option ModelExp.expansion) (a : R) : option ModelExp.expansion :=
    bind m (fun e => match m' with Some e' => fm_add_scaled M e e' a | None => if Req_EM_T a 0 then Some e else None end).
  Definition float_eops : eops := {|
    ME := option ModelExp.expansion; LE := option ModelExp.expansion;
    mz := fun b => Some (ModelExp.fresh p (fblock_center b));                                          (* 2177-2180 *)
    msrc := fun m w q => bind m (fun e => match ly with
                                          | Single => fm_charge M e w (rpt (o_qpos I q))
                                          | Double n => fm_dipole M e w (rpt (o_qpos I q)) (n q) end);  (* 1880-1896 *)
    madd := lift2 (fm_translate M pow_i);                                                              (* 2475, 2491 *)
    maddc := fadd_scaled_nan;                                                                          (* 2268-2273 *)
    lz := fun b => Some (ModelExp.fresh p (fblock_center b));                                          (* 2628-2631 *)
    laddl := lift2 (fl_translate M pow_i);                                                             (* 2791, 2921 *)
    laddm := lift2 (fl_convert M pow_i);                                                               (* 2827 *)
    evM := fun m i => read junk (bind m (fun e => fm_evaluate M e (rpt (o_pos I i))));                  (* 2885 *)
    evL := fun l i => read junk (bind l (fun e => fl_evaluate M e (rpt (o_pos I i)))) |}.               (* 3187 *)
End FloatFmm.
