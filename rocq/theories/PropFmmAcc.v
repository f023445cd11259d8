(** * Properties of the fast multipole product with the program's expansions (C59). *)
From Coq Require Import QArith Qreals Reals List Lia Lra Arith Bool.
From Verif Require Import ModelOctree SpecOctree ModelFmm SpecFmm LibSum PropOctree PropFmm ModelFmmExp SpecFmmAcc ProofsFmmCover ProofsFmmFar ProofsOctFacts ProofsFmmGeo ProofsFmmAcc.
From Verif Require ModelExp ModelKernel ProofsExp3 ProofsAcc10.
Import ListNotations.
Local Open Scope R_scope.

(** ** C59 *)
(** For every mesh, density, schedule and partition: the value the FMM puts at an owned node differs
    from the direct quadrature by at most [far_error] times the total absolute density. [junk] is the
    value read from an object on which undefined behaviour happened. *)
Theorem C59_fmm_product_is_close_to_the_direct_product :
  forall I p ly junk shape JxW singular phi owned s i, let K := code_kern I ly shape JxW singular in
  wf_in I -> (0 < o_nqc I)%nat -> (p <= 10)%nat -> general_position I ly -> good_sched I (octree I) s -> (i < o_nd I)%nat -> owned i = true ->
  Rabs (fmm_product (code_eops I (octree I) p ly junk) I (octree I) K phi owned s i - direct_product I K phi (code_kernel I ly i) i)
  <= far_error ly p (smallest_side I) * suml (seq 0 (o_nq I)) (fun q => Rabs (density I K phi q)).
Proof. intros. apply (product_error I p ly junk K phi owned s i); auto. Qed.

(** It is one fixed matrix: the kernel it uses does not depend on the density, on the schedule, on the
    partition or on undefined values, and is within [far_error] of the true kernel at every point. *)
Theorem C59_fmm_product_is_a_fixed_matrix :
  forall I p ly i, wf_in I -> (0 < o_nqc I)%nat -> (p <= 10)%nat -> general_position I ly -> (i < o_nd I)%nat ->
  exists k, (forall q, (q < o_nq I)%nat -> Rabs (k q - code_kernel I ly i q) <= far_error ly p (smallest_side I)) /\
  (forall shape JxW singular phi owned s junk, let K := code_kern I ly shape JxW singular in good_sched I (octree I) s -> owned i = true ->
    fmm_product (code_eops I (octree I) p ly junk) I (octree I) K phi owned s i = direct_product I K phi k i).
Proof.
  intros I p ly i W Wq Lp GP Hi. destruct (leaf_of_node I W i Hi) as (b & Hb & Hib). destruct (parts I ly GP) as (P0 & P1). assert (RX : exact_arithmetic I) by (destruct GP as (_ & _ & _ & _ & _ & RX); exact RX).
  set (K0 := code_kern I ly (fun _ _ => 0) (fun _ => 0) (fun _ _ _ => 0)).
  assert (Wd : forall q, (q < o_nq I)%nat -> In (hd (Near 0) (ways I (octree I) i q)) (ways I (octree I) i q)).
  { intros q Hq. assert (L := ways_one I W i q Hi Hq). destruct (ways I (octree I) i q) as [|w0 [|]]; try discriminate. left; reflexivity. }
  exists (fun q => way_kernel (gf I p ly) (st_blocks (octree I)) K0 b (leafq I q) i q (hd (Near 0) (ways I (octree I) i q))). split.
  - intros q Lq. apply (way_error I W p ly GP K0 b (leafq I q) i q); auto.
  - intros shape JxW singular phi owned s junk K Hs Ho. rewrite (code_product I W p Lp ly junk); auto.
    + rewrite (C40_fmm_product_is_a_complete_sum I (gf I p ly) K phi owned s i b (leafq I) (fun q => hd (Near 0) (ways I (octree I) i q))); auto.
      * apply gf_lin.
      * intros q Lq. apply (leafq_facts I W); auto.
    + apply (normal_ok I ly GP).
    + intros b' q Hb' Hq'. destruct GP as (_ & G2 & _). specialize (G2 b' q Hb' Hq'). unfold cen. rewrite center_centre. exact G2.
    + intros b' j Hb' Hj'. destruct GP as (_ & _ & G3 & _). specialize (G3 b' j Hb' Hj'). unfold cen. rewrite center_centre. exact G3.
Qed.
(** so no value is read from an undefined object, and neither the order of the work items nor the
    other processes' rows matter *)
Theorem C59_result_is_defined_and_schedule_independent :
  forall I p ly i shape JxW singular phi owned owned' s s' junk junk', wf_in I -> (0 < o_nqc I)%nat -> (p <= 10)%nat -> general_position I ly -> (i < o_nd I)%nat ->
  let K := code_kern I ly shape JxW singular in
  good_sched I (octree I) s -> good_sched I (octree I) s' -> owned i = true -> owned' i = true ->
  fmm_product (code_eops I (octree I) p ly junk) I (octree I) K phi owned s i = fmm_product (code_eops I (octree I) p ly junk') I (octree I) K phi owned' s' i.
Proof.
  intros I p ly i shape JxW singular phi owned owned' s s' junk junk' W Wq Lp GP Hi K Hs Hs' Ho Ho'.
  destruct (C59_fmm_product_is_a_fixed_matrix I p ly i W Wq Lp GP Hi) as (k & _ & E). unfold K. rewrite !E by auto. reflexivity.
Qed.
(** the kernels of [code_kernel]: the fundamental solution 1/(4 pi r) and its derivative along the normal
    at the quadrature point, -(y-x).n/(4 pi r^3) *)
Theorem C59_the_kernels : forall I i q, let r := ModelExp.distance (rpt (o_qpos I q)) (rpt (o_pos I i)) in rpt (o_qpos I q) <> rpt (o_pos I i) ->
  code_kernel I Single i q = / (4 * PI * r) /\
  forall n, code_kernel I (Double n) i q =
    - ((Q2R (px (o_qpos I q)) - Q2R (px (o_pos I i))) * ModelExp.cx (n q) + (Q2R (py (o_qpos I q)) - Q2R (py (o_pos I i))) * ModelExp.cy (n q)
       + (Q2R (pz (o_qpos I q)) - Q2R (pz (o_pos I i))) * ModelExp.cz (n q)) / (4 * PI * r ^ 3).
Proof.
  intros I i q r N. assert (P0 := PI_neq0).
  assert (R0 : r <> 0). { unfold r. rewrite ProofsAcc10.distance_rho. apply ProofsExp3.rho_sub. auto. }
  assert (Nm : ModelKernel.norm 3 (sep I i q) = r).
  { unfold r, ModelKernel.norm, ModelExp.distance. f_equal. unfold ModelKernel.square, sep, ModelExp.square, ModelExp.psub, rpt. cbn. ring. }
  split.
  - unfold code_kernel, ModelKernel.kernels3_d. cbv zeta. rewrite Nm. field. auto.
  - intros n. unfold code_kernel, ModelKernel.kernels3_D. cbv zeta. rewrite Nm. cbn [sep]. field. auto.
Qed.

(** the example input of C31-C40 is in general position, for both layers *)
Lemma rpt_x p q : (~ px p == px q)%Q -> rpt p <> rpt q.
Proof. intros N E. apply N. apply eqR_Qeq. exact (f_equal ModelExp.cx E). Qed.
Lemma rpt_x' p q : (~ px p == px q)%Q -> ModelExp.cx (rpt p) <> ModelExp.cx (rpt q).
Proof. intros N E. apply N. apply eqR_Qeq. exact E. Qed.
Example C59_general_position_met : forall ly, (forall n, ly = Double n -> forall q, n q = ModelExp.Pt 1 0 0) -> general_position ex_oin ly.
Proof.
  assert (Q2 : forall q, (q < o_nq ex_oin)%nat -> q = 0%nat \/ q = 1%nat) by (intros q Lq; vm_compute in Lq; lia).
  intros ly Hn. split; [|split; [|split; [|split; [|split]]]].
  - intros q Lq a La. destruct (Q2 q Lq) as [-> | ->]; destruct a as [|[|[|a]]]; try lia; vm_compute; split; discriminate.
  - intros b q Hb Hq. assert (E : st_childless (octree ex_oin) = [5; 6]%nat) by (vm_compute; reflexivity). rewrite E in Hb. clear E.
    assert (X : (~ px (o_qpos ex_oin q) == px (centre (blk (octree ex_oin) b)))%Q).
    { destruct Hb as [<-|[<-|[]]]; vm_compute in Hq; destruct Hq as [<-|[]]; vm_compute; discriminate. }
    cbv zeta. clear Hn. destruct ly; [exact (rpt_x _ _ X)|left; exact (rpt_x' _ _ X)].
  - intros b i Hb Hi. assert (E : st_childless (octree ex_oin) = [5; 6]%nat) by (vm_compute; reflexivity). rewrite E in Hb. clear E. apply rpt_x.
    destruct Hb as [<-|[<-|[]]]; vm_compute in Hi; destruct Hi as [<-|[<-|[]]]; vm_compute; discriminate.
  - destruct ly as [|n]; [exact Logic.I|]. intros q _. rewrite (Hn n eq_refl q). cbn. ring.
  - unfold smallest_side. assert (E : (b_delta (blk (octree ex_oin) 0) == 22 # 10)%Q) by (vm_compute; reflexivity). rewrite (Qeq_eqR _ _ E). unfold Q2R. cbn. lra.
  - intros x. reflexivity.
Qed.
Example C59_nonvacuous : forall ly shape JxW singular phi junk, (forall n, ly = Double n -> forall q, n q = ModelExp.Pt 1 0 0) ->
  let K := code_kern ex_oin ly shape JxW singular in
  Rabs (fmm_product (code_eops ex_oin (octree ex_oin) 10 ly junk) ex_oin (octree ex_oin) K phi (fun _ => true) (seq_sched ex_oin) 0 - direct_product ex_oin K phi (code_kernel ex_oin ly 0) 0)
  <= far_error ly 10 (smallest_side ex_oin) * suml (seq 0 (o_nq ex_oin)) (fun q => Rabs (density ex_oin K phi q)).
Proof.
  intros ly shape JxW singular phi junk Hn. cbv zeta. apply C59_fmm_product_is_close_to_the_direct_product; auto.
  - apply ex_oin_wf.
  - cbn [ex_oin o_nqc o_nd]; try lia.
  - apply C59_general_position_met; auto.
  - apply seq_sched_good.
  - cbn; lia.
Qed.
