(** * Property theorems C89: the whole system in floating point, and what a run in floating point returns. *)
From Coq Require Import ZArith Reals List Arith Bool Permutation Lia Lra.
From Flocq Require Import Core.
From Verif Require Import LibSum ModelOctree ModelFmm SpecBit ProofsRnd ModelAssemble ModelRules ModelFloat SpecFloat ProofsFloat PropFloat.
From Verif Require ModelKernel.
From Verif Require Import ModelBem ProofsBem ModelBc ProofsBc PropBem ModelOwn SpecOwn PropOwn ModelSolve SpecSolve ProofsSolve PropSolve SpecRenumber PropRenumber PropRenumMesh ModelRun PropRun.
From Verif Require Import ModelResid PropInexact PropRunInexact ModelFloatSolve SpecFloatSolve.
Import ListNotations.
Local Open Scope R_scope.

Section Rows.
  Variable u : R.
  Variable F : flops.
  Hypothesis HF : relative u F.
  Notation A := (@f_arith F).
  Notation vv := (ProofsFloat.v u).
  Notation aP := (apx vv).
  Let VP : 0 <= vv := v_pos u F HF.
  Lemma le_v : u <= vv.
  Proof.
    pose proof HF as ((H0 & H1) & _). assert (P0 : 0 < / (1 - u)) by (apply Rinv_0_lt_compat; lra). unfold ProofsFloat.v. replace (/ (1 - u) - 1) with (u * / (1 - u)) by (field; lra).
    rewrite <- (Rmult_1_r u) at 1. apply Rmult_le_compat_l; auto. rewrite <- Rinv_1. apply Rinv_le_contravar; lra.
  Qed.
  Lemma e_exact k x : aP k 0 (Rabs x) x x.
  Proof. eapply (apx_weak vv VP); [| |apply apx_exact]; [lia|lra]. Qed.
  Lemma e_weak k l X Y x xh : (k <= l)%nat -> X <= Y -> aP k 0 X x xh -> aP l 0 Y x xh.
  Proof.
    intros Hk HX (A1 & A2 & A3). assert (G := p_ge1 vv VP k). assert (M := p_mono vv VP k l Hk). split; [lra|]. split; [lra|]. rewrite Rmult_0_r, Rplus_0_r in *.
    eapply Rle_trans; [apply A3|]. assert (X0 := Rabs_pos x). apply Rmult_le_compat; lra.
  Qed.
  Lemma e_up d k X x xh : aP k 0 X x xh -> aP (d + k) 0 X x xh.
  Proof. intros Hx. eapply e_weak; [| |exact Hx]; [lia|lra]. Qed.
  (** a product of two approximations *)
  Lemma e_mul k l X Y x y xh yh : aP k 0 X x xh -> aP l 0 Y y yh -> aP (S (k + l)) 0 (X * Y) (x * y) (@amul A xh yh).
  Proof.
    intros Hx Hy. assert (Sx := apx_size vv _ _ _ _ _ Hx). assert (Sy := apx_size vv _ _ _ _ _ Hy). destruct Hx as (_ & A2 & A3), Hy as (_ & B2 & B3).
    rewrite Rmult_0_r, Rplus_0_r in *. assert (X0 := Rabs_pos x). assert (Y0 := Rabs_pos y). assert (Gk := p_ge1 vv VP k). assert (Gl := p_ge1 vv VP l).
    split; [lra|]. split; [rewrite Rabs_mult; apply Rmult_le_compat; auto|]. rewrite Rmult_0_r, Rplus_0_r.
    pose proof HF as (_ & _ & _ & HM & _). assert (Q := HM xh yh). assert (Lv := le_v).
    assert (E1 : Rabs (xh * yh) <= (1 + vv) ^ k * X * ((1 + vv) ^ l * Y)) by (rewrite Rabs_mult; apply Rmult_le_compat; auto; apply Rabs_pos).
    assert (E2 : Rabs (xh * yh - x * y) <= ((1 + vv) ^ k - 1) * X * ((1 + vv) ^ l * Y) + X * (((1 + vv) ^ l - 1) * Y)).
    { replace (xh * yh - x * y) with ((xh - x) * yh + x * (yh - y)) by ring. eapply Rle_trans; [apply Rabs_triang|]. rewrite !Rabs_mult. apply Rplus_le_compat; apply Rmult_le_compat; auto; apply Rabs_pos. }
    replace (@amul A xh yh - x * y) with ((@amul A xh yh - xh * yh) + (xh * yh - x * y)) by ring. eapply Rle_trans; [apply Rabs_triang|].
    assert (E3 : u * Rabs (xh * yh) <= vv * ((1 + vv) ^ k * X * ((1 + vv) ^ l * Y))) by (apply Rmult_le_compat; auto; [pose proof HF as ((? & ?) & _); lra|apply Rabs_pos]).
    cbn [pow]. rewrite pow_add. set (a := (1 + vv) ^ k) in *. set (b := (1 + vv) ^ l) in *.
    replace (((1 + vv) * (a * b) - 1) * (X * Y)) with (vv * (a * X * (b * Y)) + ((a - 1) * X * (b * Y) + X * ((b - 1) * Y))) by ring. lra.
  Qed.
  Lemma e_add k X Y x y xh yh : aP k 0 X x xh -> aP k 0 Y y yh -> aP (S k) 0 (X + Y) (x + y) (@aadd A xh yh).
  Proof. apply (a_add u F HF). Qed.
  Lemma e_opp k X x xh : aP k 0 X x xh -> aP k 0 X (- x) (- xh).
  Proof. intros (A1 & A2 & A3). split; auto. split; [rewrite Rabs_Ropp; auto|]. replace (- xh - - x) with (- (xh - x)) by ring. rewrite Rabs_Ropp. auto. Qed.
  Lemma e_sub k X Y x y xh yh : aP k 0 X x xh -> aP k 0 Y y yh -> aP (S k) 0 (X + Y) (x - y) (@fsub F xh yh).
  Proof.
    intros Hx Hy. assert (Sx := apx_size vv _ _ _ _ _ Hx). assert (Sy := apx_size vv _ _ _ _ _ Hy). destruct Hx as (_ & A2 & A3), Hy as (_ & B2 & B3).
    rewrite Rmult_0_r, Rplus_0_r in *. assert (Lv := le_v). pose proof HF as ((U0 & _) & _ & HS & _). split; [lra|]. split; [eapply Rle_trans; [apply Rabs_triang|]; rewrite Rabs_Ropp; lra|]. rewrite Rmult_0_r, Rplus_0_r.
    replace (fsub xh yh - (x - y)) with ((fsub xh yh - (xh - yh)) + ((xh - x) + - (yh - y))) by ring.
    eapply Rle_trans; [apply Rabs_triang|]. eapply Rle_trans; [apply Rplus_le_compat; [apply HS|apply Rabs_triang]|]. rewrite Rabs_Ropp.
    assert (T : u * Rabs (xh - yh) <= vv * ((1 + vv) ^ k * X + (1 + vv) ^ k * Y)).
    { apply Rmult_le_compat; auto; [apply Rabs_pos|]. eapply Rle_trans; [apply Rabs_triang|]. rewrite Rabs_Ropp. lra. }
    cbn [pow]. set (q := (1 + vv) ^ k) in *. replace (((1 + vv) * q - 1) * (X + Y)) with ((q - 1) * X + (q - 1) * Y + vv * (q * X + q * Y)) by ring. lra.
  Qed.
  (** a scaled unknown is one rounding away from the masked unknown *)
  Lemma e_times x w : aP 1 0 (Rabs (x * w)) (x * w) (@amul A x w).
  Proof. assert (Q := e_mul 0 0 _ _ _ _ _ _ (e_exact 0 x) (e_exact 0 w)). rewrite <- Rabs_mult in Q. exact Q. Qed.

  Variables (p : problem) (sub : nat -> nat) (np : nat) (cols : nat -> list nat) (N M : nat).
  Hypothesis W : well_numbered (numbers p sub np).
  Hypothesis HR : float_run p sub np cols N M.
  Notation n := (p_n p).
  Notation Sy := (run_system p sub np).
  Notation K := (31 + N + M + p_n p)%nat.
  Definition prod (m : matrix) (v : vec) (i : nat) : R := match m with neumann_matrix => s_N Sy v i | dirichlet_matrix => s_D Sy v i end.
  Lemma prod_suml m v i : prod m v i = suml (seq 0 n) (fun d => stored (p_dim p) m (run_mesh p sub np) (run_node p sub np) (p_regular p) (p_singular p) (cpu_set (numbers p sub np) (owner_of p sub np i)) i d * v d).
  Proof.
    unfold prod. cbn [s_N s_D run_system]. destruct m; unfold stored_vmult, direct_vmult, stored; cbn [aadd amul exact_arith]; rewrite fold_left_plus, Rplus_0_l; reflexivity.
  Qed.
  Lemma entry_size m i d : (i < n)%nat -> Rabs (stored (p_dim p) m (run_mesh p sub np) (run_node p sub np) (p_regular p) (p_singular p) (cpu_set (numbers p sub np) (owner_of p sub np i)) i d) <=
     size_entry (p_dim p) m (run_mesh p sub np) (run_node p sub np) (p_regular p) (p_singular p) (cpu_set (numbers p sub np) (owner_of p sub np i)) i d.
  Proof.
    intros Hi. destruct HR as (HD & N1 & N2 & HP & _).
    destruct (f_entry u F HF (p_dim p) HD m (run_mesh p sub np) (run_node p sub np) (p_regular p) (p_singular p) (cpu_set (numbers p sub np) (owner_of p sub np i)) N (conj N1 N2) HP i d Hi (u_owns p sub np W i Hi)) as (_ & Q & _). exact Q.
  Qed.
  Lemma e_product m v vh i : (i < n)%nat -> (forall d, aP 1 0 (Rabs (v d)) (v d) (vh d)) -> aP (S K) 0 (row_sizes p sub np m v i) (prod m v i) (fproduct p sub np cols m vh i).
  Proof.
    intros Hi Hv. destruct HR as (HD & N1 & N2 & HP & HM & HC).
    assert (Q := C80_product u F (p_dim p) m (run_mesh p sub np) (run_node p sub np) (p_regular p) (p_singular p) (cpu_set (numbers p sub np) (owner_of p sub np i)) N M (cols i) vh i HD HF N1 N2 HP Hi (u_owns p sub np W i Hi) (HC i Hi) HM).
    cbn [o_nd run_mesh] in Q. fold (fproduct p sub np cols m vh i) in Q.
    assert (EP : stored_vmult (p_dim p) m (run_mesh p sub np) (run_node p sub np) (p_regular p) (p_singular p) (cpu_set (numbers p sub np) (owner_of p sub np i)) vh i = prod m vh i) by (unfold prod; cbn [s_N s_D run_system]; destruct m; reflexivity).
    rewrite EP in Q. change (suml (seq 0 n) _) with (row_sizes p sub np m vh i) in Q. rewrite <- (v_gam u K) in Q.
    assert (SE : forall d, 0 <= size_entry (p_dim p) m (run_mesh p sub np) (run_node p sub np) (p_regular p) (p_singular p) (cpu_set (numbers p sub np) (owner_of p sub np i)) i d) by (intros d; eapply Rle_trans; [apply Rabs_pos|apply entry_size; auto]).
    assert (V1 : forall d, Rabs (vh d) <= (1 + vv) * Rabs (v d)) by (intros d; assert (B := apx_size vv _ _ _ _ _ (Hv d)); rewrite Rmult_0_r, Rplus_0_r in B; simpl pow in B; rewrite Rmult_1_r in B; exact B).
    assert (V2 : forall d, Rabs (vh d - v d) <= vv * Rabs (v d)) by (intros d; destruct (Hv d) as (_ & _ & B); rewrite Rmult_0_r, Rplus_0_r in B; simpl pow in B; lra).
    assert (R1 : row_sizes p sub np m vh i <= (1 + vv) * row_sizes p sub np m v i).
    { unfold row_sizes. rewrite <- suml_scal. apply suml_le. intros d _. rewrite (Rmult_comm (1 + vv)), Rmult_assoc. apply Rmult_le_compat_l; auto. rewrite Rmult_comm. apply V1. }
    assert (R2 : Rabs (prod m vh i - prod m v i) <= vv * row_sizes p sub np m v i).
    { rewrite !prod_suml. unfold row_sizes. rewrite <- suml_scal.
      match goal with |- Rabs (suml ?l ?f - suml ?l ?g) <= _ => replace (suml l f - suml l g) with (suml l (fun d => f d - g d)) end.
      2:{ unfold Rminus. rewrite suml_plus. f_equal. transitivity (-1 * suml (seq 0 n) (fun d => stored (p_dim p) m (run_mesh p sub np) (run_node p sub np) (p_regular p) (p_singular p) (cpu_set (numbers p sub np) (owner_of p sub np i)) i d * v d)); [|ring]. rewrite <- suml_scal. apply suml_ext. intros; ring. }
      eapply Rle_trans; [apply suml_abs|]. apply suml_le. intros d _. rewrite <- Rmult_minus_distr_l, Rabs_mult, (Rmult_comm vv), Rmult_assoc. apply Rmult_le_compat; try apply Rabs_pos; [apply entry_size; auto|]. rewrite Rmult_comm. apply V2. }
    assert (R3 : Rabs (prod m v i) <= row_sizes p sub np m v i).
    { rewrite prod_suml. eapply Rle_trans; [apply suml_abs|]. apply suml_le. intros d _. rewrite Rabs_mult. apply Rmult_le_compat_r; [apply Rabs_pos|apply entry_size; auto]. }
    split; [lra|]. split; [exact R3|]. rewrite Rmult_0_r, Rplus_0_r.
    replace (fproduct p sub np cols m vh i - prod m v i) with ((fproduct p sub np cols m vh i - prod m vh i) + (prod m vh i - prod m v i)) by ring.
    eapply Rle_trans; [apply Rabs_triang|]. assert (G := p_ge1 vv VP K).
    assert (E : ((1 + vv) ^ K - 1) * row_sizes p sub np m vh i <= ((1 + vv) ^ K - 1) * ((1 + vv) * row_sizes p sub np m v i)) by (apply Rmult_le_compat_l; lra).
    change ((1 + vv) ^ S K) with ((1 + vv) * (1 + vv) ^ K). set (q := (1 + vv) ^ K) in *. set (X := row_sizes p sub np m v i) in *.
    replace (((1 + vv) * q - 1) * X) with ((q - 1) * ((1 + vv) * X) + vv * X) by ring. lra.
  Qed.
  Lemma e_alpha i : (i < n)%nat -> aP (S K) 0 (row_sizes p sub np neumann_matrix (fun _ => 1) i) (- prod neumann_matrix (fun _ => 1) i) (falpha p sub np cols i).
  Proof.
    intros Hi. assert (Q := e_product neumann_matrix (fun _ => -1) (fun _ => @aadd A 0 (-1)) i Hi).
    assert (E1 : row_sizes p sub np neumann_matrix (fun _ => -1) i = row_sizes p sub np neumann_matrix (fun _ => 1) i) by (unfold row_sizes; apply suml_ext; intros; f_equal; replace (-1) with (- (1)) by ring; apply Rabs_Ropp).
    assert (E2 : prod neumann_matrix (fun _ => -1) i = - prod neumann_matrix (fun _ => 1) i).
    { rewrite !prod_suml. match goal with |- suml ?l ?f = - suml ?l ?g => replace (- suml l g) with (-1 * suml l g) by ring end. rewrite <- suml_scal. apply suml_ext. intros; ring. }
    rewrite E1, E2 in Q. apply Q. intros _. assert (T := e_add 0 _ _ _ _ _ _ (e_exact 0 0) (e_exact 0 (-1))). rewrite Rabs_R0, !Rplus_0_l in T. exact T.
  Qed.
  Notation masked := (masked p sub np).
  Lemma e_neu v d : aP 1 0 (Rabs (masked false v d)) (masked false v d) (fscale v (fneu p sub np) d).
  Proof. unfold masked, fscale, fneu. destruct (s_dir Sy d); cbn [Bool.eqb]; [assert (Q := e_times (v d) 0); rewrite Rmult_0_r in Q|assert (Q := e_times (v d) 1); rewrite Rmult_1_r in Q]; exact Q. Qed.
  Lemma e_dir v d : aP 1 0 (Rabs (masked true v d)) (masked true v d) (fscale v (fdir p sub np) d).
  Proof. unfold masked, fscale, fdir. destruct (s_dir Sy d); cbn [Bool.eqb]; [assert (Q := e_times (v d) 1); rewrite Rmult_1_r in Q|assert (Q := e_times (v d) 0); rewrite Rmult_0_r in Q]; exact Q. Qed.
  Lemma times_m1 k X x xh : aP k 0 X x xh -> aP (S k) 0 X (- x) (@amul A xh (-1)).
  Proof. intros Hx. assert (Q := a_mul u F HF k X x xh (-1) Hx). replace (Rabs (-1)) with 1 in Q by (replace (-1) with (- (1)) by ring; rewrite Rabs_Ropp, Rabs_R1; auto). rewrite Rmult_1_r in Q. replace (x * -1) with (- x) in Q by ring. exact Q. Qed.
  Definition eqn (phi dphi : vec) (i : nat) : R := - prod dirichlet_matrix dphi i + prod neumann_matrix phi i + phi i * - prod neumann_matrix (fun _ => 1) i.
  Lemma e_vmult src i : (i < n)%nat -> aP (6 + K) 0 (equation_sizes p sub np (masked false src) (masked true src) i) (eqn (masked false src) (masked true src) i) (fvmult p sub np cols src i).
  Proof.
    intros Hi. unfold fvmult, eqn, equation_sizes.
    assert (D := e_product dirichlet_matrix (masked true src) (fscale src (fdir p sub np)) i Hi (e_dir src)). assert (Nn := e_product neumann_matrix (masked false src) (fscale src (fneu p sub np)) i Hi (e_neu src)).
    assert (D1 := times_m1 _ _ _ _ D). assert (S1 := e_add _ _ _ _ _ _ _ D1 (e_weak _ (S (S K)) _ _ _ _ (le_S _ _ (le_n _)) (Rle_refl _) Nn)).
    assert (T := e_mul _ _ _ _ _ _ _ _ (e_neu src i) (e_alpha i Hi)).
    assert (R0 := e_add _ _ _ _ _ _ _ S1 T).
    eapply e_weak; [| |exact R0]; [lia|lra].
  Qed.
  Lemma e_rhs src i : (i < n)%nat -> aP (6 + K) 0 (equation_sizes p sub np (masked true src) (masked false src) i) (- eqn (masked true src) (masked false src) i) (frhs p sub np cols src i).
  Proof.
    intros Hi. unfold frhs, eqn, equation_sizes.
    assert (D := e_product dirichlet_matrix (masked false src) (fscale src (fneu p sub np)) i Hi (e_neu src)). assert (Nn := e_product neumann_matrix (masked true src) (fscale src (fdir p sub np)) i Hi (e_dir src)).
    assert (T := e_mul _ _ _ _ _ _ _ _ (e_dir src i) (e_alpha i Hi)).
    assert (S1 := e_add _ _ _ _ _ _ _ (e_up 2 _ _ _ _ Nn) T). assert (S2 := times_m1 _ _ _ _ S1).
    assert (R0 := e_add _ _ _ _ _ _ _ S2 (e_up 4 _ _ _ _ D)).
    match type of R0 with aP _ _ ?X ?x _ => match goal with |- aP _ _ ?Y ?y _ => replace Y with X by ring; replace y with x by ring end end.
    eapply e_weak; [| |exact R0]; [lia|lra].
  Qed.
  Lemma vmult_eqn src i : s_have_dirichlet Sy = true -> (i < n)%nat -> vmult (operator Sy) src i = eqn (masked false src) (masked true src) i /\ compute_rhs (operator Sy) (fun _ => 0) src i = - eqn (masked true src) (masked false src) i.
  Proof.
    intros Hh Hi. assert (LN := u_linear p sub np neumann_matrix). assert (LD := u_linear p sub np dirichlet_matrix).
    assert (EA : compute_alpha (s_N Sy) fresh_ones i = - s_N Sy (fun _ => 1) i).
    { unfold compute_alpha. rewrite (lin_comb n (s_N Sy) (fun _ => 1) (fun _ => 1) fresh_ones (-1) 0 i LN Hi) by (intros; unfold fresh_ones, shift; lra). lra. }
    assert (V := vmult_dir (operator Sy) src i Hh). assert (Rr := rhs_eq (operator Sy) src i). cbn [operator b_N b_D b_alpha b_n b_dir b_neu] in V, Rr. fold (operator Sy) in V, Rr.
    rewrite EA in V, Rr. unfold eqn, prod.
    assert (M1 : forall k, masked true src k = scale src (fun i => if s_dir Sy i then 1 else 0) k) by (intros k; unfold masked, scale; destruct (s_dir Sy k); cbn [Bool.eqb]; ring).
    assert (M2 : forall k, masked false src k = scale src (fun i => if s_dir Sy i then 0 else 1) k) by (intros k; unfold masked, scale; destruct (s_dir Sy k); cbn [Bool.eqb]; ring).
    assert (X : forall f g, linear_op n f -> (forall k, masked g src k = scale src (fun i => if Bool.eqb (s_dir Sy i) g then 1 else 0) k) -> f (masked g src) i = f (scale src (fun i => if Bool.eqb (s_dir Sy i) g then 1 else 0)) i).
    { intros f g Lf E. rewrite (lin_comb n f (scale src (fun i => if Bool.eqb (s_dir Sy i) g then 1 else 0)) (scale src (fun i => if Bool.eqb (s_dir Sy i) g then 1 else 0)) (masked g src) 1 0 i Lf Hi); [ring|]. intros k _. rewrite E. ring. }
    assert (G1 : (fun i => if Bool.eqb (s_dir Sy i) true then 1 else 0) = (fun i => if s_dir Sy i then 1 else 0)) by (apply FunctionalExtensionality.functional_extensionality; intros k; destruct (s_dir Sy k); reflexivity).
    assert (G2 : (fun i => if Bool.eqb (s_dir Sy i) false then 1 else 0) = (fun i => if s_dir Sy i then 0 else 1)) by (apply FunctionalExtensionality.functional_extensionality; intros k; destruct (s_dir Sy k); reflexivity).
    assert (X1 := fun f L => X f true L (fun k => eq_trans (M1 k) (f_equal (fun w => scale src w k) (eq_sym G1)))). assert (X2 := fun f L => X f false L (fun k => eq_trans (M2 k) (f_equal (fun w => scale src w k) (eq_sym G2)))).
    rewrite (X1 (s_N Sy) LN), (X2 (s_N Sy) LN), (X1 (s_D Sy) LD), (X2 (s_D Sy) LD), M1, M2, G1, G2. rewrite V, Rr. split; unfold scale; ring.
  Qed.
  (** an equation row *)
  Lemma e_row sol i : s_have_dirichlet Sy = true -> imposed Sy (run_rhs p sub np) (run_phi0 p sub np) (run_dphi0 p sub np) -> (i < n)%nat ->
    Rabs (compute_rhs (operator Sy) (fun _ => 0) (run_rhs p sub np) i - vmult (operator Sy) sol i - (frhs p sub np cols (run_rhs p sub np) i - fvmult p sub np cols sol i)) <=
    gam u (37 + N + M + n) * equation_sizes p sub np (run_phi p sub np sol) (run_dphi p sub np sol) i.
  Proof.
    intros Hh Him Hi. destruct (vmult_eqn sol i Hh Hi) as (-> & _). destruct (vmult_eqn (run_rhs p sub np) i Hh Hi) as (_ & ->).
    destruct (e_vmult sol i Hi) as (_ & _ & Q1). destruct (e_rhs (run_rhs p sub np) i Hi) as (_ & _ & Q2). rewrite Rmult_0_r, Rplus_0_r, v_gam in Q1, Q2.
    change (6 + K)%nat with (37 + N + M + n)%nat in Q1, Q2. set (g := gam u (37 + N + M + n)) in *.
    assert (ES : equation_sizes p sub np (run_phi p sub np sol) (run_dphi p sub np sol) i = equation_sizes p sub np (masked true (run_rhs p sub np)) (masked false (run_rhs p sub np)) i + equation_sizes p sub np (masked false sol) (masked true sol) i).
    { assert (Ph : forall k, (k < n)%nat -> Rabs (run_phi p sub np sol k) = Rabs (masked true (run_rhs p sub np) k) + Rabs (masked false sol k)).
      { intros k Hk. unfold run_phi. rewrite (proj1 (solved_at Sy (run_phi0 p sub np) (run_dphi0 p sub np) sol k)). specialize (Him k Hk). unfold masked. destruct (s_dir Sy k); cbn [Bool.eqb]; rewrite Rabs_R0; [rewrite Him|]; ring. }
      assert (Dh : forall k, (k < n)%nat -> Rabs (run_dphi p sub np sol k) = Rabs (masked false (run_rhs p sub np) k) + Rabs (masked true sol k)).
      { intros k Hk. unfold run_dphi. rewrite (proj2 (solved_at Sy (run_phi0 p sub np) (run_dphi0 p sub np) sol k)). specialize (Him k Hk). unfold masked. destruct (s_dir Sy k); cbn [Bool.eqb]; rewrite Rabs_R0; [|rewrite Him]; ring. }
      assert (Rs : forall m v a b, (forall k, (k < n)%nat -> Rabs (v k) = Rabs (a k) + Rabs (b k)) -> row_sizes p sub np m v i = row_sizes p sub np m a i + row_sizes p sub np m b i).
      { intros m v a b E. unfold row_sizes. rewrite <- suml_plus. apply suml_ext. intros k Hk. apply in_seq in Hk. rewrite E by lia. ring. }
      unfold equation_sizes. rewrite (Rs _ _ _ _ Ph), (Rs _ _ _ _ Dh), (Ph i Hi). ring. }
    rewrite ES. match goal with |- Rabs (- ?a - ?b - (?fa - ?fb)) <= _ => replace (- a - b - (fa - fb)) with (- (fa - - a) + (fb - b)) by ring end.
    eapply Rle_trans; [apply Rabs_triang|]. rewrite Rabs_Ropp. lra.
  Qed.
  (** a constrained row *)
  Lemma e_line src (es : list (nat * R)) : forall k a ah X, (1 <= k)%nat -> aP k 0 X a ah ->
    aP (k + length es) 0 (X + suml es (fun e => Rabs (snd e * src (fst e)))) (a - suml es (fun e => snd e * src (fst e))) (fold_left (fun d e => @fsub F d (@amul A (snd e) (src (fst e)))) es ah).
  Proof.
    induction es as [|e es IH]; intros k a ah X Hk Ha; unfold suml; cbn [length fold_left map fold_right].
    - rewrite Rminus_0_r, Rplus_0_r, Nat.add_0_r. exact Ha.
    - assert (E1 : aP k 0 (Rabs (snd e * src (fst e))) (snd e * src (fst e)) (@amul A (snd e) (src (fst e)))) by (eapply e_weak; [| |apply e_times]; [lia|lra]). assert (T := e_sub _ _ _ _ _ _ _ Ha E1).
      assert (Q := IH (S k) _ _ _ (le_S _ _ Hk) T). unfold suml in Q.
      match type of Q with aP _ _ ?Y ?y _ => match goal with |- aP _ _ ?Z ?z _ => replace Z with Y by ring; replace z with y by ring end end.
      eapply e_weak; [| |exact Q]; [lia|lra].
  Qed.
  Lemma e_constrain d src l i : aP (3 + length (l_entries l)) 0 (2 * Rabs d + Rabs (src i) + suml (l_entries l) (fun e => Rabs (snd e * src (fst e))))
    (src i - suml (l_entries l) (fun e => snd e * src (fst e))) (fconstrain d src l i).
  Proof.
    unfold fconstrain. assert (T := e_add _ _ _ _ _ _ _ (e_exact 1 d) (e_sub _ _ _ _ _ _ _ (e_exact 0 (src i)) (e_exact 0 d))).
    assert (Q := e_line src (l_entries l) 2 _ _ _ (le_S _ _ (le_n 1)) T).
    match type of Q with aP _ _ ?Y ?y _ => match goal with |- aP _ _ ?Z ?z _ => replace Z with Y by ring; replace z with y by ring end end.
    eapply e_weak; [| |exact Q]; [lia|lra].
  Qed.
End Rows.

(** The operator and the right hand side, row by row. *)
Theorem C89_operator : forall u F p sub np cols N M src i, relative u F -> well_numbered (numbers p sub np) -> fine_problem p -> float_run p sub np cols N M -> (i < p_n p)%nat ->
  Rabs (fvmult p sub np cols src i - vmult (operator (run_system p sub np)) src i) <= gam u (37 + N + M + p_n p) * equation_sizes p sub np (masked p sub np false src) (masked p sub np true src) i /\
  Rabs (frhs p sub np cols src i - compute_rhs (operator (run_system p sub np)) (fun _ => 0) src i) <= gam u (37 + N + M + p_n p) * equation_sizes p sub np (masked p sub np true src) (masked p sub np false src) i.
Proof.
  intros u F p sub np cols N M src i HF W Fp HR Hi. destruct (vmult_eqn p sub np src i (u_have p sub np W (fp_some p Fp)) Hi) as (-> & ->).
  destruct (e_vmult u F HF p sub np cols N M W HR src i Hi) as (_ & _ & Q1). destruct (e_rhs u F HF p sub np cols N M W HR src i Hi) as (_ & _ & Q2).
  rewrite Rmult_0_r, Rplus_0_r, v_gam in Q1, Q2. split; [exact Q1|exact Q2].
Qed.
(** alpha *)
Theorem C89_alpha : forall u F p sub np cols N M i, relative u F -> well_numbered (numbers p sub np) -> float_run p sub np cols N M -> (i < p_n p)%nat ->
  Rabs (falpha p sub np cols i - b_alpha (operator (run_system p sub np)) i) <= gam u (32 + N + M + p_n p) * row_sizes p sub np neumann_matrix (fun _ => 1) i.
Proof.
  intros u F p sub np cols N M i HF W HR Hi. destruct (e_alpha u F HF p sub np cols N M W HR i Hi) as (_ & _ & Q). rewrite Rmult_0_r, Rplus_0_r, v_gam in Q.
  cbn [operator b_alpha]. assert (EA : compute_alpha (s_N (run_system p sub np)) fresh_ones i = - s_N (run_system p sub np) (fun _ => 1) i).
  { unfold compute_alpha. rewrite (lin_comb (p_n p) (s_N (run_system p sub np)) (fun _ => 1) (fun _ => 1) fresh_ones (-1) 0 i (u_linear p sub np neumann_matrix) Hi) by (intros; unfold fresh_ones, shift; lra). lra. }
  rewrite EA. exact Q.
Qed.
(** The integral equation: if the program computes both sides of a row up to e, the values handed back satisfy the
    integral equation (in exact arithmetic) up to e and the rounding errors. *)
Theorem C89_integral_equation : forall u F p sub np cols N M sol i e, relative u F -> well_numbered (numbers p sub np) -> fine_problem p -> float_run p sub np cols N M -> (i < p_n p)%nat ->
  Rabs (frhs p sub np cols (run_rhs p sub np) i - fvmult p sub np cols sol i) <= e ->
  let S := run_system p sub np in let phi := run_phi p sub np sol in let dphi := run_dphi p sub np sol in
  Rabs (s_N S phi i - phi i * s_N S (fun _ => 1) i - s_D S dphi i) <= e + gam u (37 + N + M + p_n p) * equation_sizes p sub np phi dphi i.
Proof.
  intros u F p sub np cols N M sol i e HF W Fp HR Hi He S phi dphi.
  assert (Hh := u_have p sub np W (fp_some p Fp)). assert (Him := u_imposed p sub np W (fp_kind p Fp)).
  assert (Q := e_row u F HF p sub np cols N M W HR sol i Hh Him Hi).
  rewrite (equation_residual (run_system p sub np) (run_rhs p sub np) (run_phi0 p sub np) (run_dphi0 p sub np) sol i Hh (u_linear p sub np neumann_matrix) (u_linear p sub np dirichlet_matrix) Him Hi) in Q.
  change (solved_phi (run_system p sub np) (run_phi0 p sub np) sol) with phi in Q. change (solved_dphi (run_system p sub np) (run_dphi0 p sub np) sol) with dphi in Q. fold phi dphi in Q. fold S in Q.
  set (a := s_D S dphi i) in *. set (b := s_N S phi i - phi i * s_N S (fun _ => 1) i) in *. set (f := frhs p sub np cols (run_rhs p sub np) i - fvmult p sub np cols sol i) in *.
  replace (b - a) with (- (a - b - f) + - f) by ring. eapply Rle_trans; [apply Rabs_triang|]. rewrite !Rabs_Ropp. lra.
Qed.
(** Every row of the system handed to the solver, constrained or not. *)
Theorem C89_rows : forall u F p sub np cols N M c sol r i, relative u F -> well_numbered (numbers p sub np) -> fine_problem p -> float_run p sub np cols N M -> (i < p_n p)%nat ->
  all_constraints (run_system p sub np) (run_rhs p sub np) = Some c -> residual (run_system p sub np) (owned_sets p sub np) (run_rhs p sub np) sol i = Some r ->
  exists b, fco_rhs p sub np cols c (run_rhs p sub np) i = Some b /\ Rabs (r - (b - fco_vmult p sub np cols c sol i)) <= row_rounding u p sub np cols N M c sol i.
Proof.
  intros u F p sub np cols N M c sol r i HF W Fp HR Hi Hc Hr.
  destruct (merge (s_n (run_system p sub np)) (node_constraints (run_system p sub np) (run_rhs p sub np)) (s_hanging (run_system p sub np))) as [c0|] eqn:Hm; [|unfold all_constraints in Hc; rewrite Hm in Hc; discriminate].
  assert (Ec : s_close (run_system p sub np) c0 = c) by (unfold all_constraints in Hc; rewrite Hm in Hc; congruence).
  rewrite (residual_row (run_system p sub np) (owned_sets p sub np) (run_rhs p sub np) sol c0 i (u_partition p sub np W) Hi Hm), Ec in Hr.
  unfold fco_rhs, fco_vmult, row_rounding. destruct (c i) as [l|].
  - destruct (l_inhom l) as [v|]; [|discriminate]. injection Hr as <-. exists v. split; auto.
    destruct (e_constrain u F HF (fvmult p sub np cols sol i) sol l i) as (_ & _ & Q). rewrite Rmult_0_r, Rplus_0_r, v_gam in Q.
    match goal with |- Rabs (v - ?x - (v - ?y)) <= _ => replace (v - x - (v - y)) with (y - x) by ring end. exact Q.
  - injection Hr as <-. exists (frhs p sub np cols (run_rhs p sub np) i). split; auto.
    exact (e_row u F HF p sub np cols N M W HR sol i (u_have p sub np W (fp_some p Fp)) (u_imposed p sub np W (fp_kind p Fp)) Hi).
Qed.
(** What a run in floating point hands back when the system, as it computes it, holds up to eps: near the answer of any exact run. *)
Theorem C89_run_in_floating_point : forall u F p sub np cols N M sub' np' sol sol' c K Wt eps rho, relative u F -> float_run p sub np cols N M ->
  well_numbered (numbers p sub np) -> well_numbered (numbers p sub' np') -> fine_problem p -> closing p sub np -> closing p sub' np' ->
  all_constraints (run_system p sub np) (run_rhs p sub np) = Some c ->
  (forall i, (i < p_n p)%nat -> exists b, fco_rhs p sub np cols c (run_rhs p sub np) i = Some b /\ Rabs (b - fco_vmult p sub np cols c sol i) <= eps /\ row_rounding u p sub np cols N M c sol i <= rho) ->
  run_solves p sub' np' sol' -> stable (run_system p sub np) (run_rhs p sub np) K -> fully_closed p sub np -> weights_at_most p sub np Wt -> 0 <= Wt ->
  forall j, (j < p_n p)%nat ->
    Rabs (run_phi p sub np sol (o2s (numbers p sub np) j) - run_phi p sub' np' sol' (o2s (numbers p sub' np') j)) <= K * ((1 + Wt) * (eps + rho)) /\
    Rabs (run_dphi p sub np sol (o2s (numbers p sub np) j) - run_dphi p sub' np' sol' (o2s (numbers p sub' np') j)) <= K * ((1 + Wt) * (eps + rho)).
Proof.
  intros u F p sub np cols N M sub' np' sol sol' c K Wt eps rho HF HR W W' Fp Cl Cl' Hc Hrow Hs' St Rs Hw W0.
  destruct (merge (s_n (run_system p sub np)) (node_constraints (run_system p sub np) (run_rhs p sub np)) (s_hanging (run_system p sub np))) as [c0|] eqn:Hm; [|unfold all_constraints in Hc; rewrite Hm in Hc; discriminate].
  assert (Ec : s_close (run_system p sub np) c0 = c) by (unfold all_constraints in Hc; rewrite Hm in Hc; congruence).
  set (r := fun i => match residual (run_system p sub np) (owned_sets p sub np) (run_rhs p sub np) sol i with Some v => v | None => 0 end).
  assert (Hr : forall i, (i < p_n p)%nat -> residual (run_system p sub np) (owned_sets p sub np) (run_rhs p sub np) sol i = Some (r i)).
  { intros i Hi. unfold r. destruct (Hrow i Hi) as (b & Hb & _). unfold fco_rhs in Hb.
    rewrite (residual_row (run_system p sub np) (owned_sets p sub np) (run_rhs p sub np) sol c0 i (u_partition p sub np W) Hi Hm), Ec.
    destruct (c i) as [l|]; [rewrite Hb; reflexivity|reflexivity]. }
  refine (C75_direct_run_stopped_early p sub np sub' np' sol sol' r K Wt (eps + rho) W W' Fp Cl Cl' Hr _ Hs' St Rs Hw W0).
  intros i Hi. destruct (Hrow i Hi) as (b & Hb & He & Hrho).
  destruct (C89_rows u F p sub np cols N M c sol (r i) i HF W Fp HR Hi Hc (Hr i Hi)) as (b' & Hb' & Q). assert (b' = b) by congruence. subst b'.
  replace (r i) with ((r i - (b - fco_vmult p sub np cols c sol i)) + (b - fco_vmult p sub np cols c sol i)) by ring. eapply Rle_trans; [apply Rabs_triang|]. lra.
Qed.
(** The constrained rows: the row of the matrix is added and subtracted again, so a constraint whose unknowns are
    smaller than 2^-53 of that row disappears. *)
Lemma flx_absorbs : flx (1 - IZR (2 ^ 60)) = - IZR (2 ^ 60).
Proof.
  unfold flx, round, F2R, scaled_mantissa, cexp, FLX_exp. set (x := 1 - IZR (2 ^ 60)).
  assert (B59 : bpow radix2 59 = IZR (2 ^ 59)) by reflexivity. assert (B60 : bpow radix2 60 = IZR (2 ^ 60)) by reflexivity.
  assert (X : Rabs x = IZR (2 ^ 60 - 1)) by (unfold x; rewrite Rabs_minus_sym, Rabs_pos_eq; [rewrite minus_IZR; reflexivity|apply Rle_0_minus, IZR_le; lia]).
  assert (Mg : mag radix2 x = 60%Z :> Z).
  { apply mag_unique. rewrite X. change (60 - 1)%Z with 59%Z. rewrite B59, B60. split; [apply IZR_le; lia|apply IZR_lt; lia]. }
  rewrite Mg. change (60 - 53)%Z with 7%Z. change (- (7))%Z with (-7)%Z.
  assert (E7 : bpow radix2 7 = 128) by (cbn; lra). assert (Em7 : bpow radix2 (-7) = / 128) by (cbn; lra). rewrite Em7.
  assert (Z0 : ZnearestE (x * / 128) = (- 2 ^ 53)%Z).
  { apply Znearest_imp. assert (E : x * / 128 - IZR (- 2 ^ 53) = / 128).
    { unfold x. assert (P60 : IZR (2 ^ 60) = 128 * IZR (2 ^ 53)) by (rewrite <- mult_IZR; reflexivity). rewrite P60, opp_IZR. field. }
    rewrite E, Rabs_pos_eq; lra. }
  rewrite Z0. unfold Defs.F2R. cbn [Defs.Fnum Defs.Fexp]. rewrite E7, opp_IZR. assert (P60 : IZR (2 ^ 60) = 128 * IZR (2 ^ 53)) by (rewrite <- mult_IZR; reflexivity). rewrite P60. ring.
Qed.
Theorem C89_constraints_are_kept_refuted : exists d i l src src', l_entries l = [] /\
  src i - suml (l_entries l) (fun e => snd e * src (fst e)) = 1 /\ src' i - suml (l_entries l) (fun e => snd e * src' (fst e)) = 0 /\
  fconstrain (F := unlimited_double) d src l i = 0 /\ fconstrain (F := unlimited_double) d src' l i = 0.
Proof.
  exists (IZR (2 ^ 60)), 0%nat, {| l_entries := []; l_inhom := Some 0 |}, (fun _ => 1), (fun _ => 0).
  assert (F0 : flx 0 = 0) by (unfold flx; apply round_0; apply valid_rnd_N).
  assert (Fm : flx (- IZR (2 ^ 60)) = - IZR (2 ^ 60)).
  { unfold flx. apply round_generic; [apply valid_rnd_N|]. apply generic_format_opp. change (IZR (2 ^ 60)) with (bpow radix2 60). apply generic_format_bpow. unfold FLX_exp. lia. }
  unfold suml, fconstrain. cbn [l_entries map fold_right fold_left unlimited_double f_arith aadd amul fsub]. split; [reflexivity|]. split; [ring|]. split; [ring|]. split.
  - rewrite flx_absorbs. rewrite Rplus_opp_r. exact F0.
  - rewrite Rminus_0_l, Fm, Rplus_opp_r. exact F0.
Qed.
(** Without that cancellation (a matrix row that is zero) the constraint is kept to the precision of the unknowns. *)
Theorem C89_constrained_row : forall u F d src l i, relative u F ->
  Rabs (fconstrain d src l i - (src i - suml (l_entries l) (fun e => snd e * src (fst e)))) <=
  gam u (3 + length (l_entries l)) * (2 * Rabs d + Rabs (src i) + suml (l_entries l) (fun e => Rabs (snd e * src (fst e)))).
Proof. intros u F d src l i HF. destruct (e_constrain u F HF d src l i) as (_ & _ & Q). rewrite Rmult_0_r, Rplus_0_r, v_gam in Q. exact Q. Qed.
