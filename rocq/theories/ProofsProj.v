(** * Lemmas on the L2 projections. *)
From Coq Require Import Reals List Arith Bool Lia Lra.
From Verif Require Import LibSum ModelProj SpecProj.
Import ListNotations.
Local Open Scope R_scope.

Lemma suml_swap {A B} (l : list A) (m : list B) f : suml l (fun a => suml m (fun b => f a b)) = suml m (fun b => suml l (fun a => f a b)).
Proof.
  induction l as [|a l IH]; [symmetry; apply suml_zero; reflexivity|]. change (suml (a :: l) (fun a => suml m (fun b => f a b))) with (suml m (fun b => f a b) + suml l (fun a => suml m (fun b => f a b))).
  rewrite IH, <- suml_plus. reflexivity.
Qed.
Lemma suml_scal_r {A} (l : list A) c f : suml l (fun a => f a * c) = suml l f * c.
Proof. rewrite Rmult_comm, <- suml_scal. apply suml_ext. intros. ring. Qed.
Lemma suml_prod {A B} (l : list A) (m : list B) f g : suml l f * suml m g = suml l (fun a => suml m (fun b => f a * g b)).
Proof. rewrite <- suml_scal_r. apply suml_ext. intros a _. symmetry. apply suml_scal. Qed.
Lemma suml_pick n (k : nat) (f : nat -> R) : (k < n)%nat -> suml (seq 0 n) (fun i => if Nat.eqb k i then f i else 0) = f k.
Proof.
  intros L. rewrite suml_seq, (sumn_single n k); auto; [rewrite Nat.eqb_refl; reflexivity|]. intros i _ N. destruct (Nat.eqb k i) eqn:E; auto. apply Nat.eqb_eq in E. congruence.
Qed.
Lemma suml_delta n (k : nat) (f : nat -> R) : (k < n)%nat -> suml (seq 0 n) (fun i => (if Nat.eqb k i then 1 else 0) * f i) = f k.
Proof. intros L. rewrite <- (suml_pick n k f L). apply suml_ext. intros i _. destruct (Nat.eqb k i); ring. Qed.
Lemma suml_minus {A} (l : list A) f g : suml l (fun a => f a - g a) = suml l f - suml l g.
Proof. rewrite (suml_ext l _ (fun a => f a + (-1) * g a)) by (intros; ring). rewrite suml_plus, suml_scal. ring. Qed.
Lemma suml_nonneg {A} (l : list A) f : (forall a, In a l -> 0 <= f a) -> 0 <= suml l f.
Proof. induction l as [|a l IH]; intros P; [unfold suml; cbn; lra|]. change (suml (a :: l) f) with (f a + suml l f). assert (X := P a (or_introl eq_refl)). assert (Y := IH ltac:(intros; apply P; right; auto)). lra. Qed.
Lemma suml_zero_inv {A} (l : list A) f : (forall a, In a l -> 0 <= f a) -> suml l f = 0 -> forall a, In a l -> f a = 0.
Proof.
  induction l as [|b l IH]; intros P Z a Ha; [destruct Ha|]. change (suml (b :: l) f) with (f b + suml l f) in Z.
  assert (X := P b (or_introl eq_refl)). assert (Y := suml_nonneg l f ltac:(intros; apply P; right; auto)).
  destruct Ha as [<-|Ha]; [lra|]. apply IH; auto; [intros; apply P; right; auto|lra].
Qed.
Lemma fold_if {A} (l : list A) (b : bool) f a : fold_left (fun a q => if b then a + f q else a) l a = a + (if b then suml l f else 0).
Proof. destruct b; [apply fold_left_plus|]. rewrite Rplus_0_r. revert a. induction l; intros; cbn; auto. Qed.

Section Proj.
  Variable P : projection.
  Variables dim np : nat.
  Hypothesis W : well_formed P dim np.
  Notation nc := (p_cells P).
  Notation nq := (p_points P).
  Notation nd := (p_dofs P).

  Lemma local_matrix_sum c i j : local_matrix P c i j = suml (seq 0 nq) (fun q => if Nat.eqb (p_comp P i) (p_comp P j) then p_shape P c i q * p_shape P c j q * p_jxw P c q else 0).
  Proof. unfold local_matrix. rewrite fold_if, Rplus_0_l. destruct (Nat.eqb _ _); [reflexivity|]. symmetry. apply suml_zero. reflexivity. Qed.
  Lemma local_rhs_sum G c i : local_rhs P G c i = suml (seq 0 nq) (fun q => p_shape P c i q * G c q (p_comp P i) * p_jxw P c q).
  Proof. unfold local_rhs. rewrite fold_left_plus, Rplus_0_l. reflexivity. Qed.
  (** the sums over processes are the sums over all cells *)
  Lemma over_processes {T} (adds : nat -> list T) F : suml (seq 0 np) (fun me => suml (flat_map (fun c => if Nat.eqb (p_sub P c) me then adds c else []) (seq 0 nc)) F) =
    suml (seq 0 nc) (fun c => suml (adds c) F).
  Proof.
    rewrite (suml_ext _ _ (fun me => suml (seq 0 nc) (fun c => if Nat.eqb (p_sub P c) me then suml (adds c) F else 0))).
    - rewrite suml_swap. apply suml_ext. intros c Hc. apply in_seq in Hc. apply (suml_pick np (p_sub P c) (fun _ => suml (adds c) F)). apply (proj1 W). lia.
    - intros me _. rewrite suml_flat_map. apply suml_ext. intros c _. destruct (Nat.eqb _ _); reflexivity.
  Qed.
  Definition F_of {T} (f : T -> R) := f.
  Lemma bilinear x y : suml (seq 0 nd) (fun d => y d * suml (seq 0 nd) (fun e => matrix_entry P np d e * x e)) =
    suml (seq 0 nc) (fun c => suml (locals P c) (fun i => suml (locals P c) (fun j => distribute P y (gdof P c i) * distribute P x (gdof P c j) * local_matrix P c i j))).
  Proof.
    transitivity (suml (seq 0 np) (fun me => suml (matrix_adds P me) (fun z => y (fst (fst z)) * x (snd (fst z)) * snd z))).
    - transitivity (suml (seq 0 nd) (fun d => suml (seq 0 nd) (fun e => suml (seq 0 np) (fun me => suml (matrix_adds P me) (fun z => if Nat.eqb (fst (fst z)) d && Nat.eqb (snd (fst z)) e then y d * x e * snd z else 0))))).
      + apply suml_ext. intros d _. rewrite <- suml_scal. apply suml_ext. intros e _. unfold matrix_entry. rewrite <- suml_scal_r, <- suml_scal. apply suml_ext. intros me _. rewrite <- suml_scal_r, <- suml_scal. apply suml_ext. intros z _. destruct (_ && _); ring.
      + rewrite (suml_ext _ _ (fun d => suml (seq 0 np) (fun me => suml (seq 0 nd) (fun e => suml (matrix_adds P me) (fun z => if Nat.eqb (fst (fst z)) d && Nat.eqb (snd (fst z)) e then y d * x e * snd z else 0))))) by (intros; apply suml_swap).
        rewrite suml_swap. apply suml_ext. intros me _.
        rewrite (suml_ext _ _ (fun d => suml (matrix_adds P me) (fun z => suml (seq 0 nd) (fun e => if Nat.eqb (fst (fst z)) d && Nat.eqb (snd (fst z)) e then y d * x e * snd z else 0)))) by (intros; apply suml_swap).
        rewrite suml_swap. apply suml_ext. intros z Hz.
        assert (Bd : (fst (fst z) < nd)%nat /\ (snd (fst z) < nd)%nat).
        { unfold matrix_adds in Hz. apply in_flat_map in Hz as (c & Hc & Hz). apply in_seq in Hc. destruct (Nat.eqb (p_sub P c) me); [|destruct Hz]. apply in_flat_map in Hz as (i & Hi & Hz). apply in_flat_map in Hz as (j & Hj & Hz).
          apply in_flat_map in Hz as (ew & He & Hz). apply in_map_iff in Hz as (fv & <- & Hf). unfold locals in Hi, Hj. apply in_seq in Hi, Hj. cbn [fst snd]. destruct W as (_ & _ & W3). split; [apply (W3 c i)|apply (W3 c j)]; auto; lia. }
        destruct Bd as (B1 & B2).
        rewrite (suml_ext _ _ (fun d => if Nat.eqb (fst (fst z)) d then y d * x (snd (fst z)) * snd z else 0)).
        * apply (suml_pick nd (fst (fst z)) (fun d => y d * x (snd (fst z)) * snd z)); auto.
        * intros d _. destruct (Nat.eqb (fst (fst z)) d) eqn:E; cbn [andb]; [|apply suml_zero; reflexivity]. apply (suml_pick nd (snd (fst z)) (fun e => y d * x e * snd z)); auto.
    - unfold matrix_adds. rewrite over_processes. apply suml_ext. intros c _. rewrite suml_flat_map. apply suml_ext. intros i _. rewrite suml_flat_map. apply suml_ext. intros j _. rewrite suml_flat_map.
      unfold distribute. rewrite suml_prod, <- suml_scal_r. apply suml_ext. intros ew _. rewrite suml_map, <- suml_scal_r. apply suml_ext. intros fv _. cbn [fst snd]. ring.
  Qed.
  Lemma linear_rhs G y : suml (seq 0 nd) (fun d => y d * rhs_entry P G np d) =
    suml (seq 0 nc) (fun c => suml (locals P c) (fun i => distribute P y (gdof P c i) * local_rhs P G c i)).
  Proof.
    transitivity (suml (seq 0 np) (fun me => suml (rhs_adds P G me) (fun z => y (fst z) * snd z))).
    - transitivity (suml (seq 0 nd) (fun d => suml (seq 0 np) (fun me => suml (rhs_adds P G me) (fun z => if Nat.eqb (fst z) d then y d * snd z else 0)))).
      + apply suml_ext. intros d _. unfold rhs_entry. rewrite <- suml_scal. apply suml_ext. intros me _. rewrite <- suml_scal. apply suml_ext. intros z _. destruct (Nat.eqb _ _); ring.
      + rewrite suml_swap. apply suml_ext. intros me _. rewrite suml_swap. apply suml_ext. intros z Hz. apply (suml_pick nd (fst z) (fun d => y d * snd z)).
        unfold rhs_adds in Hz. apply in_flat_map in Hz as (c & Hc & Hz). apply in_seq in Hc. destruct (Nat.eqb (p_sub P c) me); [|destruct Hz]. apply in_flat_map in Hz as (i & Hi & Hz). apply in_map_iff in Hz as (ew & <- & He).
        unfold locals in Hi. apply in_seq in Hi. cbn [fst]. destruct W as (_ & _ & W3). apply (W3 c i); auto; lia.
    - unfold rhs_adds. rewrite over_processes. apply suml_ext. intros c _. rewrite suml_flat_map. apply suml_ext. intros i _. rewrite suml_map. unfold distribute. rewrite <- suml_scal_r. apply suml_ext. intros ew _. cbn [fst snd]. ring.
  Qed.
  Lemma value_mul c q x y : suml (seq 0 dim) (fun k => value P y c q k * value P x c q k) =
    suml (locals P c) (fun i => suml (locals P c) (fun j => if Nat.eqb (p_comp P i) (p_comp P j) then p_shape P c i q * y (gdof P c i) * (p_shape P c j q * x (gdof P c j)) else 0)).
  Proof.
    unfold value. rewrite (suml_ext _ _ (fun k => suml (locals P c) (fun i => suml (locals P c) (fun j => (if Nat.eqb (p_comp P i) k then p_shape P c i q * y (gdof P c i) else 0) * (if Nat.eqb (p_comp P j) k then p_shape P c j q * x (gdof P c j) else 0)))))
      by (intros; apply suml_prod).
    rewrite suml_swap. apply suml_ext. intros i _. rewrite suml_swap. apply suml_ext. intros j _.
    rewrite (suml_ext _ _ (fun k => if Nat.eqb (p_comp P i) k then p_shape P c i q * y (gdof P c i) * (if Nat.eqb (p_comp P j) k then p_shape P c j q * x (gdof P c j) else 0) else 0)).
    - rewrite (suml_pick dim (p_comp P i) (fun k => p_shape P c i q * y (gdof P c i) * (if Nat.eqb (p_comp P j) k then p_shape P c j q * x (gdof P c j) else 0))); [|apply W].
      rewrite (Nat.eqb_sym (p_comp P j)). destruct (Nat.eqb _ _); ring.
    - intros k _. destruct (Nat.eqb (p_comp P i) k); ring.
  Qed.
  Lemma value_field c q y G : suml (seq 0 dim) (fun k => value P y c q k * G c q k) = suml (locals P c) (fun i => p_shape P c i q * y (gdof P c i) * G c q (p_comp P i)).
  Proof.
    unfold value. rewrite (suml_ext _ _ (fun k => suml (locals P c) (fun i => (if Nat.eqb (p_comp P i) k then p_shape P c i q * y (gdof P c i) * G c q k else 0)))).
    - rewrite suml_swap. apply suml_ext. intros i _. apply (suml_pick dim (p_comp P i) (fun k => p_shape P c i q * y (gdof P c i) * G c q k)). apply W.
    - intros k _. rewrite <- suml_scal_r. apply suml_ext. intros i _. destruct (Nat.eqb _ _); ring.
  Qed.
  Lemma bilinear_inner x y : suml (seq 0 nd) (fun d => y d * suml (seq 0 nd) (fun e => matrix_entry P np d e * x e)) = inner P dim (value P (distribute P y)) (value P (distribute P x)).
  Proof.
    rewrite bilinear. unfold inner. apply suml_ext. intros c _. symmetry.
    transitivity (suml (seq 0 nq) (fun q => suml (locals P c) (fun i => suml (locals P c) (fun j => if Nat.eqb (p_comp P i) (p_comp P j) then p_jxw P c q * (p_shape P c i q * distribute P y (gdof P c i) * (p_shape P c j q * distribute P x (gdof P c j))) else 0)))).
    - apply suml_ext. intros q _. rewrite value_mul, <- suml_scal. apply suml_ext. intros i _. rewrite <- suml_scal. apply suml_ext. intros j _. destruct (Nat.eqb _ _); ring.
    - rewrite suml_swap. apply suml_ext. intros i _. rewrite suml_swap. apply suml_ext. intros j _. rewrite local_matrix_sum, <- suml_scal. apply suml_ext. intros q _. destruct (Nat.eqb _ _); ring.
  Qed.
  Lemma linear_inner G y : suml (seq 0 nd) (fun d => y d * rhs_entry P G np d) = inner P dim (value P (distribute P y)) G.
  Proof.
    rewrite linear_rhs. unfold inner. apply suml_ext. intros c _. symmetry.
    transitivity (suml (seq 0 nq) (fun q => suml (locals P c) (fun i => p_jxw P c q * (p_shape P c i q * distribute P y (gdof P c i) * G c q (p_comp P i))))).
    - apply suml_ext. intros q _. rewrite value_field, <- suml_scal. reflexivity.
    - rewrite suml_swap. apply suml_ext. intros i _. rewrite local_rhs_sum, <- suml_scal. apply suml_ext. intros q _. ring.
  Qed.
  Lemma inner_minus u v w : inner P dim u (fun c q k => v c q k - w c q k) = inner P dim u v - inner P dim u w.
  Proof.
    unfold inner. rewrite <- suml_minus. apply suml_ext. intros c _. rewrite <- suml_minus. apply suml_ext. intros q _. rewrite <- Rmult_minus_distr_l. f_equal. rewrite <- suml_minus. apply suml_ext. intros. ring.
  Qed.
  Lemma inner_ext u u' v v' : (forall c q k, (c < nc)%nat -> (q < nq)%nat -> (k < dim)%nat -> u c q k * v c q k = u' c q k * v' c q k) -> inner P dim u v = inner P dim u' v'.
  Proof. intros E. unfold inner. apply suml_ext. intros c Hc. apply suml_ext. intros q Hq. f_equal. apply suml_ext. intros k Hk. apply in_seq in Hc, Hq, Hk. apply E; lia. Qed.
  Lemma galerkin G x : solves P G np x <-> forall y, inner P dim (value P (distribute P y)) (fun c q k => value P (distribute P x) c q k - G c q k) = 0.
  Proof.
    split.
    - intros Hs y. rewrite inner_minus, <- bilinear_inner, <- linear_inner. rewrite (suml_ext _ _ (fun d => y d * rhs_entry P G np d)); [ring|]. intros d Hd. apply in_seq in Hd. rewrite Hs by lia. reflexivity.
    - intros E d Hd. specialize (E (fun e => if Nat.eqb d e then 1 else 0)). rewrite inner_minus, <- bilinear_inner, <- linear_inner in E.
      rewrite (suml_delta nd d (fun e => suml (seq 0 nd) (fun f => matrix_entry P np e f * x f))) in E by auto.
      rewrite (suml_delta nd d (fun e => rhs_entry P G np e)) in E by auto. lra.
  Qed.
  Lemma distribute_lin a x b y d : distribute P (fun e => a * x e + b * y e) d = a * distribute P x d + b * distribute P y d.
  Proof. unfold distribute. rewrite <- !suml_scal, <- suml_plus. apply suml_ext. intros. ring. Qed.
  Lemma value_ext x y c q k : (forall i, (i < length (p_cdofs P c))%nat -> x (gdof P c i) = y (gdof P c i)) -> value P x c q k = value P y c q k.
  Proof. intros E. unfold value. apply suml_ext. intros i Hi. unfold locals in Hi. apply in_seq in Hi. rewrite E by lia. reflexivity. Qed.
  Lemma value_lin a x b y c q k : value P (fun d => a * x d + b * y d) c q k = a * value P x c q k + b * value P y c q k.
  Proof. unfold value. rewrite <- !suml_scal, <- suml_plus. apply suml_ext. intros i _. destruct (Nat.eqb _ _); ring. Qed.
  Lemma value_dist_lin a x b y c q k : value P (distribute P (fun e => a * x e + b * y e)) c q k = a * value P (distribute P x) c q k + b * value P (distribute P y) c q k.
  Proof. rewrite <- value_lin. apply value_ext. intros i _. apply distribute_lin. Qed.
  Definition sq (u : nat -> nat -> nat -> R) : R := inner P dim u u.
  Lemma sq_nonneg u : (forall c q, (c < nc)%nat -> (q < nq)%nat -> 0 <= p_jxw P c q) -> 0 <= sq u.
  Proof.
    intros J. apply suml_nonneg. intros c Hc. apply suml_nonneg. intros q Hq. apply in_seq in Hc, Hq. apply Rmult_le_pos; [apply J; lia|]. apply suml_nonneg. intros k _. assert (Z := Rle_0_sqr (u c q k)). exact Z.
  Qed.
  Lemma sq_zero u : (forall c q, (c < nc)%nat -> (q < nq)%nat -> 0 < p_jxw P c q) -> sq u = 0 -> forall c q k, (c < nc)%nat -> (q < nq)%nat -> (k < dim)%nat -> u c q k = 0.
  Proof.
    intros J Z c q k Hc Hq Hk. unfold sq, inner in Z.
    assert (N2 : forall c q, 0 <= suml (seq 0 dim) (fun k => u c q k * u c q k)) by (intros; apply suml_nonneg; intros k' _; apply Rle_0_sqr).
    assert (N1 : forall c, (c < nc)%nat -> 0 <= suml (seq 0 nq) (fun q => p_jxw P c q * suml (seq 0 dim) (fun k => u c q k * u c q k))).
    { intros c' Hc'. apply suml_nonneg. intros q' Hq'. apply in_seq in Hq'. apply Rmult_le_pos; [|apply N2]. left. apply J; lia. }
    assert (Z1 : suml (seq 0 nq) (fun q => p_jxw P c q * suml (seq 0 dim) (fun k => u c q k * u c q k)) = 0).
    { refine (suml_zero_inv _ _ _ Z c _); [|apply in_seq; lia]. intros c' Hc'. apply in_seq in Hc'. apply N1. lia. }
    assert (Z2 : p_jxw P c q * suml (seq 0 dim) (fun k => u c q k * u c q k) = 0).
    { refine (suml_zero_inv _ _ _ Z1 q _); [|apply in_seq; lia]. intros q' Hq'. apply in_seq in Hq'. apply Rmult_le_pos; [left; apply J; lia|apply N2]. }
    assert (Jp := J c q Hc Hq). apply Rmult_integral in Z2. destruct Z2 as [Z2|Z2]; [lra|].
    assert (Z3 : u c q k * u c q k = 0).
    { refine (suml_zero_inv _ _ _ Z2 k _); [|apply in_seq; lia]. intros k' _. apply Rle_0_sqr. }
    apply Rmult_integral in Z3. tauto.
  Qed.
  (** dofs reached by the cells with t *)
  Definition reached (t : nat -> bool) (d : nat) : bool :=
    existsb (fun c => t c && existsb (fun i => existsb (fun ew => Nat.eqb (fst ew) d) (p_con P (gdof P c i))) (locals P c)) (seq 0 nc).
  Lemma reached_spec t d : reached t d = true <-> exists c i ew, (c < nc)%nat /\ t c = true /\ (i < length (p_cdofs P c))%nat /\ In ew (p_con P (gdof P c i)) /\ fst ew = d.
  Proof.
    unfold reached. rewrite existsb_exists. split.
    - intros (c & Hc & E). apply andb_true_iff in E as (T & E). apply existsb_exists in E as (i & Hi & E). apply existsb_exists in E as (ew & He & E). apply Nat.eqb_eq in E.
      apply in_seq in Hc. unfold locals in Hi. apply in_seq in Hi. exists c, i, ew. repeat split; auto; lia.
    - intros (c & i & ew & Hc & T & Hi & He & E). exists c. split; [apply in_seq; lia|]. rewrite T. cbn [andb]. apply existsb_exists. exists i. split; [unfold locals; apply in_seq; lia|].
      apply existsb_exists. exists ew. split; auto. apply Nat.eqb_eq, E.
  Qed.
  Lemma local_projection t G G' x x' :
    (forall c q, (c < nc)%nat -> (q < nq)%nat -> 0 < p_jxw P c q) -> separated P t ->
    (forall c q k, (c < nc)%nat -> t c = true -> (q < nq)%nat -> (k < dim)%nat -> G c q k = G' c q k) ->
    solves P G np x -> solves P G' np x' ->
    forall c q k, (c < nc)%nat -> t c = true -> (q < nq)%nat -> (k < dim)%nat -> value P (distribute P x) c q k = value P (distribute P x') c q k.
  Proof.
    intros J S E X X'. set (y := fun d => if reached t d then 1 * x d + (-1) * x' d else 0).
    assert (Yt : forall c q k, (c < nc)%nat -> t c = true -> value P (distribute P y) c q k = value P (distribute P x) c q k - value P (distribute P x') c q k).
    { intros c q k Hc Ht. transitivity (value P (distribute P (fun d => 1 * x d + (-1) * x' d)) c q k); [|rewrite value_dist_lin; ring]. apply value_ext. intros i Hi. unfold distribute. apply suml_ext. intros ew He. unfold y.
      rewrite (proj2 (reached_spec t (fst ew))); auto. exists c, i, ew. auto. }
    assert (Yf : forall c q k, (c < nc)%nat -> t c = false -> value P (distribute P y) c q k = 0).
    { intros c q k Hc Ht. unfold value. apply suml_zero. intros i Hi. unfold locals in Hi. apply in_seq in Hi. destruct (Nat.eqb _ _); auto. unfold distribute. rewrite suml_zero; [ring|]. intros ew He. unfold y.
      destruct (reached t (fst ew)) eqn:Er; [|ring]. apply reached_spec in Er as (c' & i' & ew' & Hc' & Ht' & Hi' & He' & Eq). exfalso. refine (S c' c i' i Hc' Hc Ht' Ht Hi' _ ew' ew He' He Eq). lia. }
    assert (A := proj1 (galerkin G x) X y). assert (B := proj1 (galerkin G' x') X' y).
    assert (Z : sq (value P (distribute P y)) = 0).
    { rewrite inner_minus in A, B. assert (C : inner P dim (value P (distribute P y)) (value P (distribute P y)) =
        inner P dim (value P (distribute P y)) (fun c q k => value P (distribute P x) c q k - value P (distribute P x') c q k)).
      { apply inner_ext. intros c q k Hc Hq Hk. destruct (t c) eqn:Ht; [rewrite (Yt c q k Hc Ht); ring|rewrite (Yf c q k Hc Ht); ring]. }
      assert (D : inner P dim (value P (distribute P y)) G = inner P dim (value P (distribute P y)) G').
      { apply inner_ext. intros c q k Hc Hq Hk. destruct (t c) eqn:Ht; [rewrite (E c q k Hc Ht Hq Hk); ring|rewrite (Yf c q k Hc Ht); ring]. }
      unfold sq. rewrite C, inner_minus. lra. }
    intros c q k Hc Ht Hq Hk. assert (V := sq_zero (value P (distribute P y)) J Z c q k Hc Hq Hk). rewrite (Yt c q k Hc Ht) in V. lra.
  Qed.
End Proj.
