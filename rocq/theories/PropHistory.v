(** Property theorems C88: what a refinement cycle computes does not depend on the cycles before it -- except where it does. *)
From Coq Require Import Reals ZArith List Bool Arith Lia Lra FunctionalExtensionality.
From Verif Require Import LibSum ModelBem ModelBc ModelGeom ModelDriver ModelHistory SpecHistory PropBc PropGeom PropDriver.
Import ListNotations.
Local Open Scope nat_scope.

Section History.
  Variables (Layout FE Quad M A : Type).
  Variables (dim : nat) (fe : FE) (order : nat) (mk : FE -> nat -> list Quad).
  Variables (geo : M -> geo_mesh) (ndofs : M -> nat) (layout : M -> Layout) (fast : bool) (entries : M -> nat -> list nat).
  Variable answer : M -> geo_state -> list Quad -> option (@ones_cache Layout) -> (nat -> list nat) -> A.
  Variables (read_domain : M) (refine_and_resize : Z -> M -> M) (update_triangulation : M -> M) (adapt : M -> A -> M).

  Local Notation cycle g := (h_cycle Layout FE Quad M A dim g fe order mk geo ndofs layout fast entries answer).
  Local Notation start := (h_start Layout Quad).
  Local Notation state := (hstate Layout Quad).
  Local Notation runs g := (h_run Layout FE Quad M A dim g fe order mk geo ndofs layout fast entries answer read_domain refine_and_resize update_triangulation adapt).
  Local Notation loops g := (h_loop Layout FE Quad M A dim g fe order mk geo ndofs layout fast entries answer update_triangulation adapt).

  (** the answer of a new process whose node-to-cell map already has the entries [old] *)
  Definition alone (g : geo_params) (old : nat -> list nat) (m : M) : option A :=
    option_map snd (cycle g m {| h_geo := geo_start; h_quads := []; h_ones := None; h_elems := old |}).
  (** the entries the solves of a log have left in the node-to-cell map *)
  Definition leftovers (log : list (M * A)) (d : nat) : list nat := if fast then concat (map (fun ma => entries (fst ma) d) log) else [].

  Hypothesis has_dofs : forall m, 0 < ndofs m.
  Hypothesis same_layout : forall m m', ndofs m = ndofs m' -> layout m = layout m'.

  Section Run.
    Variable g : geo_params.
    Hypothesis defined : gp_spheroid g && gp_spherical g = false \/ (gp_fe g = true /\ 2 <= dim /\ forall m, geo_numbered dim (geo m)).
    Local Notation kind := (if gp_fe g then MapFEField else MapQ (gp_degree g)).

    (** after at least one cycle *)
    Definition settled (log : list (M * A)) (s : state) : Prop :=
      gs_mapping (h_geo _ _ s) = Some kind /\ (gp_fe g = false -> gs_size (h_geo _ _ s) = 0 /\ gs_map (h_geo _ _ s) = fun _ => 0%R) /\
      h_quads _ _ s = (if fast then [] else mk fe order) /\
      (exists m, h_ones _ _ s = Some {| oc_size := ndofs m; oc_layout := layout m; oc_vec := fresh_ones |}) /\
      h_elems _ _ s = leftovers log.
    Lemma leftovers_app log m a d : leftovers (log ++ [(m, a)]) d = leftovers log d ++ (if fast then entries m d else []).
    Proof. unfold leftovers. destruct fast; [|reflexivity]. rewrite map_app, concat_app. cbn. rewrite app_nil_r. reflexivity. Qed.
    Lemma elems_next log m a : (if fast then fun d => leftovers log d ++ entries m d else leftovers log) = leftovers (log ++ [(m, a)]).
    Proof.
      apply functional_extensionality. intros d. rewrite leftovers_app. destruct fast; [reflexivity|]. rewrite app_nil_r. reflexivity.
    Qed.
    Lemma ones_first m : ones_call (@None (@ones_cache Layout)) (ndofs m, layout m) = Some {| oc_size := ndofs m; oc_layout := layout m; oc_vec := fresh_ones |}.
    Proof. unfold ones_call. cbn. specialize (has_dofs m). destruct (ndofs m); [lia|reflexivity]. Qed.
    Lemma ones_next m m' : ones_call (Some {| oc_size := ndofs m'; oc_layout := layout m'; oc_vec := fresh_ones |}) (ndofs m, layout m) =
      Some {| oc_size := ndofs m; oc_layout := layout m; oc_vec := fresh_ones |}.
    Proof.
      unfold ones_call. cbn. destruct (Nat.eqb_spec (ndofs m') (ndofs m)) as [E|E]; [|reflexivity].
      rewrite E. rewrite (same_layout m' m E). reflexivity.
    Qed.
    Lemma geo_first m : exists gs, geo_reinit dim g (geo m) geo_start = Some gs /\ gs_mapping gs = Some kind /\ (gp_fe g = false -> gs_size gs = 0 /\ gs_map gs = fun _ => 0%R).
    Proof.
      unfold geo_reinit. cbn [gs_mapping geo_start]. destruct defined as [D|(F & Hd & Num)].
      - rewrite D. eexists. split; [reflexivity|]. cbn. split; [reflexivity|]. intros E. rewrite E. auto.
      - rewrite F. destruct (gp_spheroid g && gp_spherical g); [|eexists; split; [reflexivity|]; cbn; split; [reflexivity|discriminate]].
        replace (forallb _ _) with true; [eexists; split; [reflexivity|]; cbn; split; [reflexivity|discriminate]|].
        symmetry. apply forallb_forall. intros k Hk. apply in_seq in Hk. destruct (Num m) as [R _].
        assert (L : 2 * gm_m (geo m) <= dim * gm_m (geo m)) by (apply Nat.mul_le_mono_r; exact Hd).
        apply andb_true_iff. split; apply Nat.ltb_lt; apply R; lia.
    Qed.
    Lemma geo_next m s : gs_mapping s = Some kind -> (gp_fe g = false -> gs_size s = 0 /\ gs_map s = fun _ => 0%R) ->
      geo_reinit dim g (geo m) s = geo_reinit dim (plain g) (geo m) geo_start.
    Proof.
      intros E Q. unfold geo_reinit. rewrite E. cbn [gs_mapping geo_start plain gp_fe gp_degree gp_spheroid andb].
      destruct (gp_fe g); [reflexivity|]. destruct (Q eq_refl) as [-> ->]. reflexivity.
    Qed.
    Lemma geo_plain m : exists gs, geo_reinit dim (plain g) (geo m) geo_start = Some gs /\ gs_mapping gs = Some kind /\ (gp_fe g = false -> gs_size gs = 0 /\ gs_map gs = fun _ => 0%R).
    Proof.
      unfold geo_reinit. cbn [gs_mapping geo_start plain gp_fe gp_degree gp_spheroid andb]. eexists. split; [reflexivity|]. cbn. split; [reflexivity|].
      intros E. rewrite E. auto.
    Qed.

    Lemma cycle_first m : exists s a, cycle g m start = Some (s, a) /\ alone g (leftovers []) m = Some a /\ settled [(m, a)] s.
    Proof.
      destruct (geo_first m) as (gs & E & K & Z). unfold alone, h_cycle. cbn [h_geo h_quads h_ones h_elems h_start]. rewrite E.
      eexists. eexists. split; [reflexivity|].
      assert (L : leftovers [] = fun _ => []) by (unfold leftovers; cbn; destruct fast; reflexivity).
      split; [rewrite L; reflexivity|]. unfold settled. cbn [h_geo h_quads h_ones h_elems]. split; [exact K|]. split; [exact Z|].
      split; [unfold quad_call; cbn; reflexivity|]. split; [exists m; apply ones_first|].
      match goal with |- _ = leftovers [(_, ?a)] => rewrite <- (elems_next [] m a : _ = leftovers [(m, a)]) end. rewrite L. reflexivity.
    Qed.
    Lemma cycle_next log m s : settled log s ->
      exists s' a, cycle g m s = Some (s', a) /\ alone (plain g) (leftovers log) m = Some a /\ settled (log ++ [(m, a)]) s'.
    Proof.
      intros (K & Z & Q & (m' & O) & EL). destruct (geo_plain m) as (gs & E & K' & Z'). unfold alone, h_cycle.
      cbn [h_geo h_quads h_ones h_elems h_start]. rewrite (geo_next m _ K Z), E, Q, O, EL, ones_first, ones_next.
      eexists. eexists. split; [reflexivity|]. 
      assert (QQ : (if fast then (if fast then [] else mk fe order) else quad_call mk (if fast then [] else mk fe order) (fe, order)) =
                   (if fast then [] else quad_call mk [] (fe, order))).
      { destruct fast; [reflexivity|]. unfold quad_call. cbn [fst snd]. destruct (mk fe order); reflexivity. }
      split; [rewrite QQ; reflexivity|]. unfold settled. cbn [h_geo h_quads h_ones h_elems]. split; [exact K'|]. split; [exact Z'|].
      split; [rewrite QQ; unfold quad_call; destruct fast; reflexivity|]. split; [exists m; reflexivity|]. apply elems_next.
    Qed.

    Definition expected (k : nat) (before : list (M * A)) (m : M) : option A := alone (if k =? 0 then g else plain g) (leftovers before) m.
    Definition ready (log : list (M * A)) (s : state) : Prop := (log = [] /\ s = start) \/ (log <> [] /\ settled log s).
    Lemma cycle_any log m s : ready log s ->
      exists s' a, cycle g m s = Some (s', a) /\ expected (length log) log m = Some a /\ ready (log ++ [(m, a)]) s'.
    Proof.
      assert (NE : forall l (x : M * A), l ++ [x] <> []) by (intros [|] ? Q; discriminate Q).
      intros [[-> ->]|[N St]].
      - destruct (cycle_first m) as (s' & a & E1 & E2 & E3). exists s', a. split; [exact E1|]. split; [exact E2|]. right. split; [apply NE|exact E3].
      - destruct (cycle_next log m s St) as (s' & a & E1 & E2 & E3). exists s', a. split; [exact E1|]. split.
        + unfold expected. destruct log; [congruence|]. exact E2.
        + right. split; [apply NE|exact E3].
    Qed.

    Section Log.
      Variables (m0 : M) (next : M -> A -> M).
      (** a log whose next solve is on mesh [m] *)
      Definition growing (log : list (M * A)) (m : M) : Prop :=
        (log = [] -> m = m0) /\ (forall m1 a1, nth_error log 0 = Some (m1, a1) -> m1 = m0) /\
        (forall k m1 a1, nth_error log k = Some (m1, a1) -> expected k (firstn k log) m1 = Some a1) /\
        (forall k m1 a1 m2 a2, nth_error log k = Some (m1, a1) -> nth_error log (S k) = Some (m2, a2) -> m2 = next m1 a1) /\
        (forall m1 a1, nth_error log (length log - 1) = Some (m1, a1) -> m = next m1 a1).
      Lemma nth_snoc (log : list (M * A)) x k y : nth_error (log ++ [x]) k = Some y -> (k < length log /\ nth_error log k = Some y) \/ (k = length log /\ y = x).
      Proof.
        intros E. destruct (Nat.lt_ge_cases k (length log)) as [L|L]; [left; split; [exact L|]; rewrite nth_error_app1 in E; auto|].
        right. rewrite nth_error_app2 in E by exact L. destruct (k - length log) eqn:Q; cbn in E; [split; [lia|congruence]|destruct n; discriminate].
      Qed.
      Lemma firstn_snoc (log : list (M * A)) x k : k <= length log -> firstn k (log ++ [x]) = firstn k log.
      Proof. intros L. rewrite firstn_app. replace (k - length log) with 0 by lia. cbn. apply app_nil_r. Qed.
      Lemma growing_good log m a : growing log m -> expected (length log) log m = Some a -> good_log m0 next expected (length log) (log ++ [(m, a)]).
      Proof.
        intros (G0 & G1 & G2 & G3 & G4) E. unfold good_log. split; [rewrite app_length; cbn; lia|]. split; [|split].
        - intros m1 a1 Q. apply nth_snoc in Q. destruct Q as [[L Q]|[L Q]]; [exact (G1 _ _ Q)|]. inversion Q. subst. apply G0. destruct log; [reflexivity|discriminate].
        - intros k m1 a1 Q. apply nth_snoc in Q. destruct Q as [[L Q]|[L Q]].
          + rewrite firstn_snoc by lia. exact (G2 _ _ _ Q).
          + inversion Q. subst. rewrite firstn_snoc by lia. rewrite firstn_all. exact E.
        - intros k m1 a1 m2 a2 Q Q'. apply nth_snoc in Q'. apply nth_snoc in Q. destruct Q' as [[L' Q']|[L' Q']].
          + destruct Q as [[L Q]|[L Q]]; [exact (G3 _ _ _ _ _ Q Q')|lia].
          + inversion Q'. subst. destruct Q as [[L Q]|[L Q]]; [|lia]. replace k with (length log - 1) in Q by lia. exact (G4 _ _ Q).
      Qed.
      Lemma growing_next log m a : growing log m -> expected (length log) log m = Some a -> growing (log ++ [(m, a)]) (next m a).
      Proof.
        intros G E. destruct (growing_good log m a G E) as (L & A1 & A2 & A3). unfold growing. split; [destruct log; discriminate|]. split; [exact A1|]. split; [exact A2|].
        split; [exact A3|]. intros m1 a1 Q. rewrite app_length in Q. cbn in Q. replace (length log + 1 - 1) with (length log) in Q by lia.
        apply nth_snoc in Q. destruct Q as [[L' _]|[_ Q]]; [lia|]. inversion Q. reflexivity.
      Qed.
    End Log.

    Lemma loop_good (global : bool) m0 c : (Z.of_nat c < 2 ^ 32 - 1)%Z -> (global = true -> c = 0) ->
      forall j i s fuel, i + j = c -> S (S j) <= fuel -> length (hd_log _ _ _ _ s) = i -> ready (hd_log _ _ _ _ s) (hd_state _ _ _ _ s) ->
        growing m0 (fun m a => update_triangulation (adapt m a)) (hd_log _ _ _ _ s) (hd_mesh _ _ _ _ s) ->
        exists s', loops g global (Z.of_nat c) fuel (Z.of_nat i) s = Done _ _ _ _ s' /\
          good_log m0 (fun m a => update_triangulation (adapt m a)) expected c (hd_log _ _ _ _ s') /\
          (forall m a, nth_error (hd_log _ _ _ _ s') c = Some (m, a) -> hd_mesh _ _ _ _ s' = m).
    Proof.
      intros Hc Hg. induction j as [|j IH]; intros i s fuel Hi Hf Hl Rd Gr; (destruct fuel as [|fuel]; [lia|]); cbn [h_loop].
      - assert (Ei : i = c) by lia. rewrite Ei in Hl |- *. destruct (Z.leb_spec (Z.of_nat c) (Z.of_nat c)); [|lia].
        destruct (cycle_any _ (hd_mesh _ _ _ _ s) _ Rd) as (s1 & a & E1 & E2 & E3). rewrite E1.
        destruct (Z.ltb_spec (Z.of_nat c) (Z.of_nat c)); [lia|]. rewrite andb_false_r.
        destruct fuel as [|fuel]; [lia|]. cbn [h_loop]. replace (u32 (Z.of_nat c + 1)) with (Z.of_nat c + 1)%Z by (symmetry; apply Z.mod_small; lia).
        destruct (Z.leb_spec (Z.of_nat c + 1) (Z.of_nat c)); [lia|]. eexists. split; [reflexivity|]. cbn [hd_log hd_mesh].
        pose proof (growing_good m0 _ _ _ a Gr E2) as G. rewrite Hl in G. split; [exact G|].
        intros m1 a1 Q. apply nth_snoc in Q. destruct Q as [[L _]|[_ Q]]; [lia|]. inversion Q. reflexivity.
      - destruct (Z.leb_spec (Z.of_nat i) (Z.of_nat c)); [|lia].
        destruct (cycle_any _ (hd_mesh _ _ _ _ s) _ Rd) as (s1 & a & E1 & E2 & E3). rewrite E1.
        destruct (Z.ltb_spec (Z.of_nat i) (Z.of_nat c)); [|lia]. assert (G : global = false) by (destruct global; [specialize (Hg eq_refl); lia|reflexivity]).
        subst global. cbn [negb andb]. replace (u32 (Z.of_nat i + 1)) with (Z.of_nat (S i)) by (rewrite Nat2Z.inj_succ; symmetry; apply Z.mod_small; lia).
        apply IH; cbn [hd_log hd_mesh hd_state]; try lia; [rewrite app_length; cbn; lia|exact E3|exact (growing_next m0 _ _ _ a Gr E2)].
    Qed.

    (** Every run makes the expected number of solves.  Solve number k computes what a new process computes on the mesh of
        that cycle, with the spheroid only if k = 0 -- and, in the fast method, with the leftovers of the solves before
        in its node-to-cell map. *)
    Theorem C88_every_cycle : forall (global : bool) (n_cycles pre : Z) (fuel : nat),
      (0 <= n_cycles < 2 ^ 32 - 1)%Z -> (0 <= pre < 2 ^ 32)%Z ->
      let c := if global then 0 else Z.to_nat n_cycles in let level := if global then n_cycles else pre in
      S (S c) <= fuel ->
      exists s, runs g global n_cycles pre fuel = Done _ _ _ _ s /\
        good_log (update_triangulation (refine_and_resize level read_domain)) (fun m a => update_triangulation (adapt m a))
          (fun k before m => alone (if k =? 0 then g else plain g) (leftovers before) m) c (hd_log _ _ _ _ s) /\
        (forall m a, nth_error (hd_log _ _ _ _ s) c = Some (m, a) -> hd_mesh _ _ _ _ s = m).
    Proof.
      intros global n_cycles pre fuel Hn Hp c level Hf. unfold h_run.
      replace (u32 n_cycles) with n_cycles by (symmetry; apply Z.mod_small; lia). replace (u32 pre) with pre by (symmetry; apply Z.mod_small; lia).
      replace (if global then 0%Z else n_cycles) with (Z.of_nat c) by (unfold c; destruct global; cbn; lia). change 0%Z with (Z.of_nat 0).
      apply loop_good with (j := c).
      - unfold c. destruct global; cbn; lia.
      - unfold c. intros ->. reflexivity.
      - lia.
      - exact Hf.
      - reflexivity.
      - left. cbn. auto.
      - cbn [hd_log hd_mesh]. unfold growing. split; [reflexivity|]. repeat split; intros; try (destruct k; discriminate); discriminate.
    Qed.

    Lemma alone_plain old m : gp_spheroid g && gp_spherical g = false -> alone (plain g) old m = alone g old m.
    Proof. intros D. unfold alone, h_cycle, geo_reinit. cbn [h_geo gs_mapping geo_start plain gp_fe gp_degree gp_spheroid andb]. rewrite D. reflexivity. Qed.

    (** In Direct mode without a spheroid the run is the one of the memoryless driver (C44) whose solver is a new process
        started on the mesh of each cycle: the same meshes and the same answers. *)
    Theorem C88_direct_runs_have_no_memory : forall (solve : M -> A) (global : bool) (n_cycles pre : Z) (fuel : nat),
      fast = false -> gp_spheroid g && gp_spherical g = false ->
      (forall m, h_fresh Layout FE Quad M A dim g fe order mk geo ndofs layout fast entries answer m = Some (solve m)) ->
      (0 <= n_cycles < 2 ^ 32 - 1)%Z -> (0 <= pre < 2 ^ 32)%Z ->
      S (S (if global then 0 else Z.to_nat n_cycles)) <= fuel ->
      exists s t, runs g global n_cycles pre fuel = Done _ _ _ _ s /\
        ModelDriver.run M A read_domain refine_and_resize update_triangulation solve adapt global n_cycles pre fuel = Some t /\
        d_log _ _ t = map (fun ma => (fst ma, Some (fst ma), Some (snd ma))) (hd_log _ _ _ _ s) /\ d_mesh _ _ t = hd_mesh _ _ _ _ s.
    Proof.
      intros solve global n_cycles pre fuel Fa D Fr Hn Hp Hf.
      destruct (C88_every_cycle global n_cycles pre fuel Hn Hp Hf) as (s & E & (L & L0 & L1 & L2) & Lm).
      destruct (C44_one_solve_per_cycle M A read_domain refine_and_resize update_triangulation solve adapt global n_cycles pre fuel Hn Hp Hf) as (t & E' & T & Tm & _).
      exists s, t. split; [exact E|]. split; [exact E'|]. set (c := if global then 0 else Z.to_nat n_cycles) in *. set (level := if global then n_cycles else pre) in *.
      set (ms := mesh_after M A read_domain refine_and_resize update_triangulation solve adapt level) in *.
      assert (An : forall k before m a, alone (if k =? 0 then g else plain g) (leftovers before) m = Some a -> a = solve m).
      { intros k before m a Q. assert (Q' : alone g (leftovers before) m = Some a) by (destruct (k =? 0); [exact Q|rewrite alone_plain in Q by exact D; exact Q]).
        assert (Lz : leftovers before = fun _ => []) by (unfold leftovers; rewrite Fa; reflexivity). rewrite Lz in Q'.
        assert (Q2 : Some a = Some (solve m)) by (rewrite <- Q', <- (Fr m); reflexivity). congruence. }
      assert (Ms : forall k, k <= c -> nth_error (hd_log _ _ _ _ s) k = Some (ms k, solve (ms k))).
      { induction k as [|k IH]; intros Hk.
        - destruct (nth_error (hd_log _ _ _ _ s) 0) as [(m & a)|] eqn:N; [|apply nth_error_None in N; lia].
          pose proof (L0 m a eq_refl) as ->. f_equal. f_equal. exact (An 0 _ _ _ (L1 0 _ _ N)).
        - specialize (IH ltac:(lia)). destruct (nth_error (hd_log _ _ _ _ s) (S k)) as [(m & a)|] eqn:N; [|apply nth_error_None in N; lia].
          pose proof (L2 k _ _ m a IH N) as ->. change (ms (S k)) with (update_triangulation (adapt (ms k) (solve (ms k)))). f_equal. f_equal. exact (An (S k) _ _ _ (L1 (S k) _ _ N)). }
      split.
      - rewrite T. apply nth_ext with (d := good_solve M A solve (ms 0)) (d' := good_solve M A solve (ms 0)); [rewrite !map_length, seq_length; symmetry; exact L|].
        intros k Hk. rewrite map_length, seq_length in Hk.
        change (good_solve M A solve (ms 0)) with ((fun k => good_solve M A solve (ms k)) 0) at 1. rewrite map_nth, seq_nth by exact Hk.
        change (good_solve M A solve (ms 0)) with ((fun ma : M * A => (fst ma, Some (fst ma), Some (snd ma))) (ms 0, solve (ms 0))). rewrite map_nth.
        rewrite (nth_error_nth _ _ _ (Ms k ltac:(lia))). reflexivity.
      - rewrite Tm. symmetry. apply (Lm _ (solve (ms c))). apply Ms. lia.
    Qed.
  End Run.
End History.

(** ** Where the history shows *)
(** meshes 0, 1, 2, ...: each cycle goes to the next *)
Definition next_mesh {A : Type} (m : nat) (_ : A) : nat := S m.
(** With a spheroid the second cycle does not compute what a new process would. *)
Theorem C88_spheroid_refuted : exists (g : geo_params) (geo : nat -> geo_mesh) (answer : nat -> geo_state -> list unit -> option (@ones_cache unit) -> (nat -> list nat) -> R) s m a,
  (forall m, geo_numbered 3 (geo m)) /\ gp_fe g = true /\ gp_spheroid g = true /\
  h_run unit unit unit nat R 3 g tt 1 (fun _ _ => [tt]) geo (fun _ => 1) (fun _ => tt) false (fun _ _ => []) answer 0 (fun _ m => m) (fun m => m) next_mesh false 1 0 3 = Done _ _ _ _ s /\
  nth_error (hd_log _ _ _ _ s) 1 = Some (m, a) /\
  h_fresh unit unit unit nat R 3 g tt 1 (fun _ _ => [tt]) geo (fun _ => 1) (fun _ => tt) false (fun _ _ => []) answer m <> Some a.
Proof.
  exists spheroid_2, (fun _ => one_node), (fun _ gs _ _ _ => gs_map gs 0).
  destruct (C88_every_cycle unit unit unit nat R 3 tt 1 (fun _ _ => [tt]) (fun _ => one_node) (fun _ => 1) (fun _ => tt) false (fun _ _ => []) (fun _ gs _ _ _ => gs_map gs 0)
    0 (fun _ m => m) (fun m => m) next_mesh (fun _ => le_n 1) (fun _ _ _ => eq_refl) spheroid_2 (or_intror (conj eq_refl (conj (le_S _ _ (le_n 2)) (fun _ => one_node_numbered)))) false 1 0 3) as (s & E & (L & L0 & L1 & L2) & Lm);
    [split; [lia|reflexivity]|split; [lia|reflexivity]|cbn; lia|].
  destruct (nth_error (hd_log _ _ _ _ s) 1) as [(m & a)|] eqn:N; [|apply nth_error_None in N; rewrite L in N; cbn in N; lia].
  exists s, m, a. split; [intros; apply one_node_numbered|]. split; [reflexivity|]. split; [reflexivity|]. split; [exact E|]. split; [exact N|].
  specialize (L1 1 m a N). cbn [Nat.eqb] in L1. intros Q. rewrite <- L1 in Q. unfold h_fresh, alone, h_cycle, geo_reinit in Q. cbn in Q. 
  unfold stretch, geo_distribute in Q. cbn in Q. unfold upd in Q. cbn in Q. injection Q. lra.
Qed.
(** On several processes the vector of ones keeps the layout of an earlier mesh with as many unknowns. *)
Theorem C88_layout_refuted : exists (layout : nat -> nat) (answer : nat -> geo_state -> list unit -> option (@ones_cache nat) -> (nat -> list nat) -> nat) s m a,
  h_run nat unit unit nat nat 3 (plain spheroid_2) tt 1 (fun _ _ => [tt]) (fun _ => one_node) (fun _ => 1) layout false (fun _ _ => []) answer 0 (fun _ m => m) (fun m => m) next_mesh false 1 0 3 = Done _ _ _ _ s /\
  nth_error (hd_log _ _ _ _ s) 1 = Some (m, a) /\
  h_fresh nat unit unit nat nat 3 (plain spheroid_2) tt 1 (fun _ _ => [tt]) (fun _ => one_node) (fun _ => 1) layout false (fun _ _ => []) answer m <> Some a.
Proof.
  exists (fun m => m), (fun _ _ _ o _ => match o with Some c => oc_layout c | None => 7 end). eexists. eexists. eexists. split; [reflexivity|]. split; [reflexivity|]. discriminate.
Qed.
(** In the fast method the node-to-cell map of the second cycle also has the entries of the first. *)
Theorem C88_fast_refuted : exists (entries : nat -> nat -> list nat) (answer : nat -> geo_state -> list unit -> option (@ones_cache unit) -> (nat -> list nat) -> list nat) s m a,
  h_run unit unit unit nat (list nat) 3 (plain spheroid_2) tt 1 (fun _ _ => [tt]) (fun _ => one_node) (fun _ => 1) (fun _ => tt) true entries answer 0 (fun _ m => m) (fun m => m) next_mesh false 1 0 3 = Done _ _ _ _ s /\
  nth_error (hd_log _ _ _ _ s) 1 = Some (m, a) /\
  h_fresh unit unit unit nat (list nat) 3 (plain spheroid_2) tt 1 (fun _ _ => [tt]) (fun _ => one_node) (fun _ => 1) (fun _ => tt) true entries answer m <> Some a.
Proof.
  exists (fun m d => [m]), (fun _ _ _ _ e => e 0). eexists. eexists. eexists. split; [reflexivity|]. split; [reflexivity|]. discriminate.
Qed.

(** a run of three cycles that meets the conditions of C88_direct_runs_have_no_memory: the answer is the position of the only node *)
Example C88_instance : (forall m : nat, 0 < S m) /\ gp_spheroid (plain spheroid_2) && gp_spherical (plain spheroid_2) = false /\
  (forall m, h_fresh unit unit unit nat R 3 (plain spheroid_2) tt 1 (fun _ _ => [tt]) (fun m => {| gm_m := 1; gm_perm := fun k => k; gm_pos := fun _ => INR m; gm_con := fun k => [(k, 1%R)] |})
    S (fun _ => tt) false (fun _ _ => []) (fun _ gs _ _ _ => gs_map gs 0) m = Some (INR m)).
Proof.
  split; [intros; lia|]. split; [reflexivity|]. intros m. unfold h_fresh, h_cycle, geo_reinit. cbn [h_geo h_start gs_mapping geo_start plain spheroid_2 gp_fe gp_spheroid gp_spherical gp_degree andb option_map snd gs_map].
  f_equal. unfold geo_distribute. cbn [gm_con gm_pos suml fold_right map fst snd]. cbn. lra.
Qed.
