(** * Number of pairs of blocks treated by a fast product (C77). *)
From Coq Require Import QArith Qabs Qminmax ZArith List Lia Arith Bool Lqa.
From Verif Require Import ModelOctree SpecOctree ModelFmm SpecWorkload ProofsOctTree ProofsOctLevels ProofsOctFacts ProofsOctLists ProofsFmmCover ProofsOctGeom ProofsOctMore.
Import ListNotations.
Local Open Scope nat_scope.

(** ** counting *)
Lemma map_NoDup {A C} (f : A -> C) l : NoDup l -> (forall x y, In x l -> In y l -> f x = f y -> x = y) -> NoDup (map f l).
Proof.
  intros ND. induction ND as [|x l Nx ND IH]; intros Inj; cbn; constructor.
  - intros Hx. apply in_map_iff in Hx. destruct Hx as (y & E & Hy). apply Nx. rewrite (Inj x y); auto; [left; auto|right; auto].
  - apply IH. intros a b Ha Hb. apply Inj; right; auto.
Qed.
Lemma inject_length {A C} (f : A -> C) (l : list A) (m : list C) : NoDup l -> (forall x y, In x l -> In y l -> f x = f y -> x = y) ->
  (forall x, In x l -> In (f x) m) -> length l <= length m.
Proof.
  intros ND Inj Im. rewrite <- (map_length f l). apply NoDup_incl_length; [apply map_NoDup; auto|].
  intros y Hy. apply in_map_iff in Hy. destruct Hy as (x & <- & Hx). auto.
Qed.
Definition zr (a n : Z) : list Z := map (fun i => (a + Z.of_nat i)%Z) (seq 0 (Z.to_nat n)).
Lemma zr_in a n z : (a <= z < a + n)%Z -> In z (zr a n).
Proof. intros Hz. apply in_map_iff. exists (Z.to_nat (z - a)). split; [lia|]. apply in_seq. lia. Qed.
Definition cube (a b c n : Z) : list (Z * Z * Z) := list_prod (list_prod (zr a n) (zr b n)) (zr c n).
Lemma cube_in a b c n x y z : (a <= x < a + n -> b <= y < b + n -> c <= z < c + n -> In (x, y, z) (cube a b c n))%Z.
Proof. intros. unfold cube. rewrite !in_prod_iff. repeat split; apply zr_in; auto. Qed.
Definition unit_off (t : Z * Z * Z) : bool := let '(x, y, z) := t in ((Z.abs x <=? 1) && (Z.abs y <=? 1) && (Z.abs z <=? 1))%Z.
Lemma far_cube b0 b1 b2 : (b0 = 0 \/ b0 = 1)%Z -> (b1 = 0 \/ b1 = 1)%Z -> (b2 = 0 \/ b2 = 1)%Z ->
  length (filter (fun t => negb (unit_off t)) (cube (-2 - b0) (-2 - b1) (-2 - b2) 6)) = 189.
Proof. intros [-> | ->] [-> | ->] [-> | ->]; reflexivity. Qed.

(** pairs counted by their second member *)
Lemma count_by_second (P : list (nat * nat)) n M : (forall p, In p P -> snd p < n) ->
  (forall c, c < n -> length (filter (fun p => Nat.eqb (snd p) c) P) <= M) -> length P <= M * n.
Proof.
  revert P. induction n; intros P Hs Hc.
  - destruct P as [|p P]; cbn; [lia|]. specialize (Hs p (or_introl eq_refl)). lia.
  - assert (E : length P = length (filter (fun p => Nat.eqb (snd p) n) P) + length (filter (fun p => negb (Nat.eqb (snd p) n)) P)).
    { clear. induction P as [|p P IH]; cbn; [lia|]. destruct (Nat.eqb (snd p) n); cbn; lia. }
    assert (H1 := Hc n ltac:(lia)).
    assert (H2 : length (filter (fun p => negb (Nat.eqb (snd p) n)) P) <= M * n).
    { apply IHn.
      - intros p Hp. apply filter_In in Hp. destruct Hp as (Hp & Np). specialize (Hs p Hp). destruct (Nat.eqb_spec (snd p) n); cbn in Np; [discriminate|lia].
      - intros c Lc. eapply Nat.le_trans; [|apply (Hc c ltac:(lia))]. clear. induction P as [|p P IH]; cbn; [lia|].
        destruct (Nat.eqb (snd p) n); cbn; destruct (Nat.eqb (snd p) c); cbn; lia. }
    lia.
Qed.
Lemma count_by_first (P : list (nat * nat)) n M : (forall p, In p P -> fst p < n) ->
  (forall b, b < n -> length (filter (fun p => Nat.eqb (fst p) b) P) <= M) -> length P <= M * n.
Proof.
  intros Hs Hc. rewrite <- (map_length (fun p => (snd p, fst p)) P). apply count_by_second.
  - intros p Hp. apply in_map_iff in Hp. destruct Hp as (q & <- & Hq). cbn. auto.
  - intros b Lb. eapply Nat.le_trans; [|apply (Hc b Lb)]. clear. induction P as [|p P IH]; cbn; [lia|]. destruct (Nat.eqb (fst p) b); cbn; lia.
Qed.

Section Workload.
  Variable I : oin.
  Hypothesis W : wf_in I.
  Notation st := (octree I).
  Notation bs := (st_blocks (octree I)).
  Notation B := (getb (st_blocks (octree I))).
  Notation N := (o_N I).
  Notation X := (X I).
  Notation wid := (wid I).
  Notation gmeet := (gmeet I).

  Lemma wid_pos k : (0 < wid k)%Z. Proof. apply wz_pos. Qed.
  Lemma wid_le k k' : k < length bs -> k' < length bs -> b_level (B k') <= b_level (B k) -> (wid k | wid k')%Z.
  Proof.
    intros Hk Hk' L. unfold ProofsOctGeom.wid, wz. assert (Lk := F_level_le I W k Hk).
    replace (N - b_level (B k')) with ((N - b_level (B k)) + (b_level (B k) - b_level (B k'))) by lia. rewrite Nat2Z.inj_add, Z.pow_add_r by lia. apply Z.divide_factor_l.
  Qed.
  Lemma gmeet_refl k : gmeet k k.
  Proof. intros a Ha. assert (P := wid_pos k). lia. Qed.

  (** at most 27 disjoint boxes, none smaller than p, touch p *)
  Definition off (p j a : nat) : Z := if Z.eqb (X a j) (X a p + wid p) then 1%Z else if Z.eqb (X a j + wid j) (X a p) then (-1)%Z else 0%Z.
  Lemma off_in p j a : a < 3 -> p < length bs -> j < length bs -> b_level (B j) <= b_level (B p) -> gmeet p j ->
    (-1 <= off p j a <= 1)%Z /\ (X a j <= X a p + off p j a * wid p)%Z /\ (X a p + off p j a * wid p + wid p <= X a j + wid j)%Z.
  Proof.
    intros Ha Hp Hj L M. destruct (M a Ha) as (M1 & M2). assert (P := wid_pos p). assert (Pj := wid_pos j).
    destruct (wid_le p j Hp Hj L) as (u & U). assert (Xp := X_div I W a p Hp). assert (Xj := X_div I W a j Hj). destruct Xp as (x & Xp). destruct Xj as (y & Xj).
    unfold off. rewrite U in *. rewrite Xp, Xj in *. set (w := wid p) in *. clearbody w.
    assert (0 < u)%Z by nia.
    destruct (Z.eqb_spec (y * (u * w)) (x * w + w)) as [E|E]; [split; [lia|]; nia|].
    destruct (Z.eqb_spec (y * (u * w) + u * w) (x * w)) as [E'|E']; [split; [lia|]; nia|]. split; [lia|].
    assert (A1 : (y * u <= x)%Z).
    { assert (y * u <= x + 1)%Z by nia. assert (y * u <> x + 1)%Z by (intros F; apply E; nia). lia. }
    assert (A2 : (x + 1 <= y * u + u)%Z).
    { assert (x <= y * u + u)%Z by nia. assert (x <> y * u + u)%Z by (intros F; apply E'; nia). lia. }
    split; nia.
  Qed.
  Lemma count27 p L : p < length bs -> NoDup L -> (forall j, In j L -> j < length bs /\ b_level (B j) <= b_level (B p) /\ gmeet p j) ->
    (forall j j', In j L -> In j' L -> j <> j' -> apart I j j') -> length L <= 27.
  Proof.
    intros Hp ND HL Ap. change 27 with (length (cube (-1) (-1) (-1) 3)).
    apply (inject_length (fun j => (off p j 0, off p j 1, off p j 2))); auto.
    - intros j j' Hj Hj' E. destruct (Nat.eq_dec j j') as [|NE]; auto. exfalso. injection E as E0 E1 E2.
      destruct (Ap j j' Hj Hj' NE) as (a & Ha & D). destruct (HL j Hj) as (J1 & J2 & J3). destruct (HL j' Hj') as (J1' & J2' & J3').
      assert (O := off_in p j a Ha Hp J1 J2 J3). assert (O' := off_in p j' a Ha Hp J1' J2' J3').
      assert (Eo : off p j a = off p j' a) by (destruct a as [|[|[|]]]; auto; lia). rewrite <- Eo in O'. assert (P := wid_pos p). lia.
    - intros j Hj. destruct (HL j Hj) as (J1 & J2 & J3).
      assert (O0 := off_in p j 0 ltac:(lia) Hp J1 J2 J3). assert (O1 := off_in p j 1 ltac:(lia) Hp J1 J2 J3). assert (O2 := off_in p j 2 ltac:(lia) Hp J1 J2 J3).
      apply cube_in; lia.
  Qed.

  (** at most 189 boxes of the size of b whose parent touches the parent of b do not touch b *)
  Lemma count189 b L : 0 < b < length bs -> NoDup L ->
    (forall c, In c L -> 0 < c < length bs /\ b_level (B c) = b_level (B b) /\ gmeet (b_parent (B b)) (b_parent (B c)) /\ ~ gmeet b c) -> length L <= 189.
  Proof.
    intros Hb ND HL. set (w := wid b). assert (Pw : (0 < w)%Z) by apply wid_pos.
    rewrite <- (far_cube (bit 0 (code I b)) (bit 1 (code I b)) (bit 2 (code I b))) by apply bit01.
    set (o := fun (a c : nat) => ((X a c - X a b) / w)%Z).
    assert (Wc : forall c, In c L -> wid c = w) by (intros c Hc; destruct (HL c Hc) as (_ & E & _); unfold w, ProofsOctGeom.wid; rewrite E; reflexivity).
    assert (Xo : forall c a, In c L -> a < 3 -> X a c = (X a b + o a c * w)%Z /\ (-2 - bit a (code I b) <= o a c < -2 - bit a (code I b) + 6)%Z).
    { intros c a Hc Ha. destruct (HL c Hc) as (C1 & C2 & C3 & C4).
      assert (Db := X_div I W a b ltac:(lia)). assert (Dc := X_div I W a c ltac:(lia)). rewrite (Wc c Hc) in Dc. fold w in Db.
      assert (D : (w | X a c - X a b)%Z) by (apply Z.divide_sub_r; auto).
      assert (Eo : (X a c - X a b = o a c * w)%Z).
      { destruct D as (z & Z). unfold o. rewrite Z, Z.div_mul by lia. lia. }
      split; [lia|].
      assert (Sb := X_step I W a b ltac:(lia)). assert (Sc := X_step I W a c ltac:(lia)). rewrite (Wc c Hc) in Sc. fold w in Sb.
      assert (Pb := wid_parent I W b ltac:(lia)). assert (Pc := wid_parent I W c ltac:(lia)). rewrite (Wc c Hc) in Pc. fold w in Pb.
      destruct (C3 a Ha) as (M1 & M2). rewrite Pb in M2. rewrite Pc in M1.
      destruct (bit01 a (code I b)) as [F|F], (bit01 a (code I c)) as [G|G]; rewrite F, G in *; nia. }
    apply (inject_length (fun c => (o 0 c, o 1 c, o 2 c))); auto.
    - intros c c' Hc Hc' E. destruct (Nat.eq_dec c c') as [|NE]; auto. exfalso. injection E as E0 E1 E2.
      destruct (HL c Hc) as (C1 & C2 & _). destruct (HL c' Hc') as (C1' & C2' & _).
      destruct (same_level_apart I W c c' ltac:(lia) ltac:(lia) ltac:(lia) NE) as (a & Ha & D).
      assert (Eo : o a c = o a c') by (destruct a as [|[|[|]]]; auto; lia).
      assert (Y := proj1 (Xo c a Hc Ha)). assert (Y' := proj1 (Xo c' a Hc' Ha)). rewrite Eo in Y. rewrite (Wc c Hc), (Wc c' Hc') in D. lia.
    - intros c Hc. apply filter_In. split; [apply cube_in; apply Xo; auto; lia|]. apply negb_true_iff.
      destruct (unit_off (o 0 c, o 1 c, o 2 c)) eqn:E; auto. exfalso. destruct (HL c Hc) as (_ & _ & _ & C4). apply C4. intros a Ha.
      unfold unit_off in E. rewrite !andb_true_iff, !Z.leb_le in E. destruct E as ((E0 & E1) & E2).
      assert (Ea : (Z.abs (o a c) <= 1)%Z) by (destruct a as [|[|[|]]]; auto; lia). rewrite (Wc c Hc). fold w. rewrite (proj1 (Xo c a Hc Ha)). nia.
  Qed.

  (** ** near lists are exactly the touching blocks *)
  Variable e : Q.
  Hypothesis RE : rounding_within I e.
  Hypothesis Side : finer_than_tolerance I e.
  Notation r := (o_rnd I).
  Notation NQ := (NQ I).
  Notation gx := (gx I).
  Notation hgrid := (hgrid I).

  Lemma side_grid : ((1 # 1000) + 2 * (NQ * e) + 5 * e < hgrid)%Q.
  Proof.
    assert (S := Side). unfold finer_than_tolerance, finest_side, blk in S. rewrite (proj2 (root_fields I W)) in S. unfold ProofsOctGeom.hgrid, wz. rewrite Nat.sub_0_r. unfold ProofsOctGeom.NQ.
    eapply Qle_lt_trans; [|exact S]. ring_simplify. apply Qle_refl.
  Qed.
  Lemma gx_next a x y : (x < y)%Z -> (gx a x + hgrid <= gx a y)%Q.
  Proof. intros L. assert (G := gx_le I e RE a (x + 1) y ltac:(lia)). rewrite (gx_add I) in G. change (inject_Z 1) with 1%Q in G. lra. Qed.
  Lemma fin a k : k < length bs -> (- (12 # 10) * max_coord I <= gx a (X a k) /\ gx a (X a k + wid k) <= (12 # 10) * max_coord I /\ gx a (X a k) <= gx a (X a k + wid k))%Q.
  Proof.
    intros Hk. assert (Y := X_root I W a k Hk). assert (P := wid_pos k).
    split; [apply (gx_range I e RE a); lia|]. split; [apply (gx_range I e RE a); lia|]. apply (gx_le I e RE). lia.
  Qed.
  Lemma ov_meet a k k' : k < length bs -> k' < length bs ->
    overlap r (co a (b_min (B k))) (co a (pmax r (B k))) (co a (b_min (B k'))) (co a (pmax r (B k'))) = true -> (X a k <= X a k' + wid k' /\ X a k' <= X a k + wid k)%Z.
  Proof.
    intros Hk Hk' O. unfold overlap in O. apply andb_true_iff in O. rewrite !Qle_bool_iff in O. destruct O as (O1 & O2).
    assert (P := pos_grid I W e RE a k Hk). assert (P' := pos_grid I W e RE a k' Hk'). assert (T := pmax_grid I W e RE a k Hk). assert (T' := pmax_grid I W e RE a k' Hk').
    assert (L := lq_le I W e RE k Hk). assert (L' := lq_le I W e RE k' Hk'). assert (Tl := r_toll I e RE). destruct (small_e I e RE) as (S0 & S1 & S2 & S3 & _).
    assert (F := fin a k Hk). assert (F' := fin a k' Hk'). assert (Sd := side_grid).
    split.
    - destruct (Z_le_gt_dec (X a k) (X a k' + wid k')) as [|G]; auto. exfalso. assert (Gn := gx_next a (X a k' + wid k') (X a k) ltac:(lia)).
      assert (Rb := r_bound I e RE (co a (b_min (B k)) - r toll) ltac:(lra) ltac:(lra)). lra.
    - destruct (Z_le_gt_dec (X a k') (X a k + wid k)) as [|G]; auto. exfalso. assert (Gn := gx_next a (X a k + wid k) (X a k') ltac:(lia)).
      assert (Rb := r_bound I e RE (co a (pmax r (B k)) + r toll) ltac:(lra) ltac:(lra)). lra.
  Qed.
  Lemma fm_meet a k k' : k < length bs -> k' < length bs ->
    faces_meet r (co a (b_min (B k))) (co a (pmax r (B k))) (co a (b_min (B k'))) (co a (pmax r (B k'))) = true -> (X a k <= X a k' + wid k' /\ X a k' <= X a k + wid k)%Z.
  Proof.
    intros Hk Hk' O. unfold faces_meet in O. apply orb_true_iff in O. rewrite !Qle_bool_iff, !Qabs_Qle_condition in O.
    assert (P := pos_grid I W e RE a k Hk). assert (P' := pos_grid I W e RE a k' Hk'). assert (T := pmax_grid I W e RE a k Hk). assert (T' := pmax_grid I W e RE a k' Hk').
    assert (L := lq_le I W e RE k Hk). assert (L' := lq_le I W e RE k' Hk'). assert (Tl := r_toll I e RE). destruct (small_e I e RE) as (S0 & S1 & S2 & S3 & _).
    assert (F := fin a k Hk). assert (F' := fin a k' Hk'). assert (Sd := side_grid). assert (Pk := wid_pos k). assert (Pk' := wid_pos k').
    destruct O as [(O1 & O2)|(O1 & O2)].
    - assert (Rb := r_bound I e RE (co a (b_min (B k)) - co a (pmax r (B k'))) ltac:(lra) ltac:(lra)).
      assert (A1 : (X a k <= X a k' + wid k')%Z).
      { destruct (Z_le_gt_dec (X a k) (X a k' + wid k')) as [|G]; auto. exfalso. assert (Gn := gx_next a (X a k' + wid k') (X a k) ltac:(lia)). lra. }
      assert (A2 : (X a k' + wid k' <= X a k)%Z).
      { destruct (Z_le_gt_dec (X a k' + wid k') (X a k)) as [|G]; auto. exfalso. assert (Gn := gx_next a (X a k) (X a k' + wid k') ltac:(lia)). lra. }
      lia.
    - assert (Rb := r_bound I e RE (co a (pmax r (B k)) - co a (b_min (B k'))) ltac:(lra) ltac:(lra)).
      assert (A1 : (X a k' <= X a k + wid k)%Z).
      { destruct (Z_le_gt_dec (X a k') (X a k + wid k)) as [|G]; auto. exfalso. assert (Gn := gx_next a (X a k + wid k) (X a k') ltac:(lia)). lra. }
      assert (A2 : (X a k + wid k <= X a k')%Z).
      { destruct (Z_le_gt_dec (X a k + wid k) (X a k')) as [|G]; auto. exfalso. assert (Gn := gx_next a (X a k') (X a k + wid k) ltac:(lia)). lra. }
      lia.
  Qed.
  Lemma touches_meet k k' : k < length bs -> k' < length bs -> touches r (B k) (B k') = true -> gmeet k k'.
  Proof.
    intros Hk Hk' T. unfold touches in T. rewrite !orb_true_iff, !andb_true_iff in T.
    intros a Ha. destruct T as [[(T0 & T1 & T2)|(T1 & T0 & T2)]|(T2 & T1 & T0)]; destruct a as [|[|[|]]]; try lia;
      first [apply (ov_meet 0); assumption|apply (ov_meet 1); assumption|apply (ov_meet 2); assumption|apply (fm_meet 0); assumption|apply (fm_meet 1); assumption|apply (fm_meet 2); assumption].
  Qed.
  Lemma level1_meet k j : 0 < k < length bs -> j < length bs -> b_level (B k) = 1 -> b_level (B j) = 1 -> gmeet k j.
  Proof.
    intros Hk Hj Lk Lj a Ha. assert (Yk := X_root I W a k ltac:(lia)). assert (Yj := X_root I W a j Hj).
    assert (wid k = wid j) by (unfold ProofsOctGeom.wid; rewrite Lk, Lj; reflexivity).
    assert (wz I 0 = 2 * wid k)%Z by (unfold ProofsOctGeom.wid; rewrite Lk; apply wz_S; destruct W; lia). lia.
  Qed.
  Lemma near_meet k s j : 0 < k < length bs -> s < near_levels I st k -> In j (near I st k s) -> gmeet k j.
  Proof.
    intros Hk. revert j. induction s; intros j Hs Hj; assert (F := proj2 (near_props I W k _ Hk Hs) j Hj); assert (Hjl := proj1 F).
    - destruct (Nat.eq_dec (b_level (B k)) 1) as [L1|L1].
      + rewrite (near_1 I W) in Hj by auto. apply (lvl1_front I W) in Hj. destruct Hj as (_ & [Lj|(Lj & _)]); [apply level1_meet; auto|].
        assert (Y := proj1 (level_pos I bs (F_tree I W) j Hjl) ltac:(lia)). subst j. exfalso.
        destruct F as (_ & [F|(_ & F)]); [assert (Z := proj2 (level_pos I bs (F_tree I W) 0 Hjl) eq_refl); lia|]. apply (root_split I W); auto.
      + rewrite (near_0 I W) in Hj by auto. apply near0_in in Hj. destruct Hj as [->|(p & _ & _ & T)]; [apply gmeet_refl|]. apply touches_meet; auto; lia.
    - rewrite (near_S I W) in Hj by auto. apply near_next_in in Hj. destruct Hj as (p & Hp & [(_ & ->)|(_ & T)]); [apply IHs; auto; lia|]. apply touches_meet; auto; lia.
  Qed.
  Lemma near_exact k s j : 0 < k < length bs -> s < near_levels I st k -> (In j (near I st k s) <-> front I (b_level (B k) + s) j /\ gmeet k j).
  Proof.
    intros Hk Hs. split.
    - intros Hj. split; [apply (proj2 (near_props I W k s Hk Hs)); auto|]. apply (near_meet k s); auto.
    - intros (F & M). apply (meet_near I W e RE); auto.
  Qed.

  (** ** interaction lists *)
  Hypothesis QR : quads_in_root I.
  Hypothesis Fit : cells_shorter_than I (finest_side I - 3 * inject_Z (Z.of_nat (o_N I)) * e)%Q.
  Lemma fit_meet k q : k < length bs -> is_around I k q -> forall l, l <= N -> gmeet k (qb I q l).
  Proof.
    intros Hk (n & d & c & Hn & Hd & Hc & Hcd & Eq & Hq) l Hl a Ha.
    destruct (qb_front I W q l Hq Hl) as (F & Iq). set (j := qb I q l) in *. assert (Hj := proj1 F).
    assert (Ln := node_bound I W k n Hk Hn).
    assert (D := Fit n c q a Ln Hc (ex_intro _ d (conj Hd Hcd)) Hq Eq Ha).
    destruct (nodes_in_box I W e RE k n Hk ltac:(intros; apply (nodes_in_root I e RE); auto) Hn a Ha) as (N1 & N2).
    assert (HR' : forall q, q < o_nq I -> inside (o_qpos I q) (root_block I)).
    { intros q' Hq' a' Ha'. destruct (QR q' Hq' a' Ha') as (A & C). unfold blk in A, C. destruct (root_fields I W) as (E1 & E2). rewrite E1 in A. rewrite E1, E2 in C. split; auto. }
    destruct (quads_in_box I W e RE j q Hj HR' Iq a Ha) as (Q1 & Q2).
    change axis with co in *.
    assert (P := pos_grid I W e RE a k Hk). assert (P' := pos_grid I W e RE a j Hj). assert (T := top_grid I W e RE a k Hk). assert (T' := top_grid I W e RE a j Hj).
    assert (L := lq_le I W e RE k Hk). assert (L' := lq_le I W e RE j Hj).
    assert (Es : (finest_side I == hgrid)%Q) by (unfold finest_side, blk; rewrite (proj2 (root_fields I W)); unfold ProofsOctGeom.hgrid, wz; rewrite Nat.sub_0_r; reflexivity).
    rewrite Es in D. unfold ProofsOctGeom.NQ in L, L'. set (nq := (inject_Z (Z.of_nat N) * e)%Q) in *. assert (En : (3 * inject_Z (Z.of_nat N) * e == 3 * nq)%Q) by (unfold nq; ring). rewrite En in D.
    apply Qabs_Qlt_condition in D.
    split.
    - destruct (Z_le_gt_dec (X a k) (X a j + wid j)) as [|G]; auto. exfalso. assert (Gn := gx_next a (X a j + wid j) (X a k) ltac:(lia)). lra.
    - destruct (Z_le_gt_dec (X a j) (X a k + wid k)) as [|G]; auto. exfalso. assert (Gn := gx_next a (X a k + wid k) (X a j) ltac:(lia)). lra.
  Qed.
  Lemma int_meet k s j : 0 < k < length bs -> s < near_levels I st k -> In j (int_list I st k s) -> gmeet k j.
  Proof.
    intros Hk Hs Hj. destruct (Nat.eq_dec (b_level (B k)) 1) as [L1|L1].
    - rewrite (int_1 I) in Hj by auto. rewrite (near_levels_eq I W), L1 in Hs by auto. simpl in Hs. assert (s = 0) by lia. subst s.
      apply (near_meet k 0); auto; [apply (near_levels_pos I W); auto|]. rewrite (near_1 I W); auto.
    - apply (int_in I) in Hj; auto. destruct Hj as [Hj|(q & A & ->)]; [apply (near_meet k s); auto|].
      apply fit_meet; [lia|auto|]. apply (near_levels_front I W); auto.
  Qed.
  Lemma int_exact k s j : 0 < k < length bs -> s < near_levels I st k -> (In j (int_list I st k s) <-> front I (b_level (B k) + s) j /\ gmeet k j).
  Proof.
    intros Hk Hs. split.
    - intros Hj. split; [apply (int_front I W); auto|apply (int_meet k s); auto].
    - intros F. apply (near_in_int I W); auto. apply near_exact; auto.
  Qed.
  (** where a member of a non-interaction list comes from *)
  Lemma nonint_from k s c : 0 < k < length bs -> s < near_levels I st k -> In c (nonint_list I st k s) ->
    0 < c < length bs /\ b_level (B k) <> 1 /\ ~ gmeet k c /\ front I (b_level (B k) + s) c /\
    match s with
    | 0 => (b_level (B c) = b_level (B k) /\ gmeet (b_parent (B k)) (b_parent (B c))) \/ (b_level (B c) < b_level (B k) /\ gmeet (b_parent (B k)) c)
    | S _ => b_level (B c) = b_level (B k) + s /\ gmeet k (b_parent (B c)) /\ b_kids (B k) = []
    end.
  Proof.
    intros Hk Hs Hc. destruct (Nat.eq_dec (b_level (B k)) 1) as [L1|L1]; [rewrite nonint_1 in Hc by auto; destruct Hc|].
    assert (F := nonint_front I W k s c Hk L1 Hs Hc). assert (NM := far_apart I W e RE k s c Hk Hs Hc). assert (Hcl := proj1 F).
    apply (nonint_in I) in Hc; auto. destruct Hc as (Hc & Ni). apply in_flat_map in Hc. destruct Hc as (j & Hj & Rj).
    destruct (parent_ok I W k Hk L1) as (P1 & P2 & P3 & P4).
    assert (Fj := up_front I W k s j Hk L1 Hs Hj).
    assert (Hjl := proj1 Fj).
    assert (Src : (c = j /\ b_kids (B j) = []) \/ (In c (b_kids (B j)) /\ b_kids (B j) <> [])).
    { unfold refine1 in Rj. destruct (b_kids (B j)) as [|x l] eqn:K; [left; destruct Rj as [|[]]; auto|right; split; [auto|discriminate]]. }
    assert (Kid : In c (b_kids (B j)) -> 0 < c /\ b_parent (B c) = j /\ b_level (B c) = S (b_level (B j))).
    { intros Kc. destruct (kid_info I bs (F_tree I W) j c Hjl Kc) as (K1 & K2 & K3 & _). split; [lia|]. split; auto. }
    assert (C0 : 0 < c).
    { destruct Src as [(-> & K)|(K & _)]; [|apply Kid; auto]. destruct (Nat.eq_dec j 0) as [->|]; [|lia]. exfalso. apply (root_split I W). auto. }
    split; [lia|]. split; auto. split; auto. split; auto.
    destruct s.
    - cbn [up] in Hj. assert (Mj := int_meet (b_parent (B k)) 0 j ltac:(lia) ltac:(apply (near_levels_pos I W); lia) Hj).
      destruct Src as [(-> & K)|(K & Kn)].
      + right. destruct Fj as (_ & Fj). split; auto. lia.
      + left. destruct (Kid K) as (_ & K2 & K3). rewrite K2. split; auto. destruct Fj as (_ & [Fj|(_ & Fj)]); [lia|congruence].
    - cbn [up] in Hj. assert (Mj := int_meet k s j Hk ltac:(lia) Hj).
      destruct Src as [(-> & K)|(K & Kn)]; [exfalso; auto|].
      destruct (Kid K) as (_ & K2 & K3). rewrite K2. destruct Fj as (_ & [Fj|(_ & Fj)]); [|congruence]. split; [lia|]. split; auto.
      destruct (near_levels_front I W k (S s) Hk Hs) as ((_ & [Fk|(_ & Fk)]) & _); [lia|auto].
  Qed.

  (** ** the pairs *)
  Definition part (t : nat -> nat -> bool) (level b s : nat) : list nat := filter (t level) (nonint_list I st b s).
  Lemma over_in t b c : In (b, c) (over_levels I (part t)) <->
    exists s, 0 < b < length bs /\ b_nodes (B b) <> [] /\ s < near_levels I st b /\ In c (nonint_list I st b s) /\ t (b_level (B b)) c = true.
  Proof.
    unfold over_levels. rewrite in_flat_map. split.
    - intros (l & Hl & H1). apply in_seq in Hl. apply in_flat_map in H1. destruct H1 as (b' & Hb & H1). apply in_flat_map in H1. destruct H1 as (s & Hs & H1).
      apply in_seq in Hs. apply in_map_iff in H1. destruct H1 as (c' & E & H1). injection E as -> ->. apply filter_In in H1.
      apply (dfill_in I W) in Hb; [|lia]. destruct Hb as (Hb & Lb & Nb). exists s. rewrite Lb.
      split; [|split; [auto|split; [lia|tauto]]]. split; auto. destruct (Nat.eq_dec b 0) as [->|]; [|lia]. assert (Y := proj2 (level_pos I bs (F_tree I W) 0 Hb) eq_refl). lia.
    - intros (s & Hb & Nb & Hs & Hc & T). exists (b_level (B b)).
      assert (L1 : 1 <= b_level (B b)).
      { destruct (b_level (B b)) eqn:E; [|lia]. assert (Y := proj1 (level_pos I bs (F_tree I W) b ltac:(lia)) E). lia. }
      assert (L2 := F_level_le I W b ltac:(lia)). split; [apply in_seq; lia|]. apply in_flat_map. exists b. split; [apply (dfill_in I W); [lia|]; repeat split; auto; lia|].
      apply in_flat_map. exists s. split; [apply in_seq; lia|]. apply in_map. apply filter_In. auto.
  Qed.
  Lemma stage_of k s c : 0 < k < length bs -> s < near_levels I st k -> In c (nonint_list I st k s) -> s = b_level (B c) - b_level (B k).
  Proof. intros Hk Hs Hc. destruct (nonint_from k s c Hk Hs Hc) as (_ & _ & _ & _ & D). destruct s; [destruct D as [(D & _)|(D & _)]; lia|destruct D as (D & _); lia]. Qed.
  Lemma over_nodup t : NoDup (over_levels I (part t)).
  Proof.
    unfold over_levels. apply NoDup_flat_map; [apply seq_NoDup| |].
    - intros l Hl. apply in_seq in Hl. apply NoDup_flat_map; [apply (dfill_nodup I W); lia| |].
      + intros b Hb. apply (dfill_in I W) in Hb; [|lia]. destruct Hb as (Hb & Lb & Nb).
        assert (B0 : 0 < b) by (destruct (Nat.eq_dec b 0) as [->|]; [|lia]; assert (Y := proj2 (level_pos I bs (F_tree I W) 0 Hb) eq_refl); lia).
        apply NoDup_flat_map; [apply seq_NoDup| |].
        * intros s Hs. apply map_NoDup; [apply NoDup_filter, nonint_nodup|]. intros x y _ _ E. congruence.
        * intros s s' x Hs Hs' Hx Hx'. apply in_seq in Hs, Hs'. apply in_map_iff in Hx, Hx'. destruct Hx as (c & <- & Hc). destruct Hx' as (c' & E & Hc'). injection E as ->.
          apply filter_In in Hc, Hc'. rewrite (stage_of b s c), (stage_of b s' c); auto; try lia; tauto.
      + intros b b' x Hb Hb' Hx Hx'. apply in_flat_map in Hx, Hx'. destruct Hx as (s & _ & Hx). destruct Hx' as (s' & _ & Hx'). apply in_map_iff in Hx, Hx'.
        destruct Hx as (c & <- & _). destruct Hx' as (c' & E & _). congruence.
    - intros l l' x Hl Hl' Hx Hx'. apply in_seq in Hl, Hl'. apply in_flat_map in Hx, Hx'. destruct Hx as (b & Hb & Hx). destruct Hx' as (b' & Hb' & Hx').
      apply in_flat_map in Hx, Hx'. destruct Hx as (s & _ & Hx). destruct Hx' as (s' & _ & Hx'). apply in_map_iff in Hx, Hx'.
      destruct Hx as (c & <- & _). destruct Hx' as (c' & E & _). injection E as -> ->. apply (dfill_in I W) in Hb; [|lia]. apply (dfill_in I W) in Hb'; [|lia]. destruct Hb as (_ & <- & _), Hb' as (_ & <- & _). reflexivity.
  Qed.
  Lemma fiber_first (P : list (nat * nat)) b M : NoDup P -> (forall L, NoDup L -> (forall c, In c L -> In (b, c) P) -> length L <= M) ->
    length (filter (fun p => Nat.eqb (fst p) b) P) <= M.
  Proof.
    intros ND HL. rewrite <- (map_length snd). apply HL.
    - apply map_NoDup; [apply NoDup_filter; auto|]. intros (x1 & x2) (y1 & y2) Hx Hy E. apply filter_In in Hx, Hy. destruct Hx as (_ & Hx), Hy as (_ & Hy).
      cbn in *. apply Nat.eqb_eq in Hx, Hy. congruence.
    - intros c Hc. apply in_map_iff in Hc. destruct Hc as ((x1 & x2) & E & Hx). apply filter_In in Hx. destruct Hx as (Hx & E'). cbn in *. apply Nat.eqb_eq in E'. congruence.
  Qed.
  Lemma fiber_second (P : list (nat * nat)) c M : NoDup P -> (forall L, NoDup L -> (forall b, In b L -> In (b, c) P) -> length L <= M) ->
    length (filter (fun p => Nat.eqb (snd p) c) P) <= M.
  Proof.
    intros ND HL. rewrite <- (map_length fst). apply HL.
    - apply map_NoDup; [apply NoDup_filter; auto|]. intros (x1 & x2) (y1 & y2) Hx Hy E. apply filter_In in Hx, Hy. destruct Hx as (_ & Hx), Hy as (_ & Hy).
      cbn in *. apply Nat.eqb_eq in Hx, Hy. congruence.
    - intros b Hb. apply in_map_iff in Hb. destruct Hb as ((x1 & x2) & E & Hx). apply filter_In in Hx. destruct Hx as (Hx & E'). cbn in *. apply Nat.eqb_eq in E'. congruence.
  Qed.
  Lemma over_bound t p : In p (over_levels I (part t)) -> fst p < length bs /\ snd p < length bs.
  Proof.
    destruct p as (b & c). intros Hp. apply over_in in Hp. destruct Hp as (s & Hb & _ & Hs & Hc & _). destruct (nonint_from b s c Hb Hs Hc) as (Hc' & _). split; [apply Hb|apply Hc'].
  Qed.
  Lemma level_lt_iff c l : c < length bs -> l <= N -> (Nat.ltb c (startL st l) = true <-> b_level (B c) < l) /\
    (Nat.leb (startL st l) c && Nat.leb c (endL st l) = true <-> b_level (B c) = l) /\ (Nat.ltb (endL st l) c = true <-> l < b_level (B c)).
  Proof.
    intros Hc Hl. assert (R := F_level_range I W c Hc). assert (Lc := F_level_le I W c Hc). assert (E := F_level_iff I W c l Hc Hl).
    assert (M1 : b_level (B c) < l -> c < startL st l).
    { intros Lt. assert (Y := F_end_mono I W (b_level (B c)) (l - 1) ltac:(lia)). assert (Z := F_next I W (l - 1) ltac:(lia)). replace (S (l - 1)) with l in Z by lia. lia. }
    assert (M2 : l < b_level (B c) -> endL st l < c).
    { intros Lt. assert (Y := F_end_mono I W l (b_level (B c) - 1) ltac:(lia)). assert (Z := F_next I W (b_level (B c) - 1) ltac:(lia)). replace (S (b_level (B c) - 1)) with (b_level (B c)) in Z by lia. lia. }
    rewrite Nat.ltb_lt, Nat.ltb_lt, andb_true_iff, !Nat.leb_le. assert (SE := start_end I W l Hl).
    destruct (Nat.lt_trichotomy (b_level (B c)) l) as [T|[T|T]]; repeat split; intros; try lia.
  Qed.

  (** the members of the three lists of one block *)
  Lemma m2l_per_block b L : b < length bs -> NoDup L -> (forall c, In c L -> In (b, c) (m2l_pairs I)) -> length L <= 189.
  Proof.
    intros Hb ND HL. destruct L as [|c0 L0] eqn:EL; [cbn; lia|]. rewrite <- EL in *.
    assert (B0 : 0 < b) by (destruct (proj1 (over_in (t_same I) b c0) (HL c0 ltac:(rewrite EL; left; auto))) as (s & B0 & _); lia).
    apply (count189 b); auto. intros c Hc. specialize (HL c Hc). apply (over_in (t_same I)) in HL. destruct HL as (s & _ & _ & Hs & Hn & T).
    destruct (nonint_from b s c ltac:(lia) Hs Hn) as (C1 & C2 & C3 & C4 & C5). apply (level_lt_iff c) in T; [|lia|apply (F_level_le I W); auto].
    split; auto. split; auto. split; auto. destruct s; [destruct C5 as [(_ & C5)|(C5 & _)]; [auto|lia]|destruct C5; lia].
  Qed.

  Lemma bigger_per_block b L : b < length bs -> NoDup L -> (forall c, In c L -> In (b, c) (bigger_pairs I)) -> length L <= 27.
  Proof.
    intros Hb ND HL. destruct L as [|c0 L0] eqn:EL; [cbn; lia|]. rewrite <- EL in *.
    assert (B0 : 0 < b /\ b_level (B b) <> 1).
    { destruct (proj1 (over_in (t_big I) b c0) (HL c0 ltac:(rewrite EL; left; auto))) as (s & B0 & _ & Hs & Hn & _). destruct (nonint_from b s c0 B0 Hs Hn) as (_ & L1 & _). split; [lia|auto]. }
    destruct B0 as (B0 & L1). destruct (parent_ok I W b ltac:(lia) L1) as (P1 & P2 & P3 & P4).
    assert (F : forall c, In c L -> c < length bs /\ b_level (B c) <= b_level (B (b_parent (B b))) /\ gmeet (b_parent (B b)) c /\ front I (b_level (B b)) c).
    { intros c Hc. specialize (HL c Hc). apply (over_in (t_big I)) in HL. destruct HL as (s & _ & _ & Hs & Hn & T).
      destruct (nonint_from b s c ltac:(lia) Hs Hn) as (C1 & C2 & C3 & C4 & C5). apply (level_lt_iff c) in T; [|lia|apply (F_level_le I W); auto].
      split; [lia|]. split; [lia|]. destruct s; [|destruct C5; lia]. rewrite Nat.add_0_r in C4. split; auto. destruct C5 as [(C5 & _)|(_ & C5)]; [lia|auto]. }
    apply (count27 (b_parent (B b))); auto; [lia|intros j Hj; destruct (F j Hj) as (? & ? & ? & ?); auto|].
    intros j j' Hj Hj' NE. apply (front_apart I W (b_level (B b))); auto; apply F; auto.
  Qed.
  Lemma evaluation_per_block c L : c < length bs -> NoDup L -> (forall b, In b L -> In (b, c) (evaluation_pairs I)) -> length L <= 27.
  Proof.
    intros Hc ND HL. destruct L as [|b0 L0] eqn:EL; [cbn; lia|]. rewrite <- EL in *.
    assert (C0 : 0 < c).
    { destruct (proj1 (over_in (t_small I) b0 c) (HL b0 ltac:(rewrite EL; left; auto))) as (s & B0 & _ & Hs & Hn & _). destruct (nonint_from b0 s c B0 Hs Hn) as (C0 & _). lia. }
    assert (Pl := parent_level I bs (F_tree I W) c ltac:(lia)). destruct (parent_info I bs (F_tree I W) c ltac:(lia)) as (Pc & _).
    assert (F : forall b, In b L -> b < length bs /\ b_level (B b) <= b_level (B (b_parent (B c))) /\ gmeet (b_parent (B c)) b /\ front I N b).
    { intros b Hb. specialize (HL b Hb). apply (over_in (t_small I)) in HL. destruct HL as (s & B1 & _ & Hs & Hn & T).
      destruct (nonint_from b s c B1 Hs Hn) as (C1 & C2 & C3 & C4 & C5). apply (level_lt_iff c) in T; [|lia|apply (F_level_le I W); lia].
      split; [lia|]. split; [lia|]. destruct s; [destruct C5 as [(C5 & _)|(C5 & _)]; lia|]. destruct C5 as (_ & C5 & C6). split; [apply meet_sym; auto|].
      split; [lia|]. assert (Lb := F_level_le I W b ltac:(lia)). destruct (Nat.eq_dec (b_level (B b)) N); [left; auto|right; split; [lia|auto]]. }
    apply (count27 (b_parent (B c))); auto; [lia|intros j Hj; destruct (F j Hj) as (? & ? & ? & ?); auto|].
    intros j j' Hj Hj' NE. apply (front_apart I W N); auto; apply F; auto.
  Qed.
  Lemma near_in_pairs b c : In (b, c) (near_pairs I) <-> In b (st_childless st) /\ In c (last_int I st b).
  Proof.
    unfold near_pairs. rewrite in_flat_map. split.
    - intros (b' & Hb & H1). apply in_map_iff in H1. destruct H1 as (c' & E & H1). injection E as -> ->. auto.
    - intros (Hb & Hc). exists b. split; auto. apply in_map; auto.
  Qed.
  Lemma near_pairs_nodup : NoDup (near_pairs I).
  Proof.
    unfold near_pairs. apply NoDup_flat_map; [apply (F_cl_nodup I W)| |].
    - intros b _. apply map_NoDup; [apply int_nodup|]. intros x y _ _ E. congruence.
    - intros b b' x _ _ Hx Hx'. apply in_map_iff in Hx, Hx'. destruct Hx as (c & <- & _). destruct Hx' as (c' & E & _). congruence.
  Qed.
  Lemma near_pair_facts b c : In (b, c) (near_pairs I) -> 0 < b < length bs /\ c < length bs /\ gmeet b c /\ front I N b /\
    front I (b_level (B b) + (near_levels I st b - 1)) c.
  Proof.
    intros Hp. apply near_in_pairs in Hp. destruct Hp as (Hb & Hc). assert (B0 := childless_pos I W b Hb). assert (B1 := F_cl I W b Hb).
    assert (NL := near_levels_pos I W b ltac:(lia)). unfold last_int in Hc.
    assert (M := int_meet b (near_levels I st b - 1) c ltac:(lia) ltac:(lia) Hc). assert (F := int_front I W b (near_levels I st b - 1) c ltac:(lia) ltac:(lia) Hc).
    split; [lia|]. split; [apply F|]. split; auto. split; [apply childless_front; auto|auto].
  Qed.
  Lemma near_larger_per_block b L : b < length bs -> NoDup L -> (forall c, In c L -> In (b, c) (near_pairs I) /\ b_level (B c) <= b_level (B b)) -> length L <= 27.
  Proof.
    intros Hb ND HL. apply (count27 b); auto.
    - intros c Hc. destruct (HL c Hc) as (H1 & H2). destruct (near_pair_facts b c H1) as (_ & F1 & F2 & _). auto.
    - intros c c' Hc Hc' NE. destruct (HL c Hc) as (H1 & _). destruct (HL c' Hc') as (H1' & _).
      destruct (near_pair_facts b c H1) as (_ & _ & _ & _ & F). destruct (near_pair_facts b c' H1') as (_ & _ & _ & _ & F'). apply (front_apart I W _ _ _ F F' NE).
  Qed.
  Lemma near_smaller_per_block c L : c < length bs -> NoDup L -> (forall b, In b L -> In (b, c) (near_pairs I) /\ b_level (B b) <= b_level (B c)) -> length L <= 27.
  Proof.
    intros Hc ND HL. apply (count27 c); auto.
    - intros b Hb. destruct (HL b Hb) as (H1 & H2). destruct (near_pair_facts b c H1) as (F0 & F1 & F2 & _). split; [lia|]. split; auto. apply meet_sym; auto.
    - intros b b' Hb Hb' NE. destruct (HL b Hb) as (H1 & _). destruct (HL b' Hb') as (H1' & _).
      destruct (near_pair_facts b c H1) as (_ & _ & _ & F & _). destruct (near_pair_facts b' c H1') as (_ & _ & _ & F' & _). apply (front_apart I W N); auto.
  Qed.
  Lemma filter_split {A} (t : A -> bool) l : length l = length (filter t l) + length (filter (fun x => negb (t x)) l).
  Proof. induction l as [|x l IH]; cbn; [lia|]. destruct (t x); cbn; lia. Qed.
  Lemma near_total : length (near_pairs I) <= 54 * num_blocks st.
  Proof.
    rewrite (filter_split (fun p => Nat.leb (b_level (B (snd p))) (b_level (B (fst p)))) (near_pairs I)).
    assert (A1 : length (filter (fun p => Nat.leb (b_level (B (snd p))) (b_level (B (fst p)))) (near_pairs I)) <= 27 * num_blocks st).
    { apply count_by_first.
      - intros (b & c) Hp. apply filter_In in Hp. destruct Hp as (Hp & _). destruct (near_pair_facts b c Hp) as (F & _). apply F.
      - intros b Hb. apply fiber_first; [apply NoDup_filter, near_pairs_nodup|]. intros L ND HL. apply (near_larger_per_block b); auto.
        intros c Hc. specialize (HL c Hc). apply filter_In in HL. cbn in HL. rewrite Nat.leb_le in HL. exact HL. }
    assert (A2 : length (filter (fun p => negb (Nat.leb (b_level (B (snd p))) (b_level (B (fst p))))) (near_pairs I)) <= 27 * num_blocks st).
    { apply count_by_second.
      - intros (b & c) Hp. apply filter_In in Hp. destruct Hp as (Hp & _). destruct (near_pair_facts b c Hp) as (_ & F & _). cbn. exact F.
      - intros c Hc. apply fiber_second; [apply NoDup_filter, near_pairs_nodup|]. intros L ND HL. apply (near_smaller_per_block c); auto.
        intros b Hb. specialize (HL b Hb). apply filter_In in HL. cbn in HL. rewrite negb_true_iff, Nat.leb_gt in HL. destruct HL as (HL1 & HL2). split; [exact HL1|apply Nat.lt_le_incl; exact HL2]. }
    lia.
  Qed.
  Lemma m2l_total : length (m2l_pairs I) <= 189 * num_blocks st.
  Proof.
    apply count_by_first; [intros p Hp; apply (over_bound (t_same I)); auto|]. intros b Hb. apply fiber_first; [apply (over_nodup (t_same I))|].
    intros L ND HL. apply (m2l_per_block b); auto.
  Qed.
  Lemma bigger_total : length (bigger_pairs I) <= 27 * num_blocks st.
  Proof.
    apply count_by_first; [intros p Hp; apply (over_bound (t_big I)); auto|]. intros b Hb. apply fiber_first; [apply (over_nodup (t_big I))|].
    intros L ND HL. apply (bigger_per_block b); auto.
  Qed.
  Lemma evaluation_total : length (evaluation_pairs I) <= 27 * num_blocks st.
  Proof.
    apply count_by_second; [intros p Hp; apply (over_bound (t_small I)); auto|]. intros c Hc. apply fiber_second; [apply (over_nodup (t_small I))|].
    intros L ND HL. apply (evaluation_per_block c); auto.
  Qed.
End Workload.
