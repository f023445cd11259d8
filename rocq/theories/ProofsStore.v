From Coq Require Import ZArith List Bool Lia Psatz.
From Verif Require Import ModelStore.
Import ListNotations.
Local Open Scope Z_scope.

Lemma u32_small z : 0 <= z < 2 ^ 32 -> u32 z = z.
Proof. intros H. unfold u32. now rewrite Z.mod_small. Qed.

Section Upd.
  Context {A : Type}.
  Implicit Types (l : list A).
  Lemma list_upd_length l k v : length (list_upd l k v) = length l.
  Proof. revert k; induction l as [|x l IH]; intros [|k]; simpl; auto. Qed.
  Lemma list_upd_same l k v : (k < length l)%nat -> nth_error (list_upd l k v) k = Some v.
  Proof. revert k; induction l as [|x l IH]; intros [|k] H; simpl in *; try lia; auto.
         apply IH; lia. Qed.
  Lemma list_upd_other l k k' v : k <> k' -> nth_error (list_upd l k v) k' = nth_error l k'.
  Proof. revert k k'; induction l as [|x l IH]; intros [|k] [|k'] H; simpl in *; auto; try lia. Qed.

  Lemma arr_get_in (buf : list A) i : 0 <= i < Z.of_nat (length buf) ->
    exists v, arr_get buf i = Some v.
  Proof.
    intros H. unfold arr_get. destruct (nth_error buf (Z.to_nat i)) eqn:E; [eauto|].
    apply nth_error_None in E. lia.
  Qed.
  Lemma arr_set_in (buf : list A) i v : 0 <= i < Z.of_nat (length buf) ->
    arr_set buf i v = Some (list_upd buf (Z.to_nat i) v).
  Proof. intros H. unfold arr_set. destruct (Nat.ltb_spec (Z.to_nat i) (length buf)); [auto|lia]. Qed.
End Upd.

(** ** triangular index *)
Lemma tri_half n : 0 <= n -> exists k, n * (n + 1) = 2 * k /\ n * (n + 1) / 2 = k.
Proof.
  intros H. destruct (Z.Even_or_Odd n) as [[q Hq]|[q Hq]].
  - exists (q * (n + 1)). split; [subst; ring|].
    replace (n * (n + 1)) with (q * (n + 1) * 2) by (subst; ring). apply Z.div_mul; lia.
  - exists (n * (q + 1)). split; [subst; ring|].
    replace (n * (n + 1)) with (n * (q + 1) * 2) by (subst; ring). apply Z.div_mul; lia.
Qed.

Definition T (n : Z) : Z := n * (n + 1) / 2.

Lemma T_spec n : 0 <= n -> 2 * T n = n * (n + 1).
Proof. intros H. unfold T. destruct (tri_half n H) as [k [H1 H2]]. lia. Qed.

Lemma tri_size_eq p : 0 <= p -> (p + 1) * (p + 2) < 2 ^ 32 -> tri_size p = T (p + 1).
Proof.
  intros Hp H. unfold tri_size, T. rewrite (u32_small (p + 1)), (u32_small (p + 2)) by nia.
  rewrite u32_small by nia. f_equal. ring.
Qed.

Lemma tri_index_eq p n m : 0 <= p -> (p + 1) * (p + 2) < 2 ^ 32 -> 0 <= m <= n -> n <= p ->
  tri_index n m = T n + m.
Proof.
  intros Hp H Hm Hn. unfold tri_index. rewrite (u32_small (n + 1)) by nia.
  rewrite (u32_small (n * (n + 1))) by nia. fold (T n).
  assert (HT := T_spec n ltac:(lia)). apply u32_small. nia.
Qed.

Lemma T_mono n n' : 0 <= n -> n < n' -> T n + n < T n'.
Proof. intros H H'. assert (H1 := T_spec n H). assert (H2 := T_spec n' ltac:(lia)). nia. Qed.

Lemma tri_inj p n m n' m' : 0 <= p -> (p + 1) * (p + 2) < 2 ^ 32 ->
  0 <= m <= n -> n <= p -> 0 <= m' <= n' -> n' <= p ->
  tri_index n m = tri_index n' m' -> n = n' /\ m = m'.
Proof.
  intros Hp H H1 H2 H3 H4 E.
  rewrite (tri_index_eq p), (tri_index_eq p) in E by lia.
  destruct (Z.lt_trichotomy n n') as [L|[->|L]].
  - assert (G := T_mono n n' ltac:(lia) L). lia.
  - lia.
  - assert (G := T_mono n' n ltac:(lia) L). lia.
Qed.

Lemma tri_range p n m : 0 <= p -> (p + 1) * (p + 2) < 2 ^ 32 -> 0 <= m <= n -> n <= p ->
  0 <= tri_index n m < tri_size p.
Proof.
  intros Hp H H1 H2. rewrite (tri_index_eq p), tri_size_eq by lia.
  assert (G1 := T_spec n ltac:(lia)). assert (G2 := T_spec (p + 1) ltac:(lia)). nia.
Qed.

Lemma T_cover (k : nat) : forall i, 0 <= i < T (Z.of_nat k) ->
  exists n m, 0 <= m <= n /\ n < Z.of_nat k /\ T n + m = i.
Proof.
  induction k as [|k IH]; intros i Hi.
  - change (T (Z.of_nat 0)) with 0 in Hi. lia.
  - assert (G1 := T_spec (Z.of_nat k) ltac:(lia)). assert (G2 := T_spec (Z.of_nat (S k)) ltac:(lia)).
    destruct (Z_lt_le_dec i (T (Z.of_nat k))) as [L|L].
    + destruct (IH i ltac:(lia)) as (n & m & A & B & C). exists n, m. lia.
    + exists (Z.of_nat k), (i - T (Z.of_nat k)). nia.
Qed.

Lemma tri_surj p i : 0 <= p -> (p + 1) * (p + 2) < 2 ^ 32 -> 0 <= i < tri_size p ->
  exists n m, 0 <= m <= n /\ n <= p /\ tri_index n m = i.
Proof.
  intros Hp H Hi. rewrite tri_size_eq in Hi by lia.
  destruct (T_cover (Z.to_nat (p + 1)) i) as (n & m & A & B & C).
  { rewrite Z2Nat.id by lia. exact Hi. }
  exists n, m. rewrite (tri_index_eq p) by lia. lia.
Qed.

Lemma coeff_store_lemma {A} (p : Z) (buf : list A) :
  0 <= p -> (p + 1) * (p + 2) < 2 ^ 32 -> Z.of_nat (length buf) = tri_size p ->
  forall n m v, 0 <= m <= n -> n <= p ->
  exists buf', set_coeff buf n m v = Some buf'
    /\ length buf' = length buf
    /\ get_coeff buf' n m = Some v
    /\ forall n' m', 0 <= m' <= n' -> n' <= p -> (n', m') <> (n, m) ->
         exists w, get_coeff buf n' m' = Some w /\ get_coeff buf' n' m' = Some w.
Proof.
  intros Hp H HL n m v Hm Hn.
  assert (R := tri_range p n m Hp H Hm Hn).
  exists (list_upd buf (Z.to_nat (tri_index n m)) v). unfold set_coeff, get_coeff.
  split; [apply arr_set_in; lia|]. split; [apply list_upd_length|].
  split; [unfold arr_get; apply list_upd_same; lia|].
  intros n' m' Hm' Hn' NE. assert (R' := tri_range p n' m' Hp H Hm' Hn').
  destruct (arr_get_in buf (tri_index n' m') ltac:(lia)) as [w Hw]. exists w. split; [exact Hw|].
  unfold arr_get in *. rewrite list_upd_other; [exact Hw|].
  intros E. apply NE. assert (E' : tri_index n m = tri_index n' m') by lia.
  apply (tri_inj p) in E'; try lia. destruct E'; subst; auto.
Qed.

Lemma add_coeff_lemma {A} (plus : A -> A -> A) (p : Z) (buf : list A) :
  0 <= p -> (p + 1) * (p + 2) < 2 ^ 32 -> Z.of_nat (length buf) = tri_size p ->
  forall n m v, 0 <= m <= n -> n <= p ->
  exists old buf', get_coeff buf n m = Some old
    /\ add_to_coeff plus buf n m v = Some buf'
    /\ length buf' = length buf
    /\ get_coeff buf' n m = Some (plus old v)
    /\ forall n' m', 0 <= m' <= n' -> n' <= p -> (n', m') <> (n, m) ->
         get_coeff buf' n' m' = get_coeff buf n' m'.
Proof.
  intros Hp H HL n m v Hm Hn. assert (R := tri_range p n m Hp H Hm Hn).
  destruct (arr_get_in buf (tri_index n m) ltac:(lia)) as [old Ho].
  destruct (coeff_store_lemma p buf Hp H HL n m (plus old v) Hm Hn) as (b & B1 & B2 & B3 & B4).
  exists old, b. unfold add_to_coeff. rewrite Ho. repeat split; auto.
  intros n' m' Hm' Hn' NE. destruct (B4 n' m' Hm' Hn' NE) as (w & W1 & W2). congruence.
Qed.

Lemma new_buffer_length {A} (zero : A) p : 0 <= p -> (p + 1) * (p + 2) < 2 ^ 32 ->
  Z.of_nat (length (new_buffer zero p)) = tri_size p.
Proof.
  intros Hp H. unfold new_buffer. rewrite repeat_length, Z2Nat.id; [reflexivity|].
  rewrite tri_size_eq by lia. assert (G := T_spec (p + 1) ltac:(lia)). nia.
Qed.

Lemma new_buffer_zero {A} (zero : A) p n m : 0 <= p -> (p + 1) * (p + 2) < 2 ^ 32 ->
  0 <= m <= n -> n <= p -> get_coeff (new_buffer zero p) n m = Some zero.
Proof.
  intros Hp H Hm Hn. assert (R := tri_range p n m Hp H Hm Hn).
  assert (L := new_buffer_length zero p Hp H).
  destruct (arr_get_in (new_buffer zero p) (tri_index n m) ltac:(lia)) as [w Hw].
  unfold get_coeff. rewrite Hw. f_equal. unfold arr_get in Hw.
  apply nth_error_In in Hw. apply repeat_spec in Hw. exact Hw.
Qed.

(** ** multipole-to-local table *)
Definition lec_ok (p n m nn mm : Z) : Prop := 0 <= m <= n /\ n <= p /\ 0 <= nn <= p /\ - nn <= mm <= nn.

Lemma u32_wrap nn mm p : 0 <= nn <= p -> p + 1 < 2 ^ 31 -> - nn <= mm <= nn -> u32 (u32 mm + nn) = mm + nn.
Proof.
  intros H1 H2 H3. unfold u32. rewrite Z.add_mod_idemp_l by lia. apply Z.mod_small. lia.
Qed.

Lemma cube_small p : 0 <= p -> (p + 1) ^ 3 * (p + 2) < 2 ^ 32 -> p <= 254.
Proof.
  intros Hp H. destruct (Z_le_gt_dec p 254) as [L|L]; [exact L|exfalso].
  assert (256 ^ 3 <= (p + 1) ^ 3) by (apply Z.pow_le_mono_l; lia).
  assert (256 ^ 3 * 257 <= (p + 1) ^ 3 * (p + 2)) by nia. lia.
Qed.

Lemma mul_le_l q a b : 0 <= q -> a <= b -> q * a <= q * b.
Proof. intros; apply Z.mul_le_mono_nonneg_l; assumption. Qed.
Lemma mul_0_le a b : 0 <= a -> 0 <= b -> 0 <= a * b.
Proof. apply Z.mul_nonneg_nonneg. Qed.
Lemma tri_mono n p : 0 <= n -> n <= p -> n * (n + 1) <= p * (p + 1).
Proof. intros; apply Z.mul_le_mono_nonneg; lia. Qed.
Lemma sq_bound nn p : 0 <= nn <= p -> nn * nn + nn + nn < (p + 1) * (p + 1) /\ 0 <= nn * nn.
Proof.
  intros H. assert (nn * nn <= p * p) by (apply Z.mul_le_mono_nonneg; lia).
  split; [lia|apply mul_0_le; lia].
Qed.

Lemma lec_index_eq p n m nn mm : 0 <= p -> (p + 1) ^ 3 * (p + 2) < 2 ^ 32 -> lec_ok p n m nn mm ->
  lec_index p n m nn mm = (nn * nn + nn + mm) + (p + 1) * (p + 1) * (T n + m).
Proof.
  intros Hp H (Hm & Hn & Hnn & Hmm). assert (Hs := cube_small p Hp H).
  unfold lec_index, lec_nn_offset, lec_m_offset, lec_n_offset.
  rewrite (u32_wrap nn mm p) by lia.
  rewrite (u32_small (p + 1)), (u32_small (n + 1)) by lia.
  destruct (sq_bound nn p Hnn) as [S1 S2].
  assert (E3 : (p + 1) ^ 3 * (p + 2) = (p + 1) * (p + 1) * ((p + 1) * (p + 2))) by ring.
  rewrite E3 in H. clear E3.
  assert (Hq : 1 <= (p + 1) * (p + 1) <= 255 * 255).
  { split; [change 1 with (1 * 1)|]; apply Z.mul_le_mono_nonneg; lia. }
  set (q := (p + 1) * (p + 1)) in *. clearbody q.
  assert (GT := T_spec n ltac:(lia)).
  assert (B := mul_le_l q _ _ ltac:(lia) (tri_mono n p ltac:(lia) Hn)).
  assert (B0 : 0 <= n * (n + 1)) by (apply mul_0_le; lia).
  assert (M := mul_le_l q _ _ ltac:(lia) (proj2 Hm)).
  assert (M' := mul_le_l q _ _ ltac:(lia) Hn).
  assert (M0 : 0 <= q * m) by (apply mul_0_le; lia).
  assert (P0 : 0 <= q * (p * (p + 1))) by (apply mul_0_le; [lia|apply mul_0_le; lia]).
  assert (C4 : 2 * q + 2 * (q * p) + q * (p * (p + 1)) = q * ((p + 1) * (p + 2))) by ring.
  assert (P1 : 0 <= q * p) by (apply mul_0_le; lia).
  assert (B1 : 0 <= q * (n * (n + 1))) by (apply mul_0_le; lia).
  assert (N0 : 0 <= q * n) by (apply mul_0_le; lia).
  rewrite (u32_small q) by lia.
  rewrite (u32_small (q * (n + 1))) by lia.
  replace (q * (n + 1) * n) with (q * (n * (n + 1))) by ring.
  rewrite (u32_small (q * (n * (n + 1)))) by lia.
  rewrite (u32_small (nn * nn)) by lia.
  rewrite (u32_small (q * m)) by lia.
  assert (C1 : 2 * (q * T n) = q * (n * (n + 1))) by (rewrite <- GT; ring).
  replace (q * (n * (n + 1)) / 2) with (q * T n).
  2:{ rewrite <- C1, (Z.mul_comm 2). symmetry. apply Z.div_mul. lia. }
  rewrite (u32_small (mm + nn + nn * nn)) by lia.
  rewrite (u32_small (mm + nn + nn * nn + q * m)) by lia.
  rewrite u32_small by lia. ring.
Qed.

Lemma lec_size_eq p : 0 <= p -> (p + 1) ^ 3 * (p + 2) < 2 ^ 32 ->
  lec_size p = (p + 1) * (p + 1) * T (p + 1).
Proof.
  intros Hp H. assert (Hs := cube_small p Hp H). unfold lec_size.
  rewrite (u32_small (p + 1)), (u32_small (p + 2)) by lia.
  rewrite (u32_small ((p + 1) * (p + 1))) by nia.
  rewrite (u32_small ((p + 1) * (p + 1) * (p + 1))) by nia.
  rewrite u32_small.
  2:{ replace ((p + 1) * (p + 1) * (p + 1) * (p + 2)) with ((p + 1) ^ 3 * (p + 2)) by ring. nia. }
  assert (GT := T_spec (p + 1) ltac:(lia)).
  replace ((p + 1) * (p + 1) * (p + 1) * (p + 2)) with ((p + 1) * (p + 1) * T (p + 1) * 2) by nia.
  now rewrite Z.div_mul by lia.
Qed.

Lemma sq_inj a b x y : 0 <= a -> 0 <= b -> - a <= x <= a -> - b <= y <= b ->
  a * a + a + x = b * b + b + y -> a = b /\ x = y.
Proof.
  intros Ha Hb Hx Hy E. destruct (Z.lt_trichotomy a b) as [L|[->|L]].
  - assert (a * a + a + a < b * b) by nia. lia.
  - lia.
  - assert (b * b + b + b < a * a) by nia. lia.
Qed.

Lemma radix_inj q a b x y : 0 < q -> 0 <= x < q -> 0 <= y < q -> x + q * a = y + q * b -> x = y /\ a = b.
Proof.
  intros Hq Hx Hy E. assert (a = b).
  { assert (E1 : (x + q * a) / q = a) by (rewrite Z.mul_comm, Z.div_add, Z.div_small; lia).
    assert (E2 : (y + q * b) / q = b) by (rewrite Z.mul_comm, Z.div_add, Z.div_small; lia).
    congruence. }
  subst. lia.
Qed.

Lemma lec_range p n m nn mm : 0 <= p -> (p + 1) ^ 3 * (p + 2) < 2 ^ 32 -> lec_ok p n m nn mm ->
  0 <= lec_index p n m nn mm < lec_size p.
Proof.
  intros Hp H Hok. rewrite lec_index_eq, lec_size_eq by assumption. clear H.
  destruct Hok as (Hm & Hn & Hnn & Hmm). destruct (sq_bound nn p Hnn) as [S1 S2].
  assert (GT := T_spec n ltac:(lia)). assert (GT' := T_spec (p + 1) ltac:(lia)).
  assert (M := tri_mono n p ltac:(lia) Hn).
  assert (B : T n + m + 1 <= T (p + 1)) by lia.
  assert (0 <= n * (n + 1)) by (apply mul_0_le; lia).
  assert (0 <= T n) by lia.
  set (q := (p + 1) * (p + 1)) in *.
  assert (0 < q) by lia. assert (0 <= q * (T n + m)) by (apply mul_0_le; lia).
  split; [lia|]. assert (B' := mul_le_l q _ _ ltac:(lia) B). lia.
Qed.

Lemma lec_inj p n m nn mm n' m' nn' mm' : 0 <= p -> (p + 1) ^ 3 * (p + 2) < 2 ^ 32 ->
  lec_ok p n m nn mm -> lec_ok p n' m' nn' mm' ->
  lec_index p n m nn mm = lec_index p n' m' nn' mm' -> n = n' /\ m = m' /\ nn = nn' /\ mm = mm'.
Proof.
  intros Hp H O1 O2 E. rewrite !lec_index_eq in E by assumption.
  destruct O1 as (A1 & A2 & A3 & A4), O2 as (B1 & B2 & B3 & B4).
  clear H. apply radix_inj in E; [|nia|nia|nia]. destruct E as [E1 E2].
  apply sq_inj in E1; try lia. destruct E1.
  assert (n = n' /\ m = m'); [|tauto].
  destruct (Z.lt_trichotomy n n') as [L|[->|L]].
  - assert (G := T_mono n n' ltac:(lia) L). lia.
  - lia.
  - assert (G := T_mono n' n ltac:(lia) L). lia.
Qed.

Lemma sq_cover (k : nat) : forall x, 0 <= x < Z.of_nat k * Z.of_nat k ->
  exists a r, 0 <= a < Z.of_nat k /\ - a <= r <= a /\ a * a + a + r = x.
Proof.
  induction k as [|k IH]; intros x Hx; [lia|].
  destruct (Z_lt_le_dec x (Z.of_nat k * Z.of_nat k)) as [L|L].
  - destruct (IH x ltac:(lia)) as (a & r & A & B & C). exists a, r. lia.
  - exists (Z.of_nat k), (x - Z.of_nat k * Z.of_nat k - Z.of_nat k). nia.
Qed.

Lemma lec_surj p i : 0 <= p -> (p + 1) ^ 3 * (p + 2) < 2 ^ 32 -> 0 <= i < lec_size p ->
  exists n m nn mm, lec_ok p n m nn mm /\ lec_index p n m nn mm = i.
Proof.
  intros Hp H Hi. rewrite lec_size_eq in Hi by assumption.
  set (q := (p + 1) * (p + 1)) in *. assert (Hq : 0 < q) by (unfold q; nia).
  assert (D := Z.div_mod i q ltac:(lia)). assert (M := Z.mod_pos_bound i q Hq).
  destruct (sq_cover (Z.to_nat (p + 1)) (i mod q)) as (a & r & A & B & C).
  { rewrite Z2Nat.id by lia. exact M. }
  destruct (T_cover (Z.to_nat (p + 1)) (i / q)) as (n & m & N1 & N2 & N3).
  { rewrite Z2Nat.id by lia. split; [apply Z.div_pos; lia|].
    apply Z.div_lt_upper_bound; lia. }
  exists n, m, a, r. assert (O : lec_ok p n m a r) by (unfold lec_ok; lia). split; [exact O|].
  rewrite lec_index_eq by assumption. fold q. rewrite N3. lia.
Qed.

Lemma lec_store_lemma {A} (p : Z) (buf : list A) :
  0 <= p -> (p + 1) ^ 3 * (p + 2) < 2 ^ 32 -> Z.of_nat (length buf) = lec_size p ->
  forall n m nn mm v, lec_ok p n m nn mm ->
  exists buf', lec_set p buf n m nn mm v = Some buf'
    /\ length buf' = length buf
    /\ lec_get p buf' n m nn mm = Some v
    /\ forall n' m' nn' mm', lec_ok p n' m' nn' mm' -> (n', m', nn', mm') <> (n, m, nn, mm) ->
         exists w, lec_get p buf n' m' nn' mm' = Some w /\ lec_get p buf' n' m' nn' mm' = Some w.
Proof.
  intros Hp H HL n m nn mm v Hok. assert (R := lec_range p n m nn mm Hp H Hok).
  exists (list_upd buf (Z.to_nat (lec_index p n m nn mm)) v). unfold lec_set, lec_get.
  split; [apply arr_set_in; lia|]. split; [apply list_upd_length|].
  split; [unfold arr_get; apply list_upd_same; lia|].
  intros n' m' nn' mm' Hok' NE. assert (R' := lec_range p _ _ _ _ Hp H Hok').
  destruct (arr_get_in buf (lec_index p n' m' nn' mm') ltac:(lia)) as [w Hw]. exists w. split; [exact Hw|].
  unfold arr_get in *. rewrite list_upd_other; [exact Hw|].
  intros E. apply NE. assert (E' : lec_index p n m nn mm = lec_index p n' m' nn' mm') by lia.
  apply lec_inj in E'; try assumption. destruct E' as (-> & -> & -> & ->). reflexivity.
Qed.

(** ** copying the table *)
Lemma memcpy_cells_length {A} w (l : list (cell A)) k : length (memcpy_cells w l k) = length l.
Proof. revert k; induction l as [|x l IH]; intros k; simpl; auto. Qed.

Lemma memcpy_cells_nth {A} w (l : list (cell A)) k i : 0 < w -> (i < length l)%nat ->
  nth_error (memcpy_cells w l k) i =
  if Z.of_nat i * w + w <=? k then nth_error l i else Some Uninit.
Proof.
  intros Hw. revert k i; induction l as [|x l IH]; intros k i Hi; simpl in Hi; [lia|].
  destruct i as [|i].
  - cbn [nth_error memcpy_cells Z.of_nat]. rewrite Z.mul_0_l, Z.add_0_l. destruct (w <=? k); reflexivity.
  - cbn [nth_error memcpy_cells]. rewrite IH by lia.
    replace (Z.of_nat i * w + w <=? k - w) with (Z.of_nat (S i) * w + w <=? k); [reflexivity|].
    apply eq_true_iff_eq. rewrite !Z.leb_le. nia.
Qed.

Lemma lec_copy_char {A} p (orig : list (cell A)) n m nn mm :
  0 <= p -> (p + 1) ^ 3 * (p + 2) < 2 ^ 32 -> Z.of_nat (length orig) = lec_size p ->
  lec_ok p n m nn mm ->
  lec_get p (lec_copy p orig) n m nn mm =
  if 8 * lec_index p n m nn mm + 8 <=? lec_size p then lec_get p orig n m nn mm else Some Uninit.
Proof.
  intros Hp H HL Hok. assert (R := lec_range p _ _ _ _ Hp H Hok).
  unfold lec_get, lec_copy, arr_get. rewrite memcpy_cells_nth by lia.
  rewrite Z2Nat.id by lia. replace (lec_index p n m nn mm * 8 + 8) with (8 * lec_index p n m nn mm + 8) by lia.
  reflexivity.
Qed.

Lemma lec_last_ok p : 0 <= p -> lec_ok p p p p p.
Proof. unfold lec_ok; lia. Qed.
Lemma lec_last_index p : 0 <= p -> (p + 1) ^ 3 * (p + 2) < 2 ^ 32 -> lec_index p p p p p = lec_size p - 1.
Proof.
  intros Hp H. rewrite lec_index_eq, lec_size_eq by auto using lec_last_ok.
  assert (G := T_spec p ltac:(lia)). assert (G' := T_spec (p + 1) ltac:(lia)).
  assert (T (p + 1) = T p + p + 1) by nia. nia.
Qed.

Lemma lec_copy_loses_last {A} p (orig : list (cell A)) :
  0 <= p -> (p + 1) ^ 3 * (p + 2) < 2 ^ 32 -> Z.of_nat (length orig) = lec_size p ->
  lec_get p (lec_copy p orig) p p p p = Some Uninit.
Proof.
  intros Hp H HL. rewrite lec_copy_char by auto using lec_last_ok.
  rewrite lec_last_index by assumption.
  assert (R := lec_range p _ _ _ _ Hp H (lec_last_ok p Hp)).
  destruct (Z.leb_spec (8 * (lec_size p - 1) + 8) (lec_size p)); [lia|reflexivity].
Qed.

(** ** reachable table indices of the expansion loops (C10) *)
