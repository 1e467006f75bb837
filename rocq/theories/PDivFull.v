(** * Proofs about MDiv.v, part 3: the entry points *)

Require Import ZArith List Bool Lia.
From Verif Require Import Prim Spec Facts MAdd PAdd PMul MShift PShift MCore PCore PBits MDiv DivSpec PDiv PKnuth.
Import ListNotations.
Local Open Scope Z_scope.

Lemma scaled_lt : forall x p b n m d, 0 < p -> 0 < n -> 0 < m -> 2 <= b -> p * 2 <= b -> n <= 2 * d ->
  x < n * m -> x * p < d * (m * b).
Proof.
  intros x p b n m d Hp Hn Hm Hb Hpb Hnd Hx.
  assert (x * p < n * m * p) by (apply Z.mul_lt_mono_pos_r; lia).
  assert (n * p <= d * b).
  { assert (n * (p * 2) <= 2 * d * b) by (apply Z.mul_le_mono_nonneg; lia). lia. }
  assert (n * p * m <= d * b * m) by (apply Z.mul_le_mono_nonneg_r; lia). lia.
Qed.

Section P.
Context {c : Cfg}.
Hypothesis HW : 2 <= W <= 64.

Local Notation B := (2 ^ W).
Local Notation pw n := (2 ^ (W * Z.of_nat n)).
Local Notation pwpos := (pwpos HW).
Local Notation Bp2 := (Bp2 HW).
Local Notation Wn := (Wn HW).

(** The remainder array of long division: the true remainder and the stray
    carries. *)
Lemma stray_eq : forall M n s corr len a, 0 <= s <= W -> (1 <= n)%nat ->
  fold_right (fun j acc =>
      (if corr j && (j + n <? M)%nat then 2 ^ (W * Z.of_nat (j + n) - s) else 0) + acc) 0 (seq a len)
  = 2 ^ (W * Z.of_nat (a + n) - s) * lval W (firstn (M - n - a) (map (fun j => b2z (corr j)) (seq a len))).
Proof.
  intros M n s corr len. induction len; intros a Hs Hn; cbn [seq fold_right map].
  - rewrite firstn_nil. cbn [lval]. lia.
  - rewrite IHlen by auto. destruct (Nat.ltb_spec (a + n) M).
    + replace (M - n - a)%nat with (S (M - n - S a)) by lia. cbn [firstn lval].
      replace (W * Z.of_nat (S a + n) - s) with ((W * Z.of_nat (a + n) - s) + W) by lia.
      rewrite Z.pow_add_r by nia. rewrite andb_true_r. destruct (corr a); cbn [b2z]; ring.
    + replace (M - n - a)%nat with 0%nat by lia. replace (M - n - S a)%nat with 0%nat by lia.
      cbn [firstn lval]. rewrite andb_false_r. lia.
Qed.

Lemma div_rem_knuth_ok : forall x y n m,
  digits W x -> digits W y -> (length y <= length x)%nat ->
  (2 <= n <= length y)%nat -> (n + m <= length x)%nat ->
  pw (n - 1) <= lval W y < pw n -> pw (n + m - 1) <= lval W x < pw (n + m) ->
  (n = length y -> has_correction W (lval W x) (lval W y) = true -> div_rem_knuth x y n m = Panic) /\
  ((n < length y)%nat \/ has_correction W (lval W x) (lval W y) = false ->
   div_rem_knuth x y n m =
   Ok (lenc W (length x) (lval W x / lval W y),
       lenc W (length y) (lval W x mod lval W y + stray W (length x) (lval W x) (lval W y)))).
Proof.
  intros x y n m Hx Hy HL Hn Hm Hyv Hxv. unfold div_rem_knuth.
  replace (n + m <=? length x)%nat with true by (symmetry; apply Nat.leb_le; lia). cbn [assert_ bind].
  rewrite get_ok by lia. cbn [bind].
  assert (Hn1 : (1 <= n <= length y)%nat) by lia.
  rewrite (norm_shift_eq HW y n) by auto.
  destruct (top_limb_bounds HW y n Hy Hn1 Hyv) as (Ey & Ht & Hp).
  assert (Hs : 0 <= norm_shift W (lval W y) < W /\
    pw n <= 2 * (lval W y * 2 ^ norm_shift W (lval W y)) /\ lval W y * 2 ^ norm_shift W (lval W y) < pw n).
  { unfold norm_shift. rewrite (limbs_of_eq HW _ n) by (auto; lia).
    pose proof (pwpos (n - 1)). assert (Hy0 : 0 < lval W y) by lia.
    assert (H1 : W * Z.of_nat (n - 1) <= Z.log2 (lval W y)) by (apply Z.log2_le_pow2; lia).
    assert (H2 : Z.log2 (lval W y) < W * Z.of_nat n) by (apply Z.log2_lt_pow2; lia).
    pose proof (Z.log2_spec (lval W y) Hy0) as Hl. pose proof (Z.log2_nonneg (lval W y)).
    rewrite Z.pow_succ_r in Hl by lia. set (k := Z.log2 (lval W y)) in *.
    assert (E : pw n = 2 * (2 ^ k * 2 ^ (W * Z.of_nat n - 1 - k))).
    { rewrite <- Z.pow_add_r by lia. rewrite <- Z.pow_succ_r by lia. f_equal. lia. }
    assert (Hq : 0 < 2 ^ (W * Z.of_nat n - 1 - k)) by (apply pow2_pos; lia).
    rewrite Nat2Z.inj_sub in H1 by lia.
    split; [lia|]. rewrite E. set (t := 2 ^ (W * Z.of_nat n - 1 - k)) in *. set (u := 2 ^ k) in *.
    clear - Hl Hq. split; nia. }
  assert (Ehc : has_correction W (lval W x) (lval W y) =
    existsb (overestimated W n (lval W x * 2 ^ norm_shift W (lval W y)) (lval W y * 2 ^ norm_shift W (lval W y)))
      (seq 0 (m + 1))).
  { unfold has_correction. rewrite (limbs_of_eq HW (lval W y) n), (limbs_of_eq HW (lval W x) (n + m)) by (auto; lia).
    rewrite !Nat2Z.id. replace (n + m - n)%nat with m by lia. reflexivity. }
  assert (Est : stray W (length x) (lval W x) (lval W y) =
    2 ^ (W * Z.of_nat n - norm_shift W (lval W y)) *
    lval W (firstn (length x - n) (map (fun j => b2z
      (overestimated W n (lval W x * 2 ^ norm_shift W (lval W y)) (lval W y * 2 ^ norm_shift W (lval W y)) j))
      (seq 0 (m + 1))))).
  { unfold stray. rewrite (limbs_of_eq HW (lval W y) n), (limbs_of_eq HW (lval W x) (n + m)) by (auto; lia).
    rewrite !Nat2Z.id. replace (n + m - n)%nat with m by lia.
    rewrite stray_eq by lia. rewrite Nat.sub_0_r. reflexivity. }
  rewrite Ehc, Est. clear Ehc Est.
  destruct Hs as (Hs & HD1 & HD2). set (s := norm_shift W (lval W y)) in *.
  set (A := lval W x * 2 ^ s) in *. set (D := lval W y * 2 ^ s) in *.
  assert (Hps : 0 < 2 ^ s) by (apply pow2_pos; lia).
  assert (Hy0 : 0 < lval W y) by (pose proof (pwpos (n - 1)); lia).
  (* the normalised divisor *)
  assert (Hl1 : (1 <= length y)%nat) by lia.
  destruct (full_shl_ok HW y s Hy Hl1 Hs) as ((d & dt) & Ed & Ld & Dd & Vd).
  unfold flat in Vd, Dd. cbn [fst snd] in Vd, Dd, Ld.
  assert (Ed' : shl_word y s = Ok d) by (unfold shl_word; rewrite Ed; reflexivity).
  rewrite Ed'. cbn [bind].
  apply digits_app in Dd. destruct Dd as [Dd Ddt]. inversion Ddt as [|? ? Hdt _]; subst.
  rewrite (app_snoc_lval HW) in Vd. fold D in Vd.
  pose proof (lval_lt_pw HW d Dd) as Hdr.
  assert (Hnl : pw n <= pw (length y)) by (apply pw_mono; auto; lia).
  rewrite Ld in *.
  assert (dt = 0) by (clear - Vd Hdt HD2 Hnl Hdr; nia). subst dt. assert (Vd' : lval W d = D) by lia. clear Vd Ddt Hdt.
  (* the normalised numerator *)
  assert (Hl2 : (1 <= length x)%nat) by lia.
  destruct (full_shl_ok HW x s Hx Hl2 Hs) as (a & Ea & La & Da & Va). fold A in Va.
  rewrite Ea. cbn [bind]. rewrite (get_ok d) by lia. cbn [bind]. rewrite (get_ok d) by lia. cbn [bind].
  assert (HA : A < D * pw (m + 1)).
  { rewrite (pw_add HW m 1), pw_1. rewrite (pw_add HW n m) in Hxv.
    assert (2 ^ s * 2 <= B).
    { rewrite (pow2_half W) by lia. pose proof (pow2_le_mono s (W - 1)). lia. }
    apply (scaled_lt (lval W x) (2 ^ s) B (pw n) (pw m) D); auto; try lia; apply pwpos. }
  assert (HA0 : 0 <= A).
  { unfold A. pose proof (lval_lt_pw HW x Hx). apply Z.mul_nonneg_nonneg; lia. }
  destruct (knuth_loop_ok HW (length x) n m d D A) with (a := a) as [Hpn Hok]; auto; try lia.
  rewrite Ld in *.
  split.
  - intros Hnd Hc. rewrite (Hpn Hnd Hc). reflexivity.
  - intros Ho. destruct (Hok Ho) as (a' & q & E & Eq & La' & Da' & Va').
    rewrite E. cbn [bind]. rewrite (full_shr_ok HW) by (auto; lia). cbn [bind].
    rewrite (truncate_ok HW) by (rewrite ?length_lenc; auto using digits_lenc, Wn; lia). cbn [bind].
    f_equal. f_equal.
    + rewrite Eq. f_equal. unfold A, D. apply Z.div_mul_cancel_r; lia.
    + apply lenc_eq_mod; [lia|]. rewrite lval_lenc by lia.
      assert (Ediv : forall v, (v mod pw (length (fst a'))) mod pw (length y) = v mod pw (length y)).
      { intros v. rewrite La'. replace (length x) with (length y + (length x - length y))%nat by lia.
        rewrite (pw_add HW). pose proof (pwpos (length y)). pose proof (pwpos (length x - length y)).
        rewrite Z.rem_mul_r by lia. rewrite (Z.mul_comm (pw (length y))), Z.mod_add by lia.
        apply Z.mod_mod. lia. }
      rewrite Ediv. f_equal. rewrite Va'.
      replace (pw n) with (2 ^ (W * Z.of_nat n - s) * 2 ^ s).
      2:{ assert (0 <= W * (Z.of_nat n - 1)) by (apply Z.mul_nonneg_nonneg; lia).
          rewrite <- Z.pow_add_r by lia. f_equal. lia. }
      unfold A at 1, D at 1. rewrite Z.mul_mod_distr_r by lia.
      match goal with |- (_ + ?p * ?q * ?t) / ?q = _ => replace (p * q * t) with (p * t * q) by ring end.
      rewrite <- Z.mul_add_distr_r. apply Z.div_mul. lia.
Qed.

(** ** [full_gt] *)

Lemma full_gt_limb : forall x y, digits W x -> digits W y -> (1 <= length x)%nat -> (1 <= length y)%nat ->
  0 < lval W y < B ->
  full_gt x y = Ok (lenc W (length x) (lval W x / lval W y), lenc W (length y) (lval W x mod lval W y)).
Proof.
  intros x y Hx Hy Lx Ly Hv. unfold full_gt.
  destruct (last_index_ok HW y Hy Ly) as (i & Ei & Hi & Hlt & Hge). rewrite Ei. cbn [bind].
  assert (i = 0%nat).
  { destruct (Nat.eq_dec i 0); auto. assert (Hpw : pw 1 <= pw i) by (apply pw_mono; auto; lia).
    rewrite pw_1 in Hpw. specialize (Hge n). lia. }
  subst i. cbn [Nat.eqb]. rewrite get_ok by lia. cbn [bind].
  assert (E0 : nth 0 y 0 = lval W y).
  { transitivity (pv W y 1); [rewrite pv1; auto; lia|]. rewrite (pv_mod HW) by (auto; lia).
    rewrite pw_1. apply Z.mod_small. lia. }
  rewrite E0. apply limb_padded_ok; auto.
Qed.

Lemma full_gt_zero : forall x y, digits W x -> digits W y -> (1 <= length x)%nat -> (1 <= length y)%nat ->
  lval W y = 0 -> full_gt x y = Panic.
Proof.
  intros x y Hx Hy Lx Ly Hv. unfold full_gt.
  destruct (last_index_ok HW y Hy Ly) as (i & Ei & Hi & Hlt & Hge). rewrite Ei. cbn [bind].
  assert (i = 0%nat).
  { destruct (Nat.eq_dec i 0); auto. specialize (Hge n). pose proof (pwpos i). lia. }
  subst i. cbn [Nat.eqb]. rewrite get_ok by lia. cbn [bind].
  assert (E0 : nth 0 y 0 = 0).
  { transitivity (pv W y 1); [rewrite pv1; auto; lia|]. rewrite (pv_mod HW) by (auto; lia).
    rewrite Hv. apply Z.mod_0_l. pose proof (pwpos 1). lia. }
  rewrite E0. unfold limb_padded. rewrite (div_limb_0 HW) by auto. reflexivity.
Qed.

Lemma full_gt_ok : forall x y, digits W x -> digits W y -> (length y <= length x)%nat -> (2 <= length y)%nat ->
  B <= lval W y -> lval W y <= lval W x ->
  let full_div := pw (length y - 1) <= lval W y in
  (full_div -> has_correction W (lval W x) (lval W y) = true -> full_gt x y = Panic) /\
  (~ full_div \/ has_correction W (lval W x) (lval W y) = false ->
   full_gt x y =
   Ok (lenc W (length x) (lval W x / lval W y),
       lenc W (length y) (lval W x mod lval W y + stray W (length x) (lval W x) (lval W y)))).
Proof.
  intros x y Hx Hy HL Ly Hv Hle full_div. unfold full_gt.
  assert (Ly1 : (1 <= length y)%nat) by lia. assert (Lx1 : (1 <= length x)%nat) by lia.
  destruct (last_index_ok HW y Hy Ly1) as (i & Ei & Hi & Hlt & Hge). rewrite Ei. cbn [bind].
  assert (Hi0 : (1 <= i)%nat).
  { destruct i; [|lia]. change (S 0) with 1%nat in Hlt. rewrite pw_1 in Hlt. lia. }
  destruct (Nat.eqb_spec i 0) as [|_]; [lia|].
  destruct (last_index_ok HW x Hx Lx1) as (k & Ek & Hk & Hltk & Hgek). rewrite Ek. cbn [bind].
  assert (Hpi : pw i <= lval W y) by (apply Hge; lia).
  assert (Hik : (i <= k)%nat).
  { destruct (Nat.le_gt_cases i k); auto. exfalso.
    assert (pw (S k) <= pw i) by (apply pw_mono; auto; lia). lia. }
  replace (i <=? k)%nat with true by (symmetry; apply Nat.leb_le; lia). cbn [assert_ bind].
  assert (Hn1 : (i + 1 - 1)%nat = i) by lia. assert (Hn2 : (i + 1)%nat = S i) by lia.
  destruct (div_rem_knuth_ok x y (i + 1) (k - i)) as [Hp Ho]; auto; try lia.
  - rewrite Hn1, Hn2. lia.
  - replace (i + 1 + (k - i) - 1)%nat with k by lia. replace (i + 1 + (k - i))%nat with (S k) by lia.
    split; [apply Hgek; lia | auto].
  - assert (Hiff : full_div <-> (i + 1)%nat = length y).
    { unfold full_div. split; intros H.
      - destruct (Nat.le_gt_cases (length y) (i + 1)); [lia|]. exfalso.
        assert (pw (S i) <= pw (length y - 1)) by (apply pw_mono; auto; lia). lia.
      - replace (length y - 1)%nat with i by lia. auto. }
    split.
    + intros Hf Hc. apply Hp; auto. tauto.
    + intros [Hf|Hc]; apply Ho; auto. left.
      destruct (Nat.eq_dec (i + 1) (length y)); [tauto|lia].
Qed.

(** Without corrections there are no stray carries. *)
Lemma stray_0 : forall M x y, has_correction W x y = false -> stray W M x y = 0.
Proof.
  intros M x y H. unfold has_correction in H. unfold stray.
  set (f := overestimated W _ _ _) in *. set (l := seq 0 _) in *. clearbody f l.
  induction l; cbn [existsb fold_right] in *; auto. apply orb_false_iff in H. destruct H as [Hf Hr].
  rewrite Hf. cbn [andb]. rewrite IHl by auto. reflexivity.
Qed.

(** ** [full] *)

Lemma lenc_small : forall n v, 0 <= v < pw n -> lval W (lenc W n v) = v.
Proof. intros. rewrite lval_lenc by lia. apply Z.mod_small; auto. Qed.

Lemma repeat0_lenc : forall n, repeat 0 n = lenc W n 0.
Proof.
  intros n. apply lenc_unique; [lia | apply digits_repeat0; lia | apply repeat_length |].
  rewrite lval_repeat0. reflexivity.
Qed.

Lemma div_full_lt : forall x y, digits W x -> digits W y -> length x = length y -> (2 <= length y)%nat ->
  lval W x < lval W y -> div_full x y = Ok (lenc W (length x) 0, x).
Proof.
  intros x y Hx Hy HL Ly Hlt. unfold div_full.
  replace (length y =? 1)%nat with false by (symmetry; apply Nat.eqb_neq; lia).
  rewrite (div_cmp_ok HW) by auto. cbn [bind].
  rewrite (proj2 (Z.compare_lt_iff _ _) Hlt). rewrite (truncate_ok HW) by (auto; lia). cbn [bind].
  rewrite repeat0_lenc. do 2 f_equal. rewrite <- HL. apply lenc_lval; auto. lia.
Qed.

Lemma div_full_eq : forall x y, digits W x -> digits W y -> length x = length y -> (2 <= length y)%nat ->
  lval W x = lval W y -> div_full x y = Ok (lenc W (length x) 1, lenc W (length y) 0).
Proof.
  intros x y Hx Hy HL Ly He. unfold div_full.
  replace (length y =? 1)%nat with false by (symmetry; apply Nat.eqb_neq; lia).
  rewrite (div_cmp_ok HW) by auto. cbn [bind].
  rewrite He, Z.compare_refl. pose proof Bp2.
  rewrite (scalar1_ok HW) by lia. cbn [bind]. rewrite (scalar1_ok HW) by lia. reflexivity.
Qed.

Lemma div_full_gt : forall x y, digits W x -> digits W y -> length x = length y -> (2 <= length y)%nat ->
  lval W y < lval W x -> div_full x y = full_gt x y.
Proof.
  intros x y Hx Hy HL Ly Hgt. unfold div_full.
  replace (length y =? 1)%nat with false by (symmetry; apply Nat.eqb_neq; lia).
  rewrite (div_cmp_ok HW) by auto. cbn [bind].
  rewrite (proj2 (Z.compare_gt_iff _ _) Hgt).
  rewrite (is_zero_ok HW) by (auto; lia). cbn [bind skipn].
  pose proof (lval_lt_pw HW y Hy).
  replace (lval W x =? 0) with false by (symmetry; apply Z.eqb_neq; lia). reflexivity.
Qed.

(** ** [wide] *)

Lemma skipn2_zero : forall x, digits W x -> (2 <= length x)%nat ->
  (lval W (skipn 2 x) =? 0) = (lval W x <? B * B).
Proof.
  intros x Hx HL. rewrite (skipn_div HW) by auto.
  replace (pw 2) with (B * B) by (change 2%nat with (1 + 1)%nat; rewrite (pw_add HW), pw_1; reflexivity).
  pose proof (lval_lt_pw HW x Hx). pose proof Bp2 as HB. assert (HBB : 0 < B * B) by nia.
  destruct (Z.ltb_spec (lval W x) (B * B)).
  - rewrite Z.div_small by lia. reflexivity.
  - apply Z.eqb_neq. assert (1 <= lval W x / (B * B)); [|lia].
    apply Z.div_le_lower_bound; lia.
Qed.

Lemma low_two : forall x, digits W x -> (2 <= length x)%nat -> lval W x < B * B ->
  nth 0 x 0 + B * nth 1 x 0 = lval W x /\ ((nth 0 x 0 =? 0) && (nth 1 x 0 =? 0)) = (lval W x =? 0).
Proof.
  intros x Hx HL Hlt.
  assert (E : nth 0 x 0 + B * nth 1 x 0 = lval W x).
  { rewrite (lval_split W x 2) by lia. pose proof (skipn2_zero x Hx HL) as Hz.
    replace (lval W x <? B * B) with true in Hz by (symmetry; apply Z.ltb_lt; auto).
    apply Z.eqb_eq in Hz. rewrite Hz. rewrite !pv_S, pv_0 by lia. rewrite pw_0, pw_1. lia. }
  split; auto. pose proof (digits_nth W x 0 Wn Hx). pose proof (digits_nth W x 1 Wn Hx). pose proof Bp2.
  rewrite <- E. destruct (Z.eqb_spec (nth 0 x 0) 0); destruct (Z.eqb_spec (nth 1 x 0) 0); cbn [andb];
    symmetry; first [apply Z.eqb_eq | apply Z.eqb_neq]; nia.
Qed.

Lemma div_wide_small : forall x d, digits W x -> (2 <= length x)%nat -> lval W x < B * B -> 0 <= d ->
  div_wide x d =
  if lval W x =? 0 then Ok (lenc W (length x) 0, 0)
  else if d =? 0 then Panic
  else Ok (lenc W (length x) (lval W x / d), lval W x mod d).
Proof.
  intros x d Hx HL Hlt Hd. unfold div_wide.
  replace (2 <=? length x)%nat with true by (symmetry; apply Nat.leb_le; lia).
  rewrite (is_zero_ok HW) by auto. rewrite skipn2_zero by auto.
  replace (lval W x <? B * B) with true by (symmetry; apply Z.ltb_lt; auto). cbn [bind].
  rewrite !get_ok by lia. cbn [bind]. destruct (low_two x Hx HL Hlt) as [E Ez]. rewrite Ez. pose proof Bp2.
  destruct (Z.eqb_spec (lval W x) 0).
  - rewrite (scalar1_ok HW) by lia. reflexivity.
  - rewrite (join_ok HW) by (apply digits_nth; auto; lia). cbn [bind]. rewrite E.
    unfold udiv, urem. destruct (Z.eqb_spec d 0); [reflexivity|]. cbn [bind].
    pose proof (lval_lt_pw HW x Hx).
    rewrite (scalar2_ok HW); auto. split; [apply Z.div_pos; lia|].
    apply Z.div_lt_upper_bound; [lia|]. nia.
Qed.

Lemma div_wide_big : forall x d, digits W x -> (2 <= length x)%nat -> B * B <= lval W x -> 0 <= d < B * B ->
  div_wide x d =
  if d =? 0 then Panic
  else if (B <=? d) && has_correction W (lval W x) d then Panic
  else Ok (lenc W (length x) (lval W x / d), lval W x mod d).
Proof.
  intros x d Hx HL Hge Hd. unfold div_wide.
  replace (2 <=? length x)%nat with true by (symmetry; apply Nat.leb_le; lia).
  rewrite (is_zero_ok HW) by auto. rewrite skipn2_zero by auto.
  replace (lval W x <? B * B) with false by (symmetry; apply Z.ltb_ge; auto). cbn [bind].
  rewrite (scalar2_ok HW) by lia. cbn [bind]. set (y := lenc W 2 d).
  assert (Epw : pw 2 = B * B) by (change 2%nat with (1 + 1)%nat; rewrite (pw_add HW), pw_1; reflexivity).
  assert (Hy : digits W y) by (apply digits_lenc; lia).
  assert (Ly : length y = 2%nat) by apply length_lenc.
  assert (Vy : lval W y = d) by (apply lenc_small; lia).
  rewrite (div_cmp_ok HW) by auto. cbn [bind]. rewrite Vy.
  assert (Hgt : d < lval W x) by lia. rewrite (proj2 (Z.compare_gt_iff _ _) Hgt).
  assert (Efin : forall q r, 0 <= r < B * B ->
    (let* r0 := get (lenc W 2 r) 0 in let* r1 := get (lenc W 2 r) 1 in
     let* r := join_limbs r0 r1 in Ok (q, r)) = Ok (q : list Z, r)).
  { intros q r Hr. rewrite !get_ok by (rewrite length_lenc; lia). cbn [bind].
    assert (Hdl : digits W (lenc W 2 r)) by (apply digits_lenc; lia).
    assert (Hvl : lval W (lenc W 2 r) = r) by (apply lenc_small; lia).
    rewrite (join_ok HW) by (apply digits_nth; auto; lia). cbn [bind]. do 2 f_equal.
    destruct (low_two (lenc W 2 r)) as [E _]; [auto | cbn; lia | lia |].
    rewrite E. exact Hvl. }
  destruct (Z.eqb_spec d 0) as [->|Hd0].
  { rewrite (full_gt_zero x y) by (auto; lia). reflexivity. }
  assert (Hdp : 0 < d) by lia.
  pose proof (Z.mod_pos_bound (lval W x) d Hdp).
  destruct (Z.leb_spec B d) as [HBd|HBd]; cbn [andb].
  - destruct (full_gt_ok x y) as [Hp Ho]; auto; try lia. rewrite Vy, Ly in Hp, Ho. cbn [Nat.sub] in Hp, Ho.
    rewrite pw_1 in Hp, Ho.
    destruct (has_correction W (lval W x) d) eqn:Ec.
    + rewrite Hp by auto. reflexivity.
    + rewrite Ho by auto. cbn [bind]. rewrite stray_0 by auto. rewrite Z.add_0_r. apply Efin. lia.
  - rewrite (full_gt_limb x y) by (auto; lia). cbn [bind]. rewrite Vy, Ly. apply Efin. lia.
Qed.

(** ** [from_u128] *)

Lemma scalar_u128_ok : forall n v, W = 32 -> (4 <= n)%nat -> 0 <= v < 2 ^ 128 ->
  scalar_u128 n v = Ok (lenc W n v).
Proof.
  intros n v H32 Hn Hv. unfold scalar_u128.
  replace (4 <=? n)%nat with true by (symmetry; apply Nat.leb_le; lia).
  replace (W =? 32) with true by (symmetry; apply Z.eqb_eq; auto). cbn [assert_ bind].
  mstep. rewrite !ushr_ok by (try discriminate; lia). mstep. f_equal. rewrite H32.
  replace n with (4 + (n - 4))%nat by lia. set (k := (n - 4)%nat). cbn [Nat.add repeat upd lenc]. unfold ucast.
  rewrite !Z.div_div by lia. change (2 ^ 32 * 2 ^ 32) with (2 ^ 64).
  change (2 ^ 64 * 2 ^ 32) with (2 ^ 96). change (2 ^ 96 * 2 ^ 32) with (2 ^ 128).
  rewrite (Z.div_small v (2 ^ 128)) by auto.
  repeat f_equal. clear. induction k; cbn [repeat lenc]; f_equal; auto.
Qed.

Lemma u128_scalar_ok : forall x, W = 32 -> digits W x -> (4 <= length x)%nat ->
  u128_scalar x = Ok (lval W x mod 2 ^ 128).
Proof.
  intros x H32 Hx HL. unfold u128_scalar.
  replace (4 <=? length x)%nat with true by (symmetry; apply Nat.leb_le; lia).
  replace (W =? 32) with true by (symmetry; apply Z.eqb_eq; auto). cbn [assert_ bind].
  mstep. rewrite !ushl_ok by (try discriminate; lia). cbn [bind]. f_equal.
  assert (Ep : lval W x mod 2 ^ 128 = pv W x 4).
  { rewrite (pv_mod HW) by auto. rewrite H32. reflexivity. }
  rewrite Ep. rewrite !pv_S, pv_0 by lia.
  pose proof (digits_nth W x 0 Wn Hx) as H0. pose proof (digits_nth W x 1 Wn Hx) as H1.
  pose proof (digits_nth W x 2 Wn Hx) as H2. pose proof (digits_nth W x 3 Wn Hx) as H3.
  rewrite H32 in *. cbn [Z.of_nat Z.mul Pos.of_succ_nat Pos.succ Pos.mul].
  set (a := nth 0 x 0) in *. set (b := nth 1 x 0) in *. set (e := nth 2 x 0) in *. set (f := nth 3 x 0) in *.
  clearbody a b e f. clear Ep.
  change (2 ^ 32) with 4294967296 in H0, H1, H2, H3.
  rewrite !ucast_small by (change (2 ^ 32) with 4294967296; change (2 ^ 128) with (4294967296 * 4294967296 * 4294967296 * 4294967296);
    change (2 ^ 64) with (4294967296 * 4294967296); change (2 ^ 96) with (4294967296 * 4294967296 * 4294967296); lia).
  rewrite (lor_add' 32 b a) by (change (2 ^ 32) with 4294967296; lia).
  rewrite (lor_add' 64 e) by (change (2 ^ 64) with (4294967296 * 4294967296); change (2 ^ 32) with 4294967296; lia).
  rewrite (lor_add' 96 f) by (change (2 ^ 64) with (4294967296 * 4294967296); change (2 ^ 32) with 4294967296;
    change (2 ^ 96) with (4294967296 * 4294967296 * 4294967296); lia).
  change (2 ^ 0) with 1. lia.
Qed.

Lemma div_from_u128_ok : forall x d, W = 32 -> digits W x -> (5 <= length x)%nat -> 0 < d < 2 ^ 128 ->
  div_from_u128 x d =
  Ok (lenc W (length x) (lval W x / d),
      (lval W x mod d +
       if (B * B <=? lval W x) && (d <? lval W x) && (B <=? d) then stray W (length x) (lval W x) d else 0) mod 2 ^ 128).
Proof.
  intros x d H32 Hx HL Hd. unfold div_from_u128.
  assert (HW' : (W =? 32) = true) by (apply Z.eqb_eq; auto).
  replace (W =? 32) with true. cbn [assert_ bind].
  replace (2 <=? length x)%nat with true by (symmetry; apply Nat.leb_le; lia).
  rewrite (is_zero_ok HW) by (auto; lia). rewrite skipn2_zero by (auto; lia). cbn [bind].
  assert (EB : 2 ^ 128 = pw 4) by (rewrite H32; reflexivity).
  assert (EBB : B * B = 2 ^ 64) by (rewrite H32; reflexivity).
  assert (H64 : 2 ^ 64 < 2 ^ 128) by reflexivity.
  assert (Hdp : 0 < d) by lia.
  pose proof (Z.mod_pos_bound (lval W x) d Hdp) as Hm. pose proof (lval_lt_pw HW x Hx) as Hxr. pose proof Bp2 as HB.
  destruct (Z.ltb_spec (lval W x) (B * B)) as [Hlt|Hge].
  - replace (B * B <=? lval W x) with false by (symmetry; apply Z.leb_gt; auto). cbn [andb].
    rewrite Z.add_0_r. rewrite (Z.mod_small (lval W x mod d)) by lia.
    rewrite !get_ok by lia. cbn [bind].
    assert (HL2 : (2 <= length x)%nat) by lia.
    destruct (low_two x Hx HL2 Hlt) as [E Ez]. rewrite Ez.
    destruct (Z.eqb_spec (lval W x) 0) as [E0|E0].
    + rewrite (scalar1_ok HW) by lia. rewrite E0. rewrite Z.div_0_l, Z.mod_0_l by lia. reflexivity.
    + rewrite u128_scalar_ok by (auto; lia). cbn [bind]. rewrite (Z.mod_small (lval W x) (2 ^ 128)) by lia.
      unfold udiv, urem. replace (d =? 0) with false by (symmetry; apply Z.eqb_neq; lia). cbn [bind].
      rewrite scalar_u128_ok; auto; [lia|]. split; [apply Z.div_pos; lia|].
      apply Z.div_lt_upper_bound; [lia|]. nia.
  - replace (B * B <=? lval W x) with true by (symmetry; apply Z.leb_le; auto). cbn [andb].
    rewrite scalar_u128_ok by (auto; lia). cbn [bind]. set (y := lenc W (length x) d).
    assert (Hy : digits W y) by (apply digits_lenc; lia).
    assert (Ly : length y = length x) by apply length_lenc.
    assert (Hpx : pw 4 <= pw (length x - 1)) by (apply pw_mono; auto; lia).
    assert (Hpx' : pw (length x - 1) <= pw (length x)) by (apply pw_mono; auto; lia).
    assert (Vy : lval W y = d) by (apply lenc_small; lia).
    rewrite (div_cmp_ok HW) by auto. cbn [bind]. rewrite Vy.
    assert (Efin : forall (q r : list Z), digits W r -> length r = length x ->
      (let* r := u128_scalar r in Ok (q, r)) = Ok (q, lval W r mod 2 ^ 128)).
    { intros q r Hr Lr. rewrite u128_scalar_ok by (auto; lia). reflexivity. }
    destruct (Z.compare_spec (lval W x) d) as [E|E|E].
    + rewrite (scalar1_ok HW) by lia. cbn [bind]. rewrite E.
      replace (d <? d) with false by (symmetry; apply Z.ltb_irrefl). cbn [andb].
      rewrite Z.div_same, Z.mod_same by lia. reflexivity.
    + replace (d <? lval W x) with false by (symmetry; apply Z.ltb_ge; lia). cbn [andb].
      rewrite (truncate_ok HW) by auto. cbn [bind]. rewrite (lenc_lval W x) by (auto; lia).
      rewrite Efin by auto. rewrite Z.div_small, (Z.mod_small (lval W x) d) by lia.
      rewrite Z.add_0_r. rewrite repeat0_lenc. reflexivity.
    + replace (d <? lval W x) with true by (symmetry; apply Z.ltb_lt; lia). cbn [andb].
      destruct (Z.leb_spec B d) as [HBd|HBd].
      * destruct (full_gt_ok x y) as [_ Ho]; auto; try lia. rewrite Vy, Ly in Ho. rewrite Ho.
        2:{ left. lia. }
        cbn [bind]. rewrite Efin by (rewrite ?length_lenc; auto; apply digits_lenc; lia).
        rewrite lval_lenc by lia. do 2 f_equal.
        assert (Epx : pw (length x) = pw 4 * pw (length x - 4)).
        { rewrite <- (pw_add HW). do 3 f_equal. lia. }
        rewrite EB, Epx. pose proof (pwpos 4). pose proof (pwpos (length x - 4)).
        rewrite Z.rem_mul_r by lia. rewrite (Z.mul_comm (pw 4)), Z.mod_add by lia. apply Z.mod_mod. lia.
      * rewrite (full_gt_limb x y) by (auto; lia). cbn [bind]. rewrite Vy.
        rewrite Efin by (rewrite ?length_lenc; auto; apply digits_lenc; lia).
        rewrite Ly. rewrite lenc_small by lia. rewrite Z.add_0_r. reflexivity.
Qed.

Lemma div_from_u128_0 : forall x, W = 32 -> digits W x -> (5 <= length x)%nat ->
  div_from_u128 x 0 = if lval W x =? 0 then Ok (lenc W (length x) 0, 0) else Panic.
Proof.
  intros x H32 Hx HL. unfold div_from_u128.
  assert (HW' : (W =? 32) = true) by (apply Z.eqb_eq; auto).
  replace (W =? 32) with true. cbn [assert_ bind].
  replace (2 <=? length x)%nat with true by (symmetry; apply Nat.leb_le; lia).
  rewrite (is_zero_ok HW) by (auto; lia). rewrite skipn2_zero by (auto; lia). cbn [bind]. pose proof Bp2 as HB.
  pose proof (lval_lt_pw HW x Hx) as Hxr.
  destruct (Z.ltb_spec (lval W x) (B * B)) as [Hlt|Hge].
  - rewrite !get_ok by lia. cbn [bind].
    assert (HL2 : (2 <= length x)%nat) by lia.
    destruct (low_two x Hx HL2 Hlt) as [E Ez]. rewrite Ez.
    destruct (Z.eqb_spec (lval W x) 0) as [E0|E0].
    + rewrite (scalar1_ok HW) by lia. reflexivity.
    + rewrite u128_scalar_ok by (auto; lia). reflexivity.
  - replace (lval W x =? 0) with false by (symmetry; apply Z.eqb_neq; nia).
    rewrite scalar_u128_ok by (auto; lia). cbn [bind]. set (y := lenc W (length x) 0).
    assert (Hy : digits W y) by (apply digits_lenc; lia).
    assert (Ly : length y = length x) by apply length_lenc.
    assert (Vy : lval W y = 0) by (apply lenc_small; pose proof (pwpos (length x)); lia).
    rewrite (div_cmp_ok HW) by auto. cbn [bind]. rewrite Vy.
    assert (Hgt : 0 < lval W x) by nia. rewrite (proj2 (Z.compare_gt_iff _ _) Hgt).
    rewrite (full_gt_zero x y) by (auto; lia). reflexivity.
Qed.

End P.
