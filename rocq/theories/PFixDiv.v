(** * Proofs about MFix.v: long division with the corrected add-back loop *)

Require Import ZArith List Bool Lia.
From Verif Require Import Prim Spec Facts MAdd PAdd PMul MShift PShift MCore PCore PBits MDiv DivSpec PDiv PKnuth PDivFull MFix.
Import ListNotations.
Local Open Scope Z_scope.

Lemma top_carry : forall p v P B, 0 <= p < P -> 0 <= v < B -> B * P <= p + v * P + P -> v + 1 = B.
Proof. intros. nia. Qed.

Section P.
Context {c : Cfg}.
Hypothesis HW : 2 <= W <= 64.

Local Notation B := (2 ^ W).
Local Notation pw n := (2 ^ (W * Z.of_nat n)).
Local Notation pwpos := (pwpos HW).
Local Notation Bp2 := (Bp2 HW).
Local Notation Bnz := (Bnz HW).
Local Notation Wn := (Wn HW).
Local Notation W32 := (W32 HW).

Section Step.
Variables (M n : nat) (lo hi : list Z).
Local Notation j := (length lo).
Hypothesis HM : (length lo + (n + 1) + length hi = M + 1)%nat.
Local Notation holds := (holds M n lo hi).

Lemma fix_add_back_eq : forall d a, fix_add_back a d n j =
  let* (num, cy) := add_back_loop lo d n a in
  let* v := apo_get num (j + n) in
  apo_set num (j + n) (p_wrapping_add W v (b2z cy)).
Proof. intros. unfold fix_add_back, add_back_loop, for_range. rewrite Nat.sub_0_r. reflexivity. Qed.

(** The window is restored and the limb above it is cleared. *)
Lemma fix_add_back_ok : forall d a mid D, holds a mid -> digits W d -> (n <= length d)%nat ->
  lval W d = D -> D < pw n -> pw (n + 1) <= lval W mid + D < pw (n + 1) + pw n ->
  exists a' rest, fix_add_back a d n j = Ok a' /\ holds a' (rest ++ [0]) /\
    length rest = n /\ lval W rest = lval W mid + D - pw (n + 1).
Proof.
  intros d a mid D Ha Hd HL ED HD Hs. rewrite fix_add_back_eq.
  destruct (add_back_loop_ok HW M n lo hi HM d n a mid) as (a' & cy & m & E & Hm & Ev); auto; try lia.
  rewrite E. cbn [bind].
  assert (Hmd : digits W m) by apply Hm. assert (Hml : length m = (n + 1)%nat) by apply Hm.
  assert (Epv : pv W d n = D).
  { rewrite (pv_mod HW) by auto. rewrite ED. apply Z.mod_small.
    pose proof (lval_lt_pw HW d Hd). lia. }
  rewrite Epv in Ev. pose proof (lval_lt_pw HW m Hmd) as Hmr. rewrite Hml in Hmr.
  assert (Hcy : cy = true). { destruct cy; auto. cbn [b2z] in Ev. lia. }
  subst cy. cbn [b2z] in *.
  replace (j + n)%nat with (n + j)%nat by lia. rewrite (holds_get M n lo hi HM a' m n Hm) by lia. cbn [bind].
  assert (Hml' : length m = S n) by lia.
  pose proof (lval_last W m n Wn Hml') as El.
  assert (Hnl : (n <= length m)%nat) by lia.
  pose proof (pv_range W m n Wn Hmd Hnl) as Hp. pose proof (digits_nth W m n Wn Hmd) as Hx.
  assert (Epw : pw (n + 1) = B * pw n) by (rewrite (pw_add HW), pw_1; ring).
  assert (Ht : nth n m 0 + 1 = B).
  { apply (top_carry (pv W m n) _ (pw n) B); auto. lia. }
  unfold p_wrapping_add. rewrite Ht. assert (E0 : ucast W B = 0) by (unfold ucast; apply Z.mod_same; pose proof Bp2; lia).
  rewrite E0.
  destruct (holds_set HW M n lo hi HM a' m n 0 Hm) as (a2 & Ea & Ha2); [lia | pose proof Bp2; lia |].
  exists a2, (firstn n m). split; [exact Ea|].
  assert (Eu : upd m n 0 = firstn n m ++ [0]).
  { rewrite <- (firstn_skipn n m) at 1. rewrite skipn_S_nth by lia.
    rewrite skipn_all2 by lia.
    replace n with (length (firstn n m) + 0)%nat at 3 by (rewrite firstn_length_le; lia).
    rewrite upd_app_r. reflexivity. }
  rewrite Eu in Ha2. split; auto. rewrite firstn_length_le by lia. split; auto.
  change (lval W (firstn n m)) with (pv W m n). nia.
Qed.

Lemma fix_knuth_step_ok : forall d D a mid q,
  (2 <= n <= length d)%nat -> digits W d -> lval W d = D -> pw n <= 2 * D -> D < pw n ->
  holds a mid -> lval W mid < D * B -> (j < length q)%nat ->
  let S := lval W mid in
  exists a' rest, fix_knuth_step d n (nth (n - 1) d 0) (nth (n - 2) d 0) j (a, q) = Ok (a', upd q j (S / D)) /\
    holds a' (rest ++ [0]) /\ length rest = n /\ lval W rest = S mod D.
Proof.
  intros d D a mid q Hn Hd ED HD1 HD2 Ha HS Hq S. set (over := S / D <? digit_estimate W n S D). unfold fix_knuth_step.
  assert (Hmd : digits W mid) by apply Ha. assert (Hml : length mid = (n + 1)%nat) by apply Ha.
  assert (Hn2 : (2 <= n)%nat) by lia. assert (Hnd : (n <= length d)%nat) by lia.
  destruct (top_limbs HW M n lo hi HM mid Hmd Hml Hn2) as [Et Et3].
  destruct (top_limbs_d HW M n lo hi HM d D Hd ED HD2 Hnd Hn2) as [Eb Eb2].
  pose proof (lval_lt_pw HW mid Hmd) as HSr. fold S in HSr, HS, Et, Et3. rewrite Hml in HSr.
  replace (j + n)%nat with (n + j)%nat by lia.
  rewrite (holds_get M n lo hi HM a mid n Ha) by lia. cbn [bind].
  rewrite (holds_get' M n lo hi HM a mid (n + j - 1) Ha) by lia. cbn [bind].
  rewrite (holds_get' M n lo hi HM a mid (n + j - 2) Ha) by lia.
  replace (n + j - 1 - j)%nat with (n - 1)%nat by lia.
  replace (n + j - 2 - j)%nat with (n - 2)%nat by lia.
  pose proof (digits_nth W mid n Wn Hmd). pose proof (digits_nth W mid (n - 1) Wn Hmd).
  pose proof (digits_nth W mid (n - 2) Wn Hmd).
  pose proof (digits_nth W d (n - 1) Wn Hd). pose proof (digits_nth W d (n - 2) Wn Hd).
  assert (Hb0 : B <= 2 * nth (n - 1) d 0).
  { assert (E1 : pw n = B * pw (n - 1)) by (rewrite <- pow2_S by lia; do 3 f_equal; lia).
    pose proof (pwpos (n - 1)) as Hp1. pose proof (Z.mul_succ_div_gt D (pw (n - 1)) Hp1).
    pose proof (pow2_half W) as Hh. pose proof (pow2_pos (W - 1)) as Hhp.
    rewrite Eb. set (b0 := D / pw (n - 1)) in *.
    assert (B < 2 * (b0 + 1)) by (clear - E1 Hp1 HD1 H4; nia). lia. }
  rewrite (estimate_ok HW) by lia. cbn [bind].
  assert (Ee : (if nth n mid 0 <? nth (n - 1) d 0
     then (nth n mid 0 * B * B + nth (n - 1) mid 0 * B + nth (n - 2) mid 0) /
          (nth (n - 1) d 0 * B + nth (n - 2) d 0)
     else B - 1) = digit_estimate W n S D).
  { unfold digit_estimate. cbv zeta.
    assert (En1 : 2 ^ (W * (Z.of_nat n - 1)) = pw (n - 1)) by (apply (pw_pred n 1); lia).
    assert (En2 : 2 ^ (W * (Z.of_nat n - 2)) = pw (n - 2)) by (apply (pw_pred n 2); lia).
    rewrite En1, En2, Et3, Et, Eb2, Eb. reflexivity. }
  rewrite Ee. clear Ee.
  destruct (estimate_range HW n S D Hn2 HD1 HD2) as (He & HeB & Hq0); [lia|].
  set (e := digit_estimate W n S D) in *.
  destruct (full_mul_u64_ok HW d e Hd) as (y & Ey & Hyl & Hyd & Hyv); [lia|].
  rewrite Ey. cbn [bind].
  destruct (sub_mul_ok HW M n lo hi HM a mid y Ha Hyd) as (a1 & cy & m1 & Es & Hm1 & Ev1); [lia|].
  rewrite Es. cbn [bind].
  assert (HDp : 0 < D). { pose proof (pwpos n). lia. }
  assert (HDnz : D <> 0) by lia.
  pose proof (Z.div_mod S D HDnz) as Eq. pose proof (Z.mod_pos_bound S D HDp) as Hr.
  assert (Epw : pw (n + 1) = B * pw n) by (rewrite (pw_add HW), pw_1; ring).
  pose proof (pwpos n) as Hpn.
  assert (Epy : pv W (flat y) (n + 1) = D * e).
  { rewrite (pv_mod HW) by (auto; rewrite length_flat; lia). rewrite Hyv, ED. apply Z.mod_small.
    clear - HeB He Hq0 HDp HD2 Epw Hpn. nia. }
  rewrite Epy in Ev1. fold S in Ev1.
  assert (Hm1d : digits W m1) by apply Hm1. assert (Hm1l : length m1 = (n + 1)%nat) by apply Hm1.
  pose proof (lval_lt_pw HW m1 Hm1d) as Hm1r. rewrite Hm1l in Hm1r.
  assert (Hcy : cy = over).
  { unfold over. destruct (Z.ltb_spec (S / D) e); destruct cy; auto; cbn [b2z] in Ev1; exfalso;
      clear - H4 Ev1 Eq Hr Hm1r Epw HD2 He Hpn; nia. }
  subst cy. unfold over in *. clear over.
  destruct (Z.ltb_spec (S / D) e) as [Ho|Ho]; cbn [b2z] in *.
  - assert (e = S / D + 1) by lia. unfold usub. rewrite uchk_ok by lia. cbn [bind].
    destruct (fix_add_back_ok d a1 m1 D Hm1 Hd Hnd ED HD2) as (a2 & rest & Ea & Ha2 & HLr & Ev2).
    { rewrite Ev1. clear - H4 Eq Hr Epw HD2. nia. }
    rewrite Ea. cbn [bind]. rewrite set_ok by lia. cbn [bind].
    replace (e - 1) with (S / D) by lia. exists a2, rest. split; auto. split; auto. split; auto.
    rewrite Ev2, Ev1. clear - H4 Eq. nia.
  - cbn [bind]. rewrite set_ok by lia. cbn [bind].
    assert (e = S / D) by lia. exists a1, (firstn n m1).
    assert (Hm1l' : length m1 = Datatypes.S n) by lia.
    pose proof (lval_last W m1 n Wn Hm1l') as El.
    assert (Hnl : (n <= length m1)%nat) by lia.
    pose proof (pv_range W m1 n Wn Hm1d Hnl) as Hp. pose proof (digits_nth W m1 n Wn Hm1d) as Hx.
    assert (Evm : lval W m1 = S mod D) by (clear - Ev1 Eq H4; nia).
    assert (Ht : nth n m1 0 = 0) by (apply (top_zero (pv W m1 n) _ (pw n)); lia).
    split; [congruence|].
    assert (Eu : m1 = firstn n m1 ++ [0]).
    { rewrite <- (firstn_skipn n m1) at 1. rewrite skipn_S_nth by lia.
      rewrite skipn_all2 by lia. rewrite Ht. reflexivity. }
    rewrite <- Eu. split; auto. rewrite firstn_length_le by lia. split; auto.
    change (lval W (firstn n m1)) with (pv W m1 n). rewrite Ht in El. lia.
Qed.

End Step.

Section Loop.
Variables (M n m : nat) (d : list Z) (D A : Z).
Hypotheses (Hn : (2 <= n <= length d)%nat) (Hd : digits W d) (ED : lval W d = D).
Hypotheses (HD1 : pw n <= 2 * D) (HD2 : D < pw n) (HM : (n + m <= M)%nat).
Hypothesis (HA0 : 0 <= A).
Hypothesis (HA : A < D * pw (m + 1)).

Definition fix_kinv (k : nat) (s : list Z * Z * list Z) : Prop :=
  let J := (m + 1 - k)%nat in
  exists low, length (fst (fst s)) = M /\ flat (fst s) = low ++ repeat 0 (M + 1 - (J + n)) /\
    length low = (J + n)%nat /\ digits W low /\ lval W low = A mod (D * pw J) /\
    length (snd s) = M /\ digits W (snd s) /\ lval W (snd s) = A / (D * pw J) * pw J.

Local Notation Dp := (D_pos HW M n m d D A Hn ED HD1 HM HA).

Lemma fix_kinv_init : forall a, length (fst a) = M -> digits W (flat a) -> lval W (flat a) = A ->
  fix_kinv 0 (a, repeat 0 M).
Proof.
  intros a HL Hda HAv. unfold fix_kinv. cbn [fst snd]. rewrite Nat.sub_0_r.
  pose proof Dp. pose proof (pwpos (m + 1)).
  assert (Hlt : A < pw (m + 1 + n)).
  { rewrite (pw_add HW). nia. }
  assert (HLf : length (flat a) = (M + 1)%nat) by (rewrite length_flat; lia).
  exists (firstn (m + 1 + n) (flat a)). split; auto. split; [|split; [|split; [|split; [|split; [|split]]]]].
  - rewrite <- (firstn_skipn (m + 1 + n) (flat a)) at 1. f_equal.
    rewrite (skipn_zero HW) by (auto; lia). rewrite HLf. reflexivity.
  - rewrite firstn_length_le; lia.
  - apply digits_firstn; auto.
  - change (pv W (flat a) (m + 1 + n) = A mod (D * pw (m + 1))).
    rewrite (pv_mod HW) by (auto; lia). rewrite HAv. rewrite !Z.mod_small; auto; lia.
  - apply repeat_length.
  - apply digits_repeat0. lia.
  - rewrite lval_repeat0. rewrite Z.div_small by lia. lia.
Qed.

Lemma fix_kinv_step : forall k s, (k < m + 1)%nat -> fix_kinv k s ->
  exists s', fix_knuth_step d n (nth (n - 1) d 0) (nth (n - 2) d 0) (m - k) s = Ok s' /\ fix_kinv (S k) s'.
Proof.
  intros k (a & q) Hk (low & HL & Ef & HLl & Hdl & Evl & HLq & Hdq & Evq). cbn [fst snd] in *.
  set (j := (m - k)%nat) in *. replace (m + 1 - k)%nat with (S j) in * by lia.
  assert (Hjm : (j <= m)%nat) by lia.
  pose proof Dp as HDp. pose proof (pwpos j) as Hpj. pose proof Bp2 as HB.
  pose proof (window_low HW M n m d D A Hn ED HD1 HM HA j) as (Ew & Ewm).
  set (lo := firstn j low). set (mid := skipn j low). set (hi := repeat 0 (M + 1 - (S j + n))) in *.
  assert (Elow : low = lo ++ mid) by (symmetry; apply firstn_skipn).
  assert (Hlo : length lo = j) by (unfold lo; rewrite firstn_length_le; lia).
  assert (Hmid : length mid = (n + 1)%nat) by (unfold mid; rewrite skipn_length; lia).
  assert (Hmd : digits W mid) by (apply digits_skipn; auto).
  assert (Hlod : digits W lo) by (apply digits_firstn; auto).
  assert (ES : lval W mid = window W A D j).
  { unfold mid. rewrite (skipn_div HW) by (auto; lia). rewrite Evl. exact Ew. }
  assert (Elo : lval W lo = A mod pw j).
  { change (pv W low j = A mod pw j). rewrite (pv_mod HW) by (auto; lia). rewrite Evl. exact Ewm. }
  assert (Hholds : holds M n lo hi a mid).
  { unfold holds. rewrite Ef, Elow, app_assoc. auto. }
  assert (HLs : (length lo + (n + 1) + length hi = M + 1)%nat).
  { unfold hi. rewrite repeat_length. lia. }
  assert (HwB : 0 <= window W A D j < D * B).
  { unfold window. apply Z.mod_pos_bound. nia. }
  assert (HwB' : lval W mid < D * B) by lia.
  assert (Hjq : (length lo < length q)%nat) by lia.
  destruct (fix_knuth_step_ok M n lo hi HLs d D a mid q Hn Hd ED HD1 HD2 Hholds HwB' Hjq)
    as (a' & rest & Es & Hh & HLr & Evr).
  rewrite ES in Es, Evr. rewrite Hlo in Es. rewrite Es.
  exists (a', upd q j (window W A D j / D)). split; auto.
  unfold fix_kinv. cbn [fst snd]. replace (m + 1 - S k)%nat with j by lia.
  destruct Hh as (HL' & Ef' & Hl1 & Hd1).
  exists (lo ++ rest). apply digits_app in Hd1. destruct Hd1 as [Hdr _].
  split; auto. split; [|split; [|split; [|split; [|split; [|split]]]]].
  - rewrite Ef'. unfold hi. replace (M + 1 - (j + n))%nat with (S (M + 1 - (S j + n))) by lia.
    cbn [repeat]. rewrite <- !app_assoc. reflexivity.
  - rewrite app_length. lia.
  - apply digits_app. auto.
  - rewrite (lval_app_c HW), Hlo, Elo, Evr. apply (rem_step HW M n m d D A Hn ED HD1 HM HA).
  - rewrite length_upd. auto.
  - apply digits_upd; auto. split; [apply Z.div_pos; lia | apply Z.div_lt_upper_bound; lia].
  - assert (Hnz : nth j q 0 = 0).
    { assert (Hpv : pv W q (S j) = 0).
      { rewrite (pv_mod HW) by (auto; lia). rewrite Evq. apply Z.mod_mul. pose proof (pwpos (S j)); lia. }
      rewrite pv_S in Hpv by lia. assert (Hjq' : (j <= length q)%nat) by lia.
      pose proof (pv_range W q j Wn Hdq Hjq'). pose proof (digits_nth W q j Wn Hdq). nia. }
    rewrite lval_upd by lia. rewrite Hnz, Evq, (quo_step HW M n m d D A Hn ED HD1 HM HA j), (pw_S HW). ring.
Qed.

Lemma fix_knuth_loop_ok : forall a, length (fst a) = M -> digits W (flat a) -> lval W (flat a) = A ->
  exists a', for_range 0 (m + 1) (fun k s => fix_knuth_step d n (nth (n - 1) d 0) (nth (n - 2) d 0) (m - k) s)
             (a, repeat 0 M) = Ok (a', lenc W M (A / D)) /\
     length (fst a') = M /\ digits W (fst a') /\ lval W (fst a') = A mod D.
Proof.
  intros a HL Hda HAv.
  destruct (for_m_inv _ fix_kinv
    (fun k s => fix_knuth_step d n (nth (n - 1) d 0) (nth (n - 2) d 0) (m - k) s) (m + 1) 0 (a, repeat 0 M))
    as ((a' & q) & E & Hi).
  - intros k s Hk Hi. apply fix_kinv_step; auto. lia.
  - apply fix_kinv_init; auto.
  - cbn [Nat.add] in Hi. destruct Hi as (low & HL' & Ef & HLl & Hdl & Evl & HLq & Hdq & Evq).
    cbn [fst snd] in *. rewrite Nat.sub_diag in *. pose proof Dp as HDp.
    rewrite pw_0, ?Z.mul_1_r in Evl, Evq. rewrite ?Z.mul_1_r in Evq. cbn [Nat.add] in HLl.
    exists a'. split.
    { unfold for_range. rewrite Nat.sub_0_r. rewrite E. do 2 f_equal.
      apply lenc_unique; auto; [lia|]. rewrite Evq. reflexivity. }
    split; auto. cbn [Nat.add] in Ef.
    assert (Efst : fst a' = low ++ repeat 0 (M - n)).
    { replace (M + 1 - n)%nat with (M - n + 1)%nat in Ef by lia. rewrite repeat_app, app_assoc in Ef.
      unfold flat in Ef. cbn [repeat] in Ef. apply app_inj_tail in Ef. apply Ef. }
    rewrite Efst. split; [apply digits_app; split; auto; apply digits_repeat0; lia|].
    rewrite (lval_app_c HW), Evl, lval_repeat0. lia.
Qed.

End Loop.

Lemma fix_div_rem_knuth_ok : forall x y n m,
  digits W x -> digits W y -> (length y <= length x)%nat ->
  (2 <= n <= length y)%nat -> (n + m <= length x)%nat ->
  pw (n - 1) <= lval W y < pw n -> pw (n + m - 1) <= lval W x < pw (n + m) ->
  fix_div_rem_knuth x y n m =
  Ok (lenc W (length x) (lval W x / lval W y), lenc W (length y) (lval W x mod lval W y)).
Proof.
  intros x y n m Hx Hy HL Hn Hm Hyv Hxv. unfold fix_div_rem_knuth.
  replace (n + m <=? length x)%nat with true by (symmetry; apply Nat.leb_le; lia). cbn [assert_ bind].
  rewrite get_ok by lia. cbn [bind].
  assert (Hn1 : (1 <= n <= length y)%nat) by lia.
  rewrite (norm_shift_eq HW y n) by auto.
  destruct (top_limb_bounds HW y n Hy Hn1 Hyv) as (Ey & Ht & Hp).
  assert (Hs : 0 <= norm_shift W (lval W y) < W /\
    pw n <= 2 * (lval W y * 2 ^ norm_shift W (lval W y)) /\ lval W y * 2 ^ norm_shift W (lval W y) < pw n).
  { unfold norm_shift. rewrite (limbs_of_eq HW _ n) by (auto; lia).
    pose proof (pwpos (n - 1)). assert (Hy0 : 0 < lval W y) by lia.
    assert (H1 : W * Z.of_nat (n - 1) <= Z.log2 (lval W y)) by (apply Z.log2_le_pow2; lia).
    assert (H2 : Z.log2 (lval W y) < W * Z.of_nat n) by (apply Z.log2_lt_pow2; lia).
    pose proof (Z.log2_spec (lval W y) Hy0) as Hl. pose proof (Z.log2_nonneg (lval W y)).
    rewrite Z.pow_succ_r in Hl by lia. set (k := Z.log2 (lval W y)) in *.
    assert (E : pw n = 2 * (2 ^ k * 2 ^ (W * Z.of_nat n - 1 - k))).
    { rewrite <- Z.pow_add_r by lia. rewrite <- Z.pow_succ_r by lia. f_equal. lia. }
    assert (Hq : 0 < 2 ^ (W * Z.of_nat n - 1 - k)) by (apply pow2_pos; lia).
    rewrite Nat2Z.inj_sub in H1 by lia.
    split; [lia|]. rewrite E. set (t := 2 ^ (W * Z.of_nat n - 1 - k)) in *. set (u := 2 ^ k) in *.
    clear - Hl Hq. split; nia. }
  destruct Hs as (Hs & HD1 & HD2). set (s := norm_shift W (lval W y)) in *.
  set (A := lval W x * 2 ^ s) in *. set (D := lval W y * 2 ^ s) in *.
  assert (Hps : 0 < 2 ^ s) by (apply pow2_pos; lia).
  assert (Hy0 : 0 < lval W y) by (pose proof (pwpos (n - 1)); lia).
  (* the normalised divisor *)
  assert (Hl1 : (1 <= length y)%nat) by lia.
  destruct (full_shl_ok HW y s Hy Hl1 Hs) as ((d & dt) & Ed & Ld & Dd & Vd).
  unfold flat in Vd, Dd. cbn [fst snd] in Vd, Dd, Ld.
  assert (Ed' : shl_word y s = Ok d) by (unfold shl_word; rewrite Ed; reflexivity).
  rewrite Ed'. cbn [bind].
  apply digits_app in Dd. destruct Dd as [Dd Ddt]. inversion Ddt as [|? ? Hdt _]; subst.
  rewrite (app_snoc_lval HW) in Vd. fold D in Vd.
  pose proof (lval_lt_pw HW d Dd) as Hdr.
  assert (Hnl : pw n <= pw (length y)) by (apply pw_mono; auto; lia).
  rewrite Ld in *.
  assert (dt = 0) by (clear - Vd Hdt HD2 Hnl Hdr; nia). subst dt. assert (Vd' : lval W d = D) by lia. clear Vd Ddt Hdt.
  (* the normalised numerator *)
  assert (Hl2 : (1 <= length x)%nat) by lia.
  destruct (full_shl_ok HW x s Hx Hl2 Hs) as (a & Ea & La & Da & Va). fold A in Va.
  rewrite Ea. cbn [bind]. rewrite (get_ok d) by lia. cbn [bind]. rewrite (get_ok d) by lia. cbn [bind].
  assert (HA : A < D * pw (m + 1)).
  { rewrite (pw_add HW m 1), pw_1. rewrite (pw_add HW n m) in Hxv.
    assert (2 ^ s * 2 <= B).
    { rewrite (pow2_half W) by lia. pose proof (pow2_le_mono s (W - 1)). lia. }
    apply (scaled_lt (lval W x) (2 ^ s) B (pw n) (pw m) D); auto; try lia; apply pwpos. }
  assert (HA0 : 0 <= A).
  { unfold A. pose proof (lval_lt_pw HW x Hx). apply Z.mul_nonneg_nonneg; lia. }
  destruct (fix_knuth_loop_ok (length x) n m d D A) with (a := a) as (a' & E & La' & Da' & Va'); auto; try lia.
  rewrite E. cbn [bind]. rewrite (full_shr_ok HW) by (auto; lia). cbn [bind].
  rewrite (truncate_ok HW) by (rewrite ?length_lenc; auto using digits_lenc, Wn; lia). cbn [bind].
  f_equal. f_equal.
  - f_equal. unfold A, D. apply Z.div_mul_cancel_r; lia.
  - apply lenc_eq_mod; [lia|]. rewrite lval_lenc by lia.
    assert (Ediv : forall v, (v mod pw (length (fst a'))) mod pw (length y) = v mod pw (length y)).
    { intros v. rewrite La'. replace (length x) with (length y + (length x - length y))%nat by lia.
      rewrite (pw_add HW). pose proof (pwpos (length y)). pose proof (pwpos (length x - length y)).
      rewrite Z.rem_mul_r by lia. rewrite (Z.mul_comm (pw (length y))), Z.mod_add by lia.
      apply Z.mod_mod. lia. }
    rewrite Ediv. f_equal. rewrite Va'. unfold A, D. rewrite Z.mul_mod_distr_r by lia.
    apply Z.div_mul. lia.
Qed.

Lemma fix_full_gt_limb : forall x y, digits W x -> digits W y -> (1 <= length x)%nat -> (1 <= length y)%nat ->
  0 < lval W y < B ->
  fix_full_gt x y = Ok (lenc W (length x) (lval W x / lval W y), lenc W (length y) (lval W x mod lval W y)).
Proof.
  intros x y Hx Hy Lx Ly Hv. unfold fix_full_gt.
  destruct (last_index_ok HW y Hy Ly) as (i & Ei & Hi & Hlt & Hge). rewrite Ei. cbn [bind].
  assert (i = 0%nat).
  { destruct (Nat.eq_dec i 0); auto. assert (Hpw : pw 1 <= pw i) by (apply pw_mono; auto; lia).
    rewrite pw_1 in Hpw. specialize (Hge n). lia. }
  subst i. cbn [Nat.eqb]. rewrite get_ok by lia. cbn [bind].
  assert (E0 : nth 0 y 0 = lval W y).
  { transitivity (pv W y 1); [rewrite pv1; auto; lia|]. rewrite (pv_mod HW) by (auto; lia).
    rewrite pw_1. apply Z.mod_small. lia. }
  rewrite E0. apply limb_padded_ok; auto.
Qed.

Lemma fix_full_gt_zero : forall x y, digits W x -> digits W y -> (1 <= length x)%nat -> (1 <= length y)%nat ->
  lval W y = 0 -> fix_full_gt x y = Panic.
Proof.
  intros x y Hx Hy Lx Ly Hv. unfold fix_full_gt.
  destruct (last_index_ok HW y Hy Ly) as (i & Ei & Hi & Hlt & Hge). rewrite Ei. cbn [bind].
  assert (i = 0%nat).
  { destruct (Nat.eq_dec i 0); auto. specialize (Hge n). pose proof (pwpos i). lia. }
  subst i. cbn [Nat.eqb]. rewrite get_ok by lia. cbn [bind].
  assert (E0 : nth 0 y 0 = 0).
  { transitivity (pv W y 1); [rewrite pv1; auto; lia|]. rewrite (pv_mod HW) by (auto; lia).
    rewrite Hv. apply Z.mod_0_l. pose proof (pwpos 1). lia. }
  rewrite E0. unfold limb_padded. rewrite (div_limb_0 HW) by auto. reflexivity.
Qed.

Lemma fix_full_gt_ok : forall x y, digits W x -> digits W y -> (length y <= length x)%nat -> (2 <= length y)%nat ->
  B <= lval W y -> lval W y <= lval W x ->
  fix_full_gt x y =
  Ok (lenc W (length x) (lval W x / lval W y), lenc W (length y) (lval W x mod lval W y)).
Proof.
  intros x y Hx Hy HL Ly Hv Hle. unfold fix_full_gt.
  assert (Ly1 : (1 <= length y)%nat) by lia. assert (Lx1 : (1 <= length x)%nat) by lia.
  destruct (last_index_ok HW y Hy Ly1) as (i & Ei & Hi & Hlt & Hge). rewrite Ei. cbn [bind].
  assert (Hi0 : (1 <= i)%nat).
  { destruct i; [|lia]. change (S 0) with 1%nat in Hlt. rewrite pw_1 in Hlt. lia. }
  destruct (Nat.eqb_spec i 0) as [|_]; [lia|].
  destruct (last_index_ok HW x Hx Lx1) as (k & Ek & Hk & Hltk & Hgek). rewrite Ek. cbn [bind].
  assert (Hpi : pw i <= lval W y) by (apply Hge; lia).
  assert (Hik : (i <= k)%nat).
  { destruct (Nat.le_gt_cases i k); auto. exfalso.
    assert (pw (S k) <= pw i) by (apply pw_mono; auto; lia). lia. }
  replace (i <=? k)%nat with true by (symmetry; apply Nat.leb_le; lia). cbn [assert_ bind].
  assert (Hn1 : (i + 1 - 1)%nat = i) by lia. assert (Hn2 : (i + 1)%nat = S i) by lia.
  apply fix_div_rem_knuth_ok; auto; try lia.
  - rewrite Hn1, Hn2. lia.
  - replace (i + 1 + (k - i) - 1)%nat with k by lia. replace (i + 1 + (k - i))%nat with (S k) by lia.
    split; [apply Hgek; lia | auto].
Qed.

(** ** The entry points *)

Lemma fix_full_gt_all : forall x y, digits W x -> digits W y -> (1 <= length y <= length x)%nat -> (2 <= length y)%nat ->
  lval W y <= lval W x ->
  fix_full_gt x y =
  if lval W y =? 0 then Panic
  else Ok (lenc W (length x) (lval W x / lval W y), lenc W (length y) (lval W x mod lval W y)).
Proof.
  intros x y Hx Hy HL HL2 Hle. pose proof (lval_lt_pw HW y Hy).
  destruct (Z.eqb_spec (lval W y) 0); [apply fix_full_gt_zero; auto; lia|].
  destruct (Z.lt_ge_cases (lval W y) B); [apply fix_full_gt_limb; auto; lia|].
  apply fix_full_gt_ok; auto; lia.
Qed.

Lemma fix_div_full_ok : forall x y, digits W x -> digits W y -> (1 <= length y <= length x)%nat ->
  fix_div_full x y =
  if lval W y =? 0 then Panic
  else Ok (lenc W (length x) (lval W x / lval W y), lenc W (length y) (lval W x mod lval W y)).
Proof.
  intros x y Hx Hy HL. unfold fix_div_full. pose proof Bp2.
  rewrite (is_zero_ok HW) by (auto; lia). cbn [bind skipn].
  pose proof (lval_lt_pw HW y Hy) as Hyr. pose proof (lval_lt_pw HW x Hx) as Hxr.
  destruct (Z.eqb_spec (lval W y) 0) as [E0|E0]; [reflexivity|]. cbn [negb assert_ bind].
  destruct (Nat.eqb_spec (length y) 1) as [E1|E1].
  { rewrite get_ok by lia. cbn [bind].
    assert (En : nth 0 y 0 = lval W y).
    { transitivity (pv W y 1); [rewrite pv1; auto; lia|]. rewrite (pv_mod HW) by (auto; lia).
      rewrite E1 in Hyr. apply Z.mod_small. lia. }
    rewrite En. rewrite E1 in Hyr. rewrite pw_1 in Hyr. apply (limb_padded_ok HW); auto; lia. }
  assert (HL2 : (2 <= length y)%nat) by lia.
  rewrite (div_cmp_ok HW) by auto. cbn [bind].
  destruct (Z.compare_spec (lval W x) (lval W y)) as [E|E|E].
  - rewrite (scalar1_ok HW) by lia. cbn [bind]. rewrite (scalar1_ok HW) by lia. cbn [bind].
    rewrite E, Z.div_same, Z.mod_same by lia. reflexivity.
  - rewrite (truncate_ok HW) by (auto; lia). cbn [bind]. rewrite (Z.div_small (lval W x)), (Z.mod_small (lval W x)) by lia.
    rewrite (repeat0_lenc HW). reflexivity.
  - rewrite (is_zero_ok HW) by (auto; lia). cbn [bind skipn].
    replace (lval W x =? 0) with false by (symmetry; apply Z.eqb_neq; lia).
    rewrite fix_full_gt_all by (auto; lia). replace (lval W y =? 0) with false by (symmetry; apply Z.eqb_neq; auto). reflexivity.
Qed.

Lemma fix_div_wide_ok : forall x d, digits W x -> (2 <= length x)%nat -> 0 <= d < B * B ->
  fix_div_wide x d =
  if d =? 0 then Panic else Ok (lenc W (length x) (lval W x / d), lval W x mod d).
Proof.
  intros x d Hx HL Hd. unfold fix_div_wide. pose proof Bp2 as HB.
  replace (2 <=? length x)%nat with true by (symmetry; apply Nat.leb_le; lia).
  rewrite (is_zero_ok HW) by auto. rewrite (skipn2_zero HW) by auto. cbn [bind].
  pose proof (lval_lt_pw HW x Hx) as Hxr.
  destruct (Z.ltb_spec (lval W x) (B * B)) as [Hlt|Hge].
  { rewrite !get_ok by lia. cbn [bind]. destruct (low_two HW x Hx HL Hlt) as [E _].
    rewrite (join_ok HW) by (apply digits_nth; auto; lia). cbn [bind]. rewrite E.
    unfold udiv, urem. destruct (Z.eqb_spec d 0); [reflexivity|]. cbn [bind].
    rewrite (scalar2_ok HW); auto. split; [apply Z.div_pos; lia|].
    apply Z.div_lt_upper_bound; [lia|]. nia. }
  rewrite (scalar2_ok HW) by lia. cbn [bind]. set (y := lenc W 2 d).
  assert (Epw : pw 2 = B * B) by (change 2%nat with (1 + 1)%nat; rewrite (pw_add HW), pw_1; reflexivity).
  assert (Hy : digits W y) by (apply digits_lenc; lia).
  assert (Ly : length y = 2%nat) by apply length_lenc.
  assert (Vy : lval W y = d) by (apply (lenc_small HW); lia).
  rewrite (div_cmp_ok HW) by auto. cbn [bind]. rewrite Vy.
  assert (Hgt : d < lval W x) by lia. rewrite (proj2 (Z.compare_gt_iff _ _) Hgt).
  rewrite fix_full_gt_all by (auto; lia). rewrite Vy, Ly.
  destruct (Z.eqb_spec d 0) as [->|Hd0]; [reflexivity|]. cbn [bind].
  assert (Hr : 0 <= lval W x mod d < B * B) by (pose proof (Z.mod_pos_bound (lval W x) d); lia).
  set (r := lval W x mod d) in *.
  rewrite !get_ok by (rewrite length_lenc; lia). cbn [bind].
  assert (Hdl : digits W (lenc W 2 r)) by (apply digits_lenc; lia).
  assert (Hvl : lval W (lenc W 2 r) = r) by (apply (lenc_small HW); lia).
  rewrite (join_ok HW) by (apply digits_nth; auto; lia). cbn [bind]. do 2 f_equal.
  destruct (low_two HW (lenc W 2 r)) as [E _]; [auto | cbn; lia | lia |].
  rewrite E. exact Hvl.
Qed.

Lemma fix_div_from_u128_ok : forall x d, W = 32 -> digits W x -> (4 <= length x)%nat -> 0 <= d < 2 ^ 128 ->
  fix_div_from_u128 x d =
  if d =? 0 then Panic else Ok (lenc W (length x) (lval W x / d), lval W x mod d).
Proof.
  intros x d H32 Hx HL Hd. unfold fix_div_from_u128.
  assert (HW' : (W =? 32) = true) by (apply Z.eqb_eq; auto).
  replace (W =? 32) with true. cbn [assert_ bind].
  replace (2 <=? length x)%nat with true by (symmetry; apply Nat.leb_le; lia).
  rewrite (is_zero_ok HW) by (auto; lia). rewrite (skipn2_zero HW) by (auto; lia). cbn [bind].
  assert (EB : 2 ^ 128 = pw 4) by (rewrite H32; reflexivity).
  assert (EBB : B * B = 2 ^ 64) by (rewrite H32; reflexivity).
  assert (H64 : 2 ^ 64 < 2 ^ 128) by reflexivity.
  pose proof (lval_lt_pw HW x Hx) as Hxr. pose proof Bp2 as HB.
  destruct (Z.ltb_spec (lval W x) (B * B)) as [Hlt|Hge].
  - rewrite (u128_scalar_ok HW) by (auto; lia). cbn [bind]. rewrite (Z.mod_small (lval W x) (2 ^ 128)) by lia.
    unfold udiv, urem. destruct (Z.eqb_spec d 0); [reflexivity|]. cbn [bind].
    rewrite scalar_u128_ok; auto. split; [apply Z.div_pos; lia|].
    apply Z.div_lt_upper_bound; [lia|]. nia.
  - rewrite scalar_u128_ok by (auto; lia). cbn [bind]. set (y := lenc W (length x) d).
    assert (Hy : digits W y) by (apply digits_lenc; lia).
    assert (Ly : length y = length x) by apply length_lenc.
    assert (Hpx : pw 4 <= pw (length x)) by (apply pw_mono; auto; lia).
    assert (Vy : lval W y = d) by (apply (lenc_small HW); lia).
    rewrite (div_cmp_ok HW) by auto. cbn [bind]. rewrite Vy.
    assert (Efin : forall (q : list Z) r, 0 <= r < 2 ^ 128 ->
      (let* r := u128_scalar (lenc W (length x) r) in Ok (q, r)) = Ok (q, r)).
    { intros q r Hr. rewrite (u128_scalar_ok HW) by (rewrite ?length_lenc; auto; apply digits_lenc; lia).
      rewrite (lenc_small HW) by lia. cbn [bind]. rewrite Z.mod_small by lia. reflexivity. }
    destruct (Z.compare_spec (lval W x) d) as [E|E|E].
    + rewrite (scalar1_ok HW) by lia. cbn [bind]. rewrite E.
      replace (d =? 0) with false by (symmetry; apply Z.eqb_neq; nia).
      rewrite Z.div_same, Z.mod_same by nia. reflexivity.
    + replace (d =? 0) with false by (symmetry; apply Z.eqb_neq; lia).
      rewrite (truncate_ok HW) by auto. cbn [bind]. rewrite Efin by lia.
      rewrite Z.div_small, (Z.mod_small (lval W x) d) by lia. rewrite (repeat0_lenc HW). reflexivity.
    + rewrite fix_full_gt_all by (auto; lia). rewrite Vy, Ly.
      destruct (Z.eqb_spec d 0); [reflexivity|]. cbn [bind].
      apply Efin. pose proof (Z.mod_pos_bound (lval W x) d). lia.
Qed.

End P.
