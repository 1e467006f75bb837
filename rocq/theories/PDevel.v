(** * Proofs about MDevel.v: shifts and products *)

Require Import ZArith List Bool Lia.
From Verif Require Import Prim Spec Facts MCore MArith MDevel PShift PCore PArith PWide PBits PBits2 PRet.
Import ListNotations.
Local Open Scope Z_scope.

(** The two readings of a pair of words: least word first, or most word first. *)
Definition pair_le (w : Z) (p : Z * Z) : Z := fst p + 2 ^ w * snd p.
Definition pair_be (w : Z) (p : Z * Z) : Z := 2 ^ w * fst p + snd p.
Definition words2 (w : Z) (p : Z * Z) : Prop := fits_u w (fst p) /\ fits_u w (snd p).
(** The call returns two words standing for [v]. *)
Definition gives2 (w : Z) (rd : Z * Z -> Z) (m : res (Z * Z)) (v : Z) : Prop := exists p, m = Ok p /\ words2 w p /\ rd p = v.
Definition word_width (w : Z) : Prop := w = 64 \/ w = 128.

Section S.
Context {c : Cfg}.
Variable w : Z.
Hypothesis Hw : word_width w.
Let w64 : 64 <= w <= 128.
Proof. destruct Hw as [-> | ->]; lia. Qed.
Let B := 2 ^ w.
Lemma dB0 : 0 < 2 ^ w.
Proof. apply Z.pow_pos_nonneg; lia. Qed.
Lemma dBB : 2 ^ (2 * w) = 2 ^ w * 2 ^ w.
Proof. rewrite <- Z.pow_add_r by lia. f_equal. lia. Qed.
Lemma dsplit : forall s, 0 <= s <= w -> 2 ^ w = 2 ^ s * 2 ^ (w - s) /\ 0 < 2 ^ s /\ 0 < 2 ^ (w - s).
Proof.
  intros s Hs. rewrite <- Z.pow_add_r by lia. replace (s + (w - s)) with w by lia. split; [reflexivity|].
  split; apply Z.pow_pos_nonneg; lia.
Qed.
Lemma usub_ok : forall a b, 0 <= b <= a -> a < 2 ^ 32 -> usub 32 a b = Ok (a - b).
Proof. intros a b H1 H2. unfold usub. apply uchk_ok. lia. Qed.

(** a left shift by less than a word *)
Lemma shl_words : forall x0 x1 s, 0 <= x0 < 2 ^ w -> 0 <= x1 < 2 ^ w -> 0 <= s < w ->
  let lo := p_wrapping_shl w x0 s in let hi := p_wrapping_shl w x1 s in let cy := x0 / 2 ^ (w - s) in
  words2 w (lo, Z.lor hi cy) /\ pair_le w (lo, Z.lor hi cy) = (pair_le w (x0, x1) * 2 ^ s) mod 2 ^ (2 * w).
Proof.
  intros x0 x1 s H0 H1 Hs lo hi cy. destruct (dsplit s ltac:(lia)) as (E & Ps & Pd). set (S2 := 2 ^ s) in *. set (D := 2 ^ (w - s)) in *.
  pose proof dB0 as PB. pose proof dBB as BB. unfold lo, hi, p_wrapping_shl. rewrite Z.mod_small by lia. fold S2. unfold ucast.
  assert (L0 : (x0 * S2) mod 2 ^ w = x0 * S2 - 2 ^ w * cy).
  { unfold cy. fold D. rewrite Z.mod_eq by lia. f_equal. f_equal. rewrite E, (Z.mul_comm S2 D). apply Z.div_mul_cancel_r; lia. }
  assert (L1 : (x1 * S2) mod 2 ^ w = (x1 mod D) * S2) by (rewrite E, (Z.mul_comm S2 D); apply Z.mul_mod_distr_r; lia).
  assert (RC : 0 <= cy < S2) by (unfold cy; fold D; split; [apply Z.div_pos; lia|apply Z.div_lt_upper_bound; nia]).
  pose proof (Z.mod_pos_bound x1 D Pd) as RM. pose proof (Z.mod_pos_bound (x0 * S2) (2 ^ w) PB) as RL.
  assert (LO : Z.lor (x1 mod D * S2) cy = x1 mod D * S2 + cy) by (unfold S2; apply lor_add; [lia|exact RC]).
  rewrite L1, LO.
  assert (RH : 0 <= x1 mod D * S2 + cy < 2 ^ w) by nia.
  split; [split; assumption|]. unfold pair_le. cbn [fst snd]. rewrite L0.
  apply Z.mod_unique with (x1 / D); [left; rewrite BB; rewrite L0 in RL; nia|].
  pose proof (Z.div_mod x1 D ltac:(lia)) as DM. rewrite BB. rewrite E in *. nia.
Qed.
Lemma shl_words_hi : forall x0 x1 s, 0 <= x0 < 2 ^ w -> 0 <= x1 < 2 ^ w -> w <= s < 2 * w ->
  words2 w (0, p_wrapping_shl w x0 (s - w)) /\ pair_le w (0, p_wrapping_shl w x0 (s - w)) = (pair_le w (x0, x1) * 2 ^ s) mod 2 ^ (2 * w).
Proof.
  intros x0 x1 s H0 H1 Hs. pose proof dB0 as PB. pose proof dBB as BB. unfold p_wrapping_shl. rewrite (Z.mod_small (s - w)) by lia. unfold ucast.
  pose proof (Z.mod_pos_bound (x0 * 2 ^ (s - w)) (2 ^ w) PB) as R. split; [split; unfold fits_u; cbn [fst snd]; lia|].
  unfold pair_le. cbn [fst snd]. replace s with (w + (s - w)) at 2 by lia. rewrite Z.pow_add_r by lia. set (D := 2 ^ (s - w)) in *.
  rewrite BB. replace ((x0 + 2 ^ w * x1) * (2 ^ w * D)) with (2 ^ w * (x0 * D + 2 ^ w * (x1 * D))) by ring.
  rewrite Z.mul_mod_distr_l by lia. rewrite Z.mul_comm with (n := 2 ^ w) (m := x1 * D), Z.mod_add by lia. lia.
Qed.
(** a right shift by less than a word, most word first *)
Lemma shr_words : forall x0 x1 s, 0 <= x0 < 2 ^ w -> 0 <= x1 < 2 ^ w -> 0 <= s < w ->
  let lo := p_wrapping_shr w x0 s in let hi := p_wrapping_shr w x1 s in let cy := (x0 * 2 ^ (w - s)) mod 2 ^ w in
  words2 w (lo, Z.lor hi cy) /\ pair_be w (lo, Z.lor hi cy) = pair_be w (x0, x1) / 2 ^ s.
Proof.
  intros x0 x1 s H0 H1 Hs lo hi cy. destruct (dsplit s ltac:(lia)) as (E & Ps & Pd). set (S2 := 2 ^ s) in *. set (D := 2 ^ (w - s)) in *.
  pose proof dB0 as PB. unfold lo, hi, p_wrapping_shr. rewrite Z.mod_small by lia. fold S2.
  assert (L1 : cy = (x0 mod S2) * D) by (unfold cy; rewrite E; apply Z.mul_mod_distr_r; lia).
  pose proof (Z.mod_pos_bound x0 S2 Ps) as RM. pose proof (Z.div_mod x0 S2 ltac:(lia)) as DM.
  assert (R1 : 0 <= x1 / S2 < D) by (split; [apply Z.div_pos; lia|apply Z.div_lt_upper_bound; nia]).
  assert (R0 : 0 <= x0 / S2 < D) by (split; [apply Z.div_pos; lia|apply Z.div_lt_upper_bound; nia]).
  assert (LO : Z.lor (x1 / S2) (x0 mod S2 * D) = x1 / S2 + x0 mod S2 * D) by (unfold D; apply lor_add'; [lia|exact R1]).
  rewrite L1, LO.
  split; [split; unfold fits_u; cbn [fst snd]; nia|]. unfold pair_be. cbn [fst snd]. rewrite E at 2.
  replace (S2 * D * x0 + x1) with (x1 + (D * x0) * S2) by ring. rewrite Z.div_add by lia. rewrite E. nia.
Qed.
Lemma shr_words_hi : forall x0 x1 s, 0 <= x0 < 2 ^ w -> 0 <= x1 < 2 ^ w -> w <= s < 2 * w ->
  words2 w (0, p_wrapping_shr w x0 (s - w)) /\ pair_be w (0, p_wrapping_shr w x0 (s - w)) = pair_be w (x0, x1) / 2 ^ s.
Proof.
  intros x0 x1 s H0 H1 Hs. pose proof dB0 as PB. unfold p_wrapping_shr. rewrite (Z.mod_small (s - w)) by lia.
  assert (P : 0 < 2 ^ (s - w)) by (apply Z.pow_pos_nonneg; lia).
  assert (R : 0 <= x0 / 2 ^ (s - w) < 2 ^ w) by (split; [apply Z.div_pos; lia|apply Z.div_lt_upper_bound; nia]).
  split; [split; unfold fits_u; cbn [fst snd]; lia|].
  unfold pair_be. cbn [fst snd]. replace s with (w + (s - w)) at 2 by lia. rewrite Z.pow_add_r by lia. rewrite <- Z.div_div by lia.
  rewrite (Z.mul_comm (2 ^ w) x0), (Z.add_comm (x0 * 2 ^ w)), Z.div_add, (Z.div_small x1) by lia. rewrite Z.mul_0_r, !Z.add_0_l. reflexivity.
Qed.
Lemma word_carry_r : forall x s, 0 < s < w -> p_wrapping_shr w x (w - s) = x / 2 ^ (w - s).
Proof. intros x s Hs. unfold p_wrapping_shr. rewrite Z.mod_small by lia. reflexivity. Qed.
Lemma word_carry_l : forall x s, 0 < s < w -> p_wrapping_shl w x (w - s) = (x * 2 ^ (w - s)) mod 2 ^ w.
Proof. intros x s Hs. unfold p_wrapping_shl, ucast. rewrite (Z.mod_small (w - s)) by lia. reflexivity. Qed.

(** the outcome of the three left shifts, and of the three right shifts *)
Definition bench_shift (m : res (Z * Z)) (rd : Z * Z -> Z) (s : Z) (v : Z -> Z) : Prop :=
  if dbg && (2 * w <=? s) then m = Panic else gives2 w rd m (v (s mod (2 * w))).
Lemma assert_case : forall s, (dbg && (2 * w <=? s) = true /\ dassert (s <? 2 * w) = Panic) \/ (dbg && (2 * w <=? s) = false /\ dassert (s <? 2 * w) = Ok tt).
Proof.
  intros s. unfold dassert, assert_. destruct dbg; cbn [andb]; auto.
  destruct (Z.leb_spec (2 * w) s), (Z.ltb_spec s (2 * w)); auto; lia.
Qed.
Lemma zero_shift : forall x, 0 <= x < 2 ^ w -> p_wrapping_shl w x 0 = x /\ p_wrapping_shr w x 0 = x.
Proof.
  intros x Hx. unfold p_wrapping_shl, p_wrapping_shr, ucast. rewrite (Z.mod_small 0) by lia. rewrite Z.pow_0_r, Z.mul_1_r, Z.div_1_r.
  split; [apply Z.mod_small; lia|reflexivity].
Qed.
Lemma shl_gives : forall x0 x1 s, fits_u w x0 -> fits_u w x1 -> fits_u 32 s ->
  let v := fun t => (pair_le w (x0, x1) * 2 ^ t) mod 2 ^ (2 * w) in
  bench_shift (shl_v1 w x0 x1 s) (pair_le w) s v /\ bench_shift (shl_v2 w x0 x1 s) (pair_le w) s v /\ bench_shift (shl_v3 w x0 x1 s) (pair_le w) s v.
Proof.
  intros x0 x1 s H0 H1 Hs v. unfold fits_u in *. unfold bench_shift, shl_v1, shl_v2, shl_v3. destruct (assert_case s) as [(-> & ->)|(-> & ->)].
  - cbn [bind]. auto.
  - cbn [bind]. pose proof (Z.mod_pos_bound s (2 * w) ltac:(lia)) as R. set (t := s mod (2 * w)) in *. clearbody t.
    destruct (Z.leb_spec w t).
    { rewrite usub_ok by lia. cbn [bind]. destruct (shl_words_hi x0 x1 t H0 H1 ltac:(lia)). repeat split; (eexists; split; [reflexivity|auto]). }
    rewrite usub_ok by lia. cbn [bind]. unfold p_checked_shr. destruct (Z.eqb_spec t 0) as [-> |E].
    + rewrite Z.sub_0_r, Z.ltb_irrefl. destruct (zero_shift x0 H0) as (-> & _). destruct (zero_shift x1 H1) as (-> & _). rewrite Z.lor_0_r.
      assert (G : gives2 w (pair_le w) (Ok (x0, x1)) (v 0)).
      { eexists. split; [reflexivity|]. split; [split; assumption|]. unfold v. rewrite Z.pow_0_r, Z.mul_1_r, Z.mod_small; [reflexivity|].
        rewrite dBB. unfold pair_le. cbn [fst snd]. pose proof dB0. nia. }
      auto.
    + rewrite (proj2 (Z.ltb_lt (w - t) w)) by lia. rewrite word_carry_r by lia.
      destruct (shl_words x0 x1 t H0 H1 ltac:(lia)). repeat split; (eexists; split; [reflexivity|auto]).
Qed.
Lemma shr_gives : forall x0 x1 s, fits_u w x0 -> fits_u w x1 -> fits_u 32 s ->
  let v := fun t => pair_be w (x0, x1) / 2 ^ t in
  bench_shift (shr_v1 w x0 x1 s) (pair_be w) s v /\ bench_shift (shr_v2 w x0 x1 s) (pair_be w) s v /\ bench_shift (shr_v3 w x0 x1 s) (pair_be w) s v.
Proof.
  intros x0 x1 s H0 H1 Hs v. unfold fits_u in *. unfold bench_shift, shr_v1, shr_v2, shr_v3. destruct (assert_case s) as [(-> & ->)|(-> & ->)].
  - cbn [bind]. auto.
  - cbn [bind]. pose proof (Z.mod_pos_bound s (2 * w) ltac:(lia)) as R. set (t := s mod (2 * w)) in *. clearbody t.
    destruct (Z.leb_spec w t).
    { rewrite usub_ok by lia. cbn [bind]. destruct (shr_words_hi x0 x1 t H0 H1 ltac:(lia)). repeat split; (eexists; split; [reflexivity|auto]). }
    rewrite usub_ok by lia. cbn [bind]. unfold p_checked_shl. destruct (Z.eqb_spec t 0) as [-> |E].
    + rewrite Z.sub_0_r, Z.ltb_irrefl. destruct (zero_shift x0 H0) as (_ & ->). destruct (zero_shift x1 H1) as (_ & ->). rewrite Z.lor_0_r.
      assert (G : gives2 w (pair_be w) (Ok (x0, x1)) (v 0)).
      { eexists. split; [reflexivity|]. split; [split; assumption|]. unfold v. rewrite Z.pow_0_r, Z.div_1_r. reflexivity. }
      auto.
    + rewrite (proj2 (Z.ltb_lt (w - t) w)) by lia. rewrite word_carry_l by lia.
      destruct (shr_words x0 x1 t H0 H1 ltac:(lia)). repeat split; (eexists; split; [reflexivity|auto]).
Qed.
End S.

Section Mul.
Context {c : Cfg}.
Variables w h : Z.
Hypothesis HH : (w = 64 /\ h = 32) \/ (w = 128 /\ h = 64).
Let Hh : 0 < h /\ h < w /\ w = 2 * h /\ w < 2 ^ 32.
Proof. destruct HH as [(-> & ->)|(-> & ->)]; lia. Qed.
Local Notation H := (2 ^ h).
Lemma mH0 : 0 < 2 ^ h.
Proof. apply Z.pow_pos_nonneg; lia. Qed.
Lemma mHH : 2 ^ w = 2 ^ h * 2 ^ h.
Proof. rewrite <- Z.pow_add_r by lia. f_equal. lia. Qed.
Lemma mask_eq : forall v, Z.land v (2 ^ h - 1) = v mod 2 ^ h.
Proof. intros v. replace (2 ^ h - 1) with (Z.ones h) by (rewrite Z.ones_equiv; lia). apply Z.land_ones. lia. Qed.
Lemma half_shr : forall v, p_wrapping_shr w v h = v / 2 ^ h.
Proof. intros v. unfold p_wrapping_shr. rewrite Z.mod_small by lia. reflexivity. Qed.
Lemma half_shl : forall v, p_wrapping_shl w v h = (v mod 2 ^ h) * 2 ^ h.
Proof. intros v. pose proof mH0. unfold p_wrapping_shl, ucast. rewrite (Z.mod_small h) by lia. rewrite mHH. apply Z.mul_mod_distr_r; lia. Qed.
Lemma ushr_half : forall v, ushr w v h = Ok (v / 2 ^ h).
Proof. intros v. apply ushr_ok; lia. Qed.
Lemma ushl_half : forall v, ushl w v h = Ok ((v mod 2 ^ h) * 2 ^ h).
Proof. intros v. pose proof mH0. rewrite ushl_ok by lia. unfold ucast. rewrite mHH. rewrite Z.mul_mod_distr_r by lia. reflexivity. Qed.
Lemma LO_eq : ushr w (2 ^ w - 1) h = Ok (2 ^ h - 1).
Proof.
  rewrite ushr_half, mHH. pose proof mH0. f_equal. symmetry. apply Z.div_unique with (2 ^ h - 1); lia.
Qed.
Lemma halves : forall v, 0 <= v < 2 ^ w -> 0 <= v mod 2 ^ h < 2 ^ h /\ 0 <= v / 2 ^ h < 2 ^ h /\ v = v mod 2 ^ h + 2 ^ h * (v / 2 ^ h).
Proof.
  intros v Hv. rewrite mHH in Hv. pose proof mH0. split; [apply Z.mod_pos_bound; lia|].
  split; [split; [apply Z.div_pos; lia|apply Z.div_lt_upper_bound; lia]|]. pose proof (Z.div_mod v (2 ^ h)). lia.
Qed.
Lemma pbound : forall a b, 0 <= a < H -> 0 <= b < H -> 0 <= a * b <= (H - 1) * (H - 1).
Proof. intros. nia. Qed.
Lemma digit : forall v, exists q r, v / 2 ^ h = q /\ v mod 2 ^ h = r /\ v = r + 2 ^ h * q /\ 0 <= r < 2 ^ h.
Proof.
  intros v. exists (v / 2 ^ h), (v mod 2 ^ h). pose proof mH0. pose proof (Z.div_mod v (2 ^ h)). pose proof (Z.mod_pos_bound v (2 ^ h)).
  repeat split; lia.
Qed.

Let HC : 2 ^ h = 2 ^ 32 \/ 2 ^ h = 2 ^ 64.
Proof. destruct HH as [(_ & E)|(_ & E)]; rewrite E; auto. Qed.
Lemma mul_max : forall x y, fits_u w x -> fits_u w y -> x * y <= (H * H - 1) * (H * H - 1).
Proof. intros x y Hx Hy. unfold fits_u in *. rewrite mHH in *. nia. Qed.
Ltac num := rewrite ?mHH; let K := fresh in destruct HC as [K|K]; rewrite ?K in *; lia.
Lemma hi_digit : forall p q r, p = r + H * q -> 0 <= p <= (H - 1) * (H - 1) -> 0 <= r < H -> 0 <= q < H.
Proof. intros. nia. Qed.
Ltac step := first [rewrite uchk_ok by num | rewrite ushr_half | rewrite ushl_half]; cbn [bind]; rewrite ?mask_eq, ?half_shr, ?half_shl.
(** name the two halves of the number [v] *)
Ltac halve v q r := let A := fresh in let B := fresh in destruct (digit v) as (q & r & A & B & ?E & ?R); rewrite ?A, ?B; clear A B.
Ltac halve_p v q r := let A := fresh in let B := fresh in let E := fresh "E" in destruct (digit v) as (q & r & A & B & E & ?R); rewrite ?A, ?B; clear A B;
  assert (0 <= q < H) by (eapply hi_digit; [exact E|assumption|assumption]).

Lemma narrow_gives : forall x y, fits_u w x -> fits_u w y -> gives2 w (pair_le w) (mul_narrow w h x y) (x * y).
Proof.
  intros x y Hx Hy. unfold mul_narrow. rewrite LO_eq. cbn [bind]. rewrite !mask_eq, !half_shr, ?half_shl.
  destruct (halves x Hx) as (X0 & X1 & EX). destruct (halves y Hy) as (Y0 & Y1 & EY).
  set (x0 := x mod 2 ^ h) in *. set (x1 := x / 2 ^ h) in *. set (y0 := y mod 2 ^ h) in *. set (y1 := y / 2 ^ h) in *. clearbody x0 x1 y0 y1.
  pose proof (pbound x0 y0 X0 Y0) as B00. pose proof (pbound x0 y1 X0 Y1) as B01. pose proof (pbound x1 y0 X1 Y0) as B10. pose proof (pbound x1 y1 X1 Y1) as B11.
  assert (EP : x * y = x0 * y0 + 2 ^ h * (x0 * y1 + x1 * y0) + 2 ^ h * 2 ^ h * (x1 * y1)) by (rewrite EX, EY; ring).
  pose proof (mul_max x y Hx Hy) as MX. rewrite EP in *. clear EP EX EY Hx Hy.
  set (p00 := x0 * y0) in *. set (p01 := x0 * y1) in *. set (p10 := x1 * y0) in *. set (p11 := x1 * y1) in *.
  unfold umul, uadd. fold p00 p01 p10 p11. clearbody p00 p01 p10 p11.
  do 4 step. halve p00 a1 a0. step. halve (a1 + p10) c1 c0. step.
  halve (a0 + c0 * 2 ^ h) d1 d0. step. halve (d1 + p01) e1 e0. step. step. step.
  eexists. split; [reflexivity|]. split.
  - split; unfold fits_u; cbn [fst snd]; num.
  - unfold pair_le. cbn [fst snd]. num.
Qed.
Lemma v1_gives : forall x0 x1 y0 y1, fits_u w x0 -> fits_u w x1 -> fits_u w y0 -> fits_u w y1 ->
  gives2 w (pair_le w) (mul_v1 w h x0 x1 y0 y1) ((pair_le w (x0, x1) * pair_le w (y0, y1)) mod 2 ^ (2 * w)).
Proof.
  intros x0 x1 y0 y1 X0 X1 Y0 Y1. unfold mul_v1. destruct (narrow_gives x0 y0 X0 Y0) as ((lo & hi) & -> & (L1 & L2) & E). cbn [bind].
  eexists. split; [reflexivity|]. unfold p_wrapping_add, p_wrapping_mul, ucast. pose proof (dB0 w ltac:(destruct HH as [(-> & _)|(-> & _)]; [left|right]; reflexivity)) as P.
  rewrite !Z.add_mod_idemp_r, Z.add_mod_idemp_l by lia. set (t := hi + x0 * y1 + x1 * y0).
  pose proof (Z.mod_pos_bound t (2 ^ w) P) as R. pose proof (Z.div_mod t (2 ^ w) ltac:(lia)) as DM. split; [split; [exact L1|exact R]|].
  unfold pair_le in *. cbn [fst snd] in *. unfold fits_u in L1. cbn [fst] in L1.
  assert (BB : 2 ^ (2 * w) = 2 ^ w * 2 ^ w) by (rewrite <- Z.pow_add_r by lia; f_equal; lia).
  apply Z.mod_unique with (t / 2 ^ w + x1 * y1); [left; rewrite BB; nia|]. rewrite BB.
  replace ((x0 + 2 ^ w * x1) * (y0 + 2 ^ w * y1)) with (x0 * y0 + 2 ^ w * (t - hi) + 2 ^ w * 2 ^ w * (x1 * y1)) by (unfold t; ring).
  rewrite <- E. set (u := t mod 2 ^ w) in *. set (v := t / 2 ^ w) in *. rewrite DM. ring.
Qed.
Lemma v2_gives : forall x0 x1 y0 y1, fits_u w x0 -> fits_u w x1 -> fits_u w y0 -> fits_u w y1 ->
  gives2 w (pair_le w) (mul_v2 w h x0 x1 y0 y1) ((pair_le w (x0, x1) * pair_le w (y0, y1)) mod 2 ^ (2 * w)).
Proof.
  intros x0 x1 y0 y1 X0 X1 Y0 Y1. unfold mul_v2. rewrite !ushr_half. cbn [bind]. rewrite !mask_eq.
  destruct (halves x0 X0) as (A0 & A1 & EA). destruct (halves x1 X1) as (A2 & A3 & EB).
  destruct (halves y0 Y0) as (D0 & D1 & EC). destruct (halves y1 Y1) as (D2 & D3 & ED).
  set (a0 := x0 mod 2 ^ h) in *. set (a1 := x0 / 2 ^ h) in *. set (a2 := x1 mod 2 ^ h) in *. set (a3 := x1 / 2 ^ h) in *.
  set (b0 := y0 mod 2 ^ h) in *. set (b1 := y0 / 2 ^ h) in *. set (b2 := y1 mod 2 ^ h) in *. set (b3 := y1 / 2 ^ h) in *.
  clearbody a0 a1 a2 a3 b0 b1 b2 b3. 
  pose proof (pbound a0 b0 A0 D0). pose proof (pbound a0 b1 A0 D1). pose proof (pbound a0 b2 A0 D2). pose proof (pbound a0 b3 A0 D3).
  pose proof (pbound a1 b0 A1 D0). pose proof (pbound a1 b1 A1 D1). pose proof (pbound a1 b2 A1 D2). pose proof (pbound a1 b3 A1 D3).
  pose proof (pbound a2 b0 A2 D0). pose proof (pbound a2 b1 A2 D1). pose proof (pbound a2 b2 A2 D2). pose proof (pbound a2 b3 A2 D3).
  pose proof (pbound a3 b0 A3 D0). pose proof (pbound a3 b1 A3 D1). pose proof (pbound a3 b2 A3 D2). pose proof (pbound a3 b3 A3 D3).
  unfold umul, uadd, for_range. cbn [for_m Nat.sub get nth_error bind set upd length Nat.ltb Nat.leb repeat].
  do 16 (rewrite uchk_ok by num; cbn [for_m Nat.sub get nth_error bind set upd length Nat.ltb Nat.leb repeat]).
  rewrite !ushr_half, !mask_eq. cbn [bind].
  halve_p (a0 * b0) q00 r00. halve_p (a0 * b1) q01 r01. halve_p (a0 * b2) q02 r02. halve_p (a0 * b3) q03 r03.
  halve_p (a1 * b0) q10 r10. halve_p (a1 * b1) q11 r11. halve_p (a1 * b2) q12 r12.
  halve_p (a2 * b0) q20 r20. halve_p (a2 * b1) q21 r21. halve_p (a3 * b0) q30 r30.
  rewrite (Z.div_small r00) by assumption. do 14 step.
  halve (r01 + q00 + r10 + 0) q1 d1. do 2 step. halve (r02 + q01 + (r11 + q10) + r20 + q1) q2 d2. do 2 step.
  halve (r03 + q02 + (r12 + q11) + (r21 + q20) + r30 + q2) q3 d3.
  step.
  rewrite (Z.mod_small d1), (Z.mod_small d3), (Z.mod_small r00) by assumption. rewrite !lor_add by (assumption || lia).
  eexists. split; [reflexivity|]. split; [split; unfold fits_u; cbn [fst snd]; num|].
  unfold pair_le. cbn [fst snd].
  apply Z.mod_unique with (q3 + q03 + q12 + a1 * b3 + q21 + a2 * b2 + q30 + a3 * b1 + 2 ^ h * (a2 * b3 + a3 * b2) + 2 ^ h * 2 ^ h * (a3 * b3)).
  - left. replace (2 ^ (2 * w)) with (2 ^ h * 2 ^ h * (2 ^ h * 2 ^ h)) by (rewrite <- mHH, <- Z.pow_add_r by lia; f_equal; lia). num.
  - replace (2 ^ (2 * w)) with (2 ^ h * 2 ^ h * (2 ^ h * 2 ^ h)) by (rewrite <- mHH, <- Z.pow_add_r by lia; f_equal; lia).
    rewrite EA, EB, EC, ED. num.
Qed.
Lemma mac_digits : forall a b r cy, 0 <= a * b <= (H - 1) * (H - 1) -> 0 <= r < H -> 0 <= cy < H ->
  exists q d, (cy + r + a * b) / H = q /\ (cy + r + a * b) mod H = d /\ cy + r + a * b = d + H * q /\ 0 <= d < H /\ 0 <= q < H.
Proof.
  intros a b r cy P R C. destruct (digit (cy + r + a * b)) as (q & d & E1 & E2 & E3 & E4). exists q, d. split; [auto|]. split; [auto|]. split; [auto|]. split; [auto|]. nia.
Qed.
Ltac run := cbn [for_m Nat.sub Nat.add get nth_error bind set upd length Nat.ltb Nat.leb repeat].
Ltac mac1 a b r cy q d := rewrite uchk_ok by num; run; rewrite uchk_ok by num; run; rewrite uchk_ok by num; run; rewrite ushr_half; run;
  let A1 := fresh in let A2 := fresh in let E := fresh "E" in let R := fresh in let Q := fresh in
  destruct (mac_digits a b r cy) as (q & d & A1 & A2 & E & R & Q); [assumption|assumption || (pose proof mH0; lia)|assumption || (pose proof mH0; lia)|];
  rewrite ?A1, ?A2, ?(Z.mod_small q) by assumption; clear A1 A2.
Lemma v3_gives : forall x0 x1 y0 y1, fits_u w x0 -> fits_u w x1 -> fits_u w y0 -> fits_u w y1 ->
  gives2 w (pair_le w) (mul_v3 w h x0 x1 y0 y1) ((pair_le w (x0, x1) * pair_le w (y0, y1)) mod 2 ^ (2 * w)).
Proof.
  intros x0 x1 y0 y1 X0 X1 Y0 Y1. unfold mul_v3. rewrite !ushr_half. cbn [bind]. rewrite !mask_eq. unfold ucast.
  destruct (halves x0 X0) as (A0 & A1 & EA). destruct (halves x1 X1) as (A2 & A3 & EB).
  destruct (halves y0 Y0) as (D0 & D1 & EC). destruct (halves y1 Y1) as (D2 & D3 & ED).
  rewrite !Z.mod_mod by lia. rewrite (Z.mod_small (x0 / _)), (Z.mod_small (x1 / _)), (Z.mod_small (y0 / _)), (Z.mod_small (y1 / _)) by assumption.
  set (a0 := x0 mod 2 ^ h) in *. set (a1 := x0 / 2 ^ h) in *. set (a2 := x1 mod 2 ^ h) in *. set (a3 := x1 / 2 ^ h) in *.
  set (b0 := y0 mod 2 ^ h) in *. set (b1 := y0 / 2 ^ h) in *. set (b2 := y1 mod 2 ^ h) in *. set (b3 := y1 / 2 ^ h) in *.
  clearbody a0 a1 a2 a3 b0 b1 b2 b3. 
  pose proof (pbound a0 b0 A0 D0). pose proof (pbound a0 b1 A0 D1). pose proof (pbound a0 b2 A0 D2). pose proof (pbound a0 b3 A0 D3).
  pose proof (pbound a1 b0 A1 D0). pose proof (pbound a1 b1 A1 D1). pose proof (pbound a1 b2 A1 D2).
  pose proof (pbound a2 b0 A2 D0). pose proof (pbound a2 b1 A2 D1). pose proof (pbound a3 b0 A3 D0).
  unfold umul, uadd, for_range. cbn [for_m Nat.sub Nat.add get nth_error bind set upd length Nat.ltb Nat.leb repeat].
  mac1 a0 b0 0 0 c00 r0. mac1 a0 b1 0 c00 c01 r1. mac1 a0 b2 0 c01 c02 r2. mac1 a0 b3 0 c02 c03 r3.
  mac1 a1 b0 r1 0 c10 s1. mac1 a1 b1 r2 c10 c11 s2. mac1 a1 b2 r3 c11 c12 s3.
  mac1 a2 b0 s2 0 c20 t2. mac1 a2 b1 s3 c20 c21 t3. 
  assert (G : gives2 w (pair_le w) (Ok (s1 * 2 ^ h + r0, (0 + t3 + a3 * b0) mod 2 ^ h * 2 ^ h + t2)) ((pair_le w (x0, x1) * pair_le w (y0, y1)) mod 2 ^ (2 * w))).
  { destruct (mac_digits a3 b0 t3 0) as (c30 & u3 & _ & -> & E30 & R3 & _); [assumption|assumption|pose proof mH0; lia|].
    eexists. split; [reflexivity|]. split; [split; unfold fits_u; cbn [fst snd]; num|].
    unfold pair_le. cbn [fst snd].
    apply Z.mod_unique with (c03 + c12 + c21 + c30 + a1 * b3 + a2 * b2 + a3 * b1 + 2 ^ h * (a2 * b3 + a3 * b2) + 2 ^ h * 2 ^ h * (a3 * b3)).
    - left. replace (2 ^ (2 * w)) with (2 ^ h * 2 ^ h * (2 ^ h * 2 ^ h)) by (rewrite <- mHH, <- Z.pow_add_r by lia; f_equal; lia). num.
    - replace (2 ^ (2 * w)) with (2 ^ h * 2 ^ h * (2 ^ h * 2 ^ h)) by (rewrite <- mHH, <- Z.pow_add_r by lia; f_equal; lia).
      rewrite EA, EB, EC, ED. num. }
  destruct (negb (a2 =? 0) && negb (b2 =? 0)); run;
    (rewrite uchk_ok by num; run; rewrite uchk_ok by num; run; rewrite uchk_ok by num; run; rewrite ushr_half; run);
    destruct (negb (a3 =? 0) && negb (b1 =? 0)); run; try (destruct (negb (a3 =? 0) && negb (b2 =? 0)); run);
    rewrite !ushl_half; run; rewrite (Z.mod_mod (0 + _ + _)) by (pose proof mH0; lia); rewrite (Z.mod_small s1) by assumption;
    rewrite !lor_add by (assumption || lia); exact G.
Qed.
End Mul.
