(** * Properties: the alternative algorithms of devel/benches (C71) *)

Require Import ZArith List Bool Lia.
From Verif Require Import Prim Spec Facts MCore MArith MDevel PDevel PShift PCore PArith PWide PBits PBits2 PRet.
Import ListNotations.
Local Open Scope Z_scope.

(** ** Bit counts *)
Lemma ones_two : forall w x y, 0 < w -> 0 <= x < 2 ^ w -> ones (x + 2 ^ w * y) (Z.to_nat w + Z.to_nat w) = p_count_ones w x + p_count_ones w y.
Proof.
  intros w x y Hw Hx. rewrite ones_add. f_equal.
  - unfold ones, p_count_ones. do 2 f_equal. apply filter_ext_lt. intros i Hi.
    rewrite <- (Z.mod_pow2_bits_low (x + 2 ^ w * y) w) by lia. rewrite (Z.mul_comm (2 ^ w) y), Z.mod_add, Z.mod_small by (auto; lia). reflexivity.
  - unfold p_count_ones. do 2 f_equal. apply filter_ext_lt. intros i Hi.
    rewrite Nat2Z.inj_add, (Z.add_comm (Z.of_nat (Z.to_nat w))), Z2Nat.id by lia. rewrite <- Z.shiftr_spec by lia. rewrite Z.shiftr_div_pow2 by lia.
    rewrite (Z.mul_comm (2 ^ w) y), Z.div_add, Z.div_small by (auto; lia). rewrite Z.add_0_l. reflexivity.
Qed.
Lemma p_ones_range : forall w x, 0 <= w -> 0 <= p_count_ones w x <= w.
Proof. intros w x Hw. pose proof (ones_range x (Z.to_nat w)) as R. unfold ones in R. unfold p_count_ones. lia. Qed.
Lemma count_ones_two : forall (c : Cfg) x y, fits_u 128 x -> fits_u 128 y -> count_ones_u128 x y = Ok (bit_count 256 (x + 2 ^ 128 * y) true).
Proof.
  intros c x y Hx Hy. unfold count_ones_u128. rewrite bit_count_ones. replace (Z.to_nat 256) with (Z.to_nat 128 + Z.to_nat 128)%nat by reflexivity.
  rewrite ones_two by (auto; lia). unfold uadd. pose proof (p_ones_range 128 x ltac:(lia)). pose proof (p_ones_range 128 y ltac:(lia)).
  rewrite uchk_ok by lia. f_equal. lia.
Qed.
Lemma leading_zeros_two : forall (c : Cfg) x y, fits_u 128 x -> fits_u 128 y -> leading_zeros_u128 x y = Ok (lz_of 256 (x + 2 ^ 128 * y)).
Proof.
  intros c x y Hx Hy. unfold leading_zeros_u128. change (p_leading_zeros 128 y) with (lz_of 128 y). change (p_leading_zeros 128 x) with (lz_of 128 x).
  unfold fits_u in *. destruct (lz_of_range 128 y ltac:(lia) Hy) as (R1 & R2). destruct (lz_of_range 128 x ltac:(lia) Hx) as (R3 & R4).
  destruct (Z.eqb_spec y 0) as [->|Y0].
  - change (lz_of 128 0) with 128 in *. rewrite Z.eqb_refl. unfold uadd. rewrite uchk_ok by lia. f_equal. rewrite Z.mul_0_r, Z.add_0_r.
    unfold lz_of. destruct (Z.eqb_spec x 0); lia.
  - specialize (R2 Y0). rewrite (proj2 (Z.eqb_neq _ _)) by lia. f_equal. unfold lz_of. rewrite (proj2 (Z.eqb_neq y 0)) by auto.
    rewrite (proj2 (Z.eqb_neq (x + _) 0)) by nia. rewrite log2_top by lia. lia.
Qed.
(** four words are the limbs of a 256-bit number *)
Definition words_cfg (c : Cfg) : Cfg := {| W := 64; N := 4; chk := chk; dbg := dbg |}.
Lemma words_valid : forall c, @Valid (words_cfg c).
Proof. intros c. split; [right; reflexivity|]. split; [exists 2; split; [lia|reflexivity]|reflexivity]. Qed.
Lemma words_ones : forall (c : Cfg) x, length x = 4%nat -> count_ones_u64 x = @count_ones (words_cfg c) x.
Proof. intros c x L. unfold count_ones_u64, count_ones. rewrite L. reflexivity. Qed.
Lemma words_zeros : forall (c : Cfg) x, length x = 4%nat -> leading_zeros_u64 x = @leading_zeros (words_cfg c) x.
Proof. intros c x L. unfold leading_zeros_u64, leading_zeros. rewrite L. reflexivity. Qed.

(** ** Division by multiplication *)
Section Div.
Context {c : Cfg}.
Hypothesis HW : W = 64.
Hypothesis HN : N = 4%nat.
Let HV : Valid.
Proof. split; [auto|]. unfold BITS. rewrite HN, HW. split; [exists 2; split; [lia|reflexivity]|reflexivity]. Qed.
Let HB : BITS = 256.
Proof. unfold BITS. rewrite HN, HW. reflexivity. Qed.

Lemma wide_parts : forall x, wf x -> get_wide x 0 = Ok (uval x mod 2 ^ 128) /\ get_wide x 1 = Ok (uval x / 2 ^ 128).
Proof.
  intros x [L D]. rewrite HN in L. rewrite HW in D. destruct x as [|a [|b [|d [|e [|? ?]]]]]; try discriminate.
  unfold get_wide, WIDE. rewrite HN. cbn [Nat.div Nat.divmod fst snd Nat.ltb Nat.leb assert_ bind get nth_error Nat.mul Nat.add].
  inversion D as [|? ? Ra D1]; subst. inversion D1 as [|? ? Rb D2]; subst. inversion D2 as [|? ? Rc D3]; subst. inversion D3 as [|? ? Rd _]; subst.
  unfold uval. rewrite HW. cbn [lval].
  assert (E : a + 2 ^ 64 * (b + 2 ^ 64 * (d + 2 ^ 64 * (e + 2 ^ 64 * 0))) = a + 2 ^ 64 * b + (d + 2 ^ 64 * e) * 2 ^ 128) by lia.
  rewrite E. rewrite Z.mod_add, Z.div_add by lia. rewrite Z.mod_small, Z.div_small by lia. auto.
Qed.
Lemma hi_ok : forall x, wf x -> bench_hi x = Ok (ofZ (uval x / 2 ^ 128)).
Proof.
  intros x Hx. unfold bench_hi. rewrite (proj2 (wide_parts x Hx)). cbn [bind]. apply (from_u128_ok HV).
  pose proof (uval_range HV x Hx) as R. rewrite HB in R. unfold fits_u. split; [apply Z.div_pos; lia|apply Z.div_lt_upper_bound; lia].
Qed.
Lemma lo_ok : forall x, wf x -> bench_lo x = Ok (ofZ (uval x mod 2 ^ 128)).
Proof.
  intros x Hx. unfold bench_lo. rewrite (proj1 (wide_parts x Hx)). cbn [bind]. apply (from_u128_ok HV).
  unfold fits_u. apply Z.mod_pos_bound. lia.
Qed.
Lemma uz : forall v, 0 <= v < 2 ^ 256 -> uval (ofZ v) = v.
Proof. intros v Hv. rewrite (uval_ofZ HV), HB. apply Z.mod_small. exact Hv. Qed.
Lemma wz : forall v, wf (ofZ v).
Proof. apply (wf_ofZ HV). Qed.
Lemma mul_u : forall a b, wf a -> wf b -> wrapping_mul false a b = Ok (ofZ (uval a * uval b)).
Proof. intros. apply (wrapping_mul_ok HV false); auto. Qed.
Lemma add_u : forall a b, wf a -> wf b -> wrapping_add false a b = Ok (ofZ (uval a + uval b)).
Proof. intros. apply (wrapping_add_ok HV false); auto. Qed.

(** the part of the product that the code truncates on the wrong side *)
Definition middle (x y : Z) : Z :=
  let (x1, x0) := (x / 2 ^ 128, x mod 2 ^ 128) in let (y1, y0) := (y / 2 ^ 128, y mod 2 ^ 128) in
  x1 * y0 + (x0 * y1 + x0 * y0 / 2 ^ 128) mod 2 ^ 128.
Lemma mulhi_true : forall x y, 0 <= x < 2 ^ 256 -> 0 <= y < 2 ^ 256 ->
  x * y / 2 ^ 256 = (x / 2 ^ 128) * (y / 2 ^ 128) + ((x mod 2 ^ 128) * (y / 2 ^ 128) + (x mod 2 ^ 128) * (y mod 2 ^ 128) / 2 ^ 128) / 2 ^ 128 + middle x y / 2 ^ 128.
Proof.
  intros x y Hx Hy. unfold middle. pose proof (Z.div_mod x (2 ^ 128) ltac:(lia)) as EX. pose proof (Z.div_mod y (2 ^ 128) ltac:(lia)) as EY.
  pose proof (Z.mod_pos_bound x (2 ^ 128) ltac:(lia)). pose proof (Z.mod_pos_bound y (2 ^ 128) ltac:(lia)).
  set (x1 := x / 2 ^ 128) in *. set (x0 := x mod 2 ^ 128) in *. set (y1 := y / 2 ^ 128) in *. set (y0 := y mod 2 ^ 128) in *. clearbody x0 x1 y0 y1.
  pose proof (Z.div_mod (x0 * y0) (2 ^ 128) ltac:(lia)) as E0. pose proof (Z.mod_pos_bound (x0 * y0) (2 ^ 128) ltac:(lia)) as R0.
  set (m := x0 * y1 + x0 * y0 / 2 ^ 128) in *. 
  pose proof (Z.div_mod m (2 ^ 128) ltac:(lia)) as E1. pose proof (Z.mod_pos_bound m (2 ^ 128) ltac:(lia)) as R1.
  set (t := x1 * y0 + m mod 2 ^ 128). pose proof (Z.div_mod t (2 ^ 128) ltac:(lia)) as E2. pose proof (Z.mod_pos_bound t (2 ^ 128) ltac:(lia)) as R2.
  symmetry. apply Z.div_unique with ((x0 * y0) mod 2 ^ 128 + 2 ^ 128 * (t mod 2 ^ 128)); [left; lia|].
  rewrite EX, EY. replace ((2 ^ 128 * x1 + x0) * (2 ^ 128 * y1 + y0)) with (2 ^ 256 * (x1 * y1) + 2 ^ 128 * (x1 * y0) + 2 ^ 128 * (x0 * y1) + x0 * y0) by ring.
  assert (F1 : x1 * y0 = t - m mod 2 ^ 128) by (unfold t; ring). assert (F2 : x0 * y1 = m - x0 * y0 / 2 ^ 128) by (unfold m; ring).
  rewrite F1, F2. clearbody t m. lia.
Qed.
Lemma parts_range : forall x, 0 <= x < 2 ^ 256 -> 0 <= x / 2 ^ 128 < 2 ^ 128 /\ 0 <= x mod 2 ^ 128 < 2 ^ 128.
Proof. intros x Hx. split; [split; [apply Z.div_pos; lia|apply Z.div_lt_upper_bound; lia]|apply Z.mod_pos_bound; lia]. Qed.
Lemma pb128 : forall a b, 0 <= a < 2 ^ 128 -> 0 <= b < 2 ^ 128 -> 0 <= a * b <= (2 ^ 128 - 1) * (2 ^ 128 - 1).
Proof. intros. nia. Qed.
(** what [mulhi] computes: the high half of the product with one term replaced *)
Definition bench_high (x y : Z) : Z := x * y / 2 ^ 256 - middle x y / 2 ^ 128 + middle x y mod 2 ^ 128.
Lemma high_range : forall x y, 0 <= x < 2 ^ 256 -> 0 <= y < 2 ^ 256 -> 0 <= bench_high x y < 2 ^ 256.
Proof.
  intros x y Rx Ry. unfold bench_high. rewrite (mulhi_true _ _ Rx Ry). set (t := middle x y). clearbody t.
  destruct (parts_range _ Rx) as (X1 & X0). destruct (parts_range _ Ry) as (Y1 & Y0).
  set (x1 := x / 2 ^ 128) in *. set (x0 := x mod 2 ^ 128) in *. set (y1 := y / 2 ^ 128) in *. set (y0 := y mod 2 ^ 128) in *. clearbody x0 x1 y0 y1.
  pose proof (pb128 x0 y0 X0 Y0). pose proof (pb128 x0 y1 X0 Y1). pose proof (pb128 x1 y1 X1 Y1).
  pose proof (Z.mod_pos_bound t (2 ^ 128) ltac:(lia)).
  assert (Q0 : 0 <= x0 * y0 / 2 ^ 128 <= 2 ^ 128 - 2) by (split; [apply Z.div_pos; lia|apply Z.lt_succ_r, Z.div_lt_upper_bound; lia]).
  assert (Q1 : 0 <= (x0 * y1 + x0 * y0 / 2 ^ 128) / 2 ^ 128 <= 2 ^ 128 - 2) by (split; [apply Z.div_pos; lia|apply Z.lt_succ_r, Z.div_lt_upper_bound; lia]).
  lia.
Qed.
Lemma mulhi_ok : forall x y, wf x -> wf y -> bench_mulhi x y = Ok (ofZ (bench_high (uval x) (uval y))).
Proof.
  intros x y Hx Hy. pose proof (uval_range HV x Hx) as Rx. pose proof (uval_range HV y Hy) as Ry. rewrite HB in Rx, Ry.
  unfold bench_mulhi. rewrite !hi_ok, !lo_ok by auto. cbn [bind]. unfold bench_high. rewrite (mulhi_true _ _ Rx Ry). unfold middle.
  destruct (parts_range _ Rx) as (X1 & X0). destruct (parts_range _ Ry) as (Y1 & Y0).
  set (x1 := uval x / 2 ^ 128) in *. set (x0 := uval x mod 2 ^ 128) in *. set (y1 := uval y / 2 ^ 128) in *. set (y0 := uval y mod 2 ^ 128) in *. clearbody x0 x1 y0 y1.
  pose proof (pb128 x0 y0 X0 Y0). pose proof (pb128 x0 y1 X0 Y1). pose proof (pb128 x1 y0 X1 Y0). pose proof (pb128 x1 y1 X1 Y1).
  rewrite !mul_u by apply wz. cbn [bind]. rewrite !uz by lia. rewrite hi_ok by apply wz. cbn [bind]. rewrite uz by lia.
  destruct (parts_range (x0 * y0) ltac:(lia)) as (Q0 & _).
  rewrite add_u by apply wz. cbn [bind]. rewrite !uz by lia. set (m := x0 * y1 + x0 * y0 / 2 ^ 128) in *.
  assert (M : 0 <= m < 2 ^ 256) by (unfold m; lia). destruct (parts_range m M) as (M1 & M0).
  rewrite lo_ok, hi_ok by apply wz. cbn [bind]. rewrite !uz by lia.
  rewrite add_u by apply wz. cbn [bind]. rewrite !uz by lia.
  set (t := x1 * y0 + m mod 2 ^ 128) in *. assert (T : 0 <= t < 2 ^ 256) by (unfold t; lia). destruct (parts_range t T) as (T1 & T0).
  rewrite lo_ok by apply wz. cbn [bind]. rewrite !uz by lia. 
  rewrite add_u by apply wz. cbn [bind]. rewrite !uz by lia. rewrite add_u by apply wz. rewrite !(uz (t mod _)), !uz by lia. f_equal. f_equal. lia.
Qed.
Definition bench_quot (x d more : Z) : Z :=
  if d =? 0 then x / 2 ^ (more mod 256)
  else if Z.land more 0x4000 =? 0 then bench_high d x / 2 ^ (more mod 256)
  else (((x - 1) mod 2 ^ 256 / 2 + bench_high d x) mod 2 ^ 256) / 2 ^ (Z.land more 0x3FFF mod 256).
Lemma shr_u : forall x r, wf x -> wrapping_shr false x r = Ok (ofZ (uval x / 2 ^ (r mod 256))).
Proof. intros x r Hx. rewrite <- HB. apply (wrapping_shr_ok HV false); auto. Qed.
Lemma and_max : forall x, wf x -> bitand_const x (ofZ (hi_of false)) = Ok x.
Proof.
  intros x Hx. rewrite (bitand_ok HV) by (auto using wz). f_equal. pose proof (uval_range HV x Hx) as R. rewrite <- (ofZ_uval HV x Hx) at 2. f_equal.
  assert (E : uval (ofZ (hi_of false)) = Z.ones BITS).
  { rewrite (uval_ofZ HV). cbn [hi_of]. rewrite Z.ones_equiv. apply Z.mod_small. pose proof (pB HV). lia. }
  rewrite E, Z.land_ones by (pose proof (BITS_nonneg HV); lia). apply Z.mod_small. exact R.
Qed.
Lemma divide_ok : forall x d more, wf x -> wf d -> divide_by_num x d more = Ok (ofZ (bench_quot (uval x) (uval d) more)).
Proof.
  intros x d more Hx Hd. pose proof (uval_range HV x Hx) as Rx. pose proof (uval_range HV d Hd) as Rd. rewrite HB in Rx, Rd.
  unfold divide_by_num, bench_quot. rewrite (from_u8_ok HV) by (unfold fits_u; lia). cbn [bind]. rewrite (eq_const_ok HV) by (auto using wz). cbn [bind].
  rewrite uz by lia. destruct (uval d =? 0); [apply shr_u; auto|]. rewrite (max_value_ok HV). cbn [bind]. rewrite mulhi_ok by auto. cbn [bind].
  pose proof (high_range _ _ Rd Rx) as Rh. change ADD_MARKER with 0x4000. change UNIVERSAL with 0x3FFF.
  destruct (Z.land more 0x4000 =? 0); cbn [negb].
  - rewrite shr_u by apply wz. rewrite uz by exact Rh. reflexivity.
  - rewrite (wrapping_sub_ulimb_ok HV false) by (auto; unfold fits_u; rewrite HW; lia). cbn [bind]. rewrite and_max by apply wz. cbn [bind].
    rewrite shr_u by apply wz. cbn [bind]. rewrite add_u by apply wz. cbn [bind]. rewrite and_max by apply wz. cbn [bind]. rewrite shr_u by apply wz.
    change (val false x) with (uval x). rewrite !(uval_ofZ HV), !HB. change (2 ^ (1 mod 256)) with 2.
    pose proof (Z.mod_pos_bound (uval x - 1) (2 ^ 256) ltac:(lia)) as Rm.
    rewrite (Z.mod_small ((uval x - 1) mod 2 ^ 256 / 2)) by (split; [apply Z.div_pos; lia|apply Z.div_lt_upper_bound; lia]).
    rewrite (Z.mod_small (bench_high _ _)) by exact Rh. reflexivity.
Qed.
Lemma div_rem_ok : forall x d more, wf x -> wf d ->
  div_rem_by_num x d more = Ok (ofZ (bench_quot (uval x) (uval d) more), ofZ (uval x - bench_quot (uval x) (uval d) more * uval d)).
Proof.
  intros x d more Hx Hd. unfold div_rem_by_num. rewrite divide_ok by auto. cbn [bind]. rewrite mul_u by (auto using wz). cbn [bind].
  rewrite (wrapping_sub_ok HV false) by (auto using wz). cbn [bind]. f_equal. f_equal. cbn [val].
  apply (ofZ_eq_mod HV). rewrite !(uval_ofZ HV). assert (P : 2 ^ BITS <> 0) by (rewrite HB; lia).
  rewrite Zminus_mod_idemp_r. rewrite Zminus_mod, Z.mul_mod_idemp_l by auto. rewrite <- Zminus_mod. reflexivity.
Qed.
End Div.

(** A multiplier slightly above [2^k / d] divides exactly. *)
Lemma magic_div : forall b k d m x, 0 <= b <= k -> 0 < d -> 2 ^ k <= m * d <= 2 ^ k + 2 ^ (k - b) -> 0 <= x < 2 ^ b -> x * m / 2 ^ k = x / d.
Proof.
  intros b k d m x Hk Hd Hm Hx. symmetry.
  assert (P : 0 < 2 ^ k) by (apply Z.pow_pos_nonneg; lia). assert (P' : 0 < 2 ^ (k - b)) by (apply Z.pow_pos_nonneg; lia).
  assert (E : 2 ^ k = 2 ^ b * 2 ^ (k - b)) by (rewrite <- Z.pow_add_r by lia; f_equal; lia).
  apply Z.div_unique with (x * m - 2 ^ k * (x / d)); [left|ring]. pose proof (Z.div_mod x d ltac:(lia)) as DM. pose proof (Z.mod_pos_bound x d Hd) as R.
  set (q := x / d) in *. set (r := x mod d) in *.
  assert (Q : 0 <= q) by (apply Z.div_pos; lia). clearbody q r.
  assert (A : d * (x * m - 2 ^ k * q) = x * (m * d - 2 ^ k) + 2 ^ k * r) by (replace r with (x - d * q) by lia; ring).
  assert (U : x * (m * d - 2 ^ k) < 2 ^ k) by (rewrite E at 2; nia). split; nia.
Qed.

(** ** C71: the alternative algorithms of devel/benches *)

(** The three left shifts of a pair of words, least word first, agree with the
    shift of the double word; the three right shifts agree with it when the pair
    is read most word first.  With debug assertions an amount of two words or
    more panics, without them it is reduced. *)
Theorem C71_shl : forall (c : Cfg) w x0 x1 s, word_width w -> fits_u w x0 -> fits_u w x1 -> fits_u 32 s ->
  let v := fun t => (pair_le w (x0, x1) * 2 ^ t) mod 2 ^ (2 * w) in
  bench_shift w (shl_v1 w x0 x1 s) (pair_le w) s v /\ bench_shift w (shl_v2 w x0 x1 s) (pair_le w) s v /\ bench_shift w (shl_v3 w x0 x1 s) (pair_le w) s v.
Proof. intros. apply shl_gives; auto. Qed.
Theorem C71_shr : forall (c : Cfg) w x0 x1 s, word_width w -> fits_u w x0 -> fits_u w x1 -> fits_u 32 s ->
  let v := fun t => pair_be w (x0, x1) / 2 ^ t in
  bench_shift w (shr_v1 w x0 x1 s) (pair_be w) s v /\ bench_shift w (shr_v2 w x0 x1 s) (pair_be w) s v /\ bench_shift w (shr_v3 w x0 x1 s) (pair_be w) s v.
Proof. intros. apply shr_gives; auto. Qed.
(** Read in the order of the left shifts they are wrong. *)
Theorem C71_shr_refuted : exists x0 x1 s, fits_u 64 x0 /\ fits_u 64 x1 /\ 0 <= s < 128 /\
  shr_v1 (c := c256_64) 64 x0 x1 s = Ok (0, 2 ^ 62) /\ shr_v2 (c := c256_64) 64 x0 x1 s = Ok (0, 2 ^ 62) /\ shr_v3 (c := c256_64) 64 x0 x1 s = Ok (0, 2 ^ 62) /\
  pair_le 64 (0, 2 ^ 62) <> pair_le 64 (x0, x1) / 2 ^ s.
Proof.
  exists 1, 0, 2. split; [unfold fits_u; lia|]. split; [unfold fits_u; lia|]. split; [lia|]. vm_compute. repeat split; discriminate.
Qed.
Example C71_ex1 : shl_v2 (c := c256_64) 64 (2 ^ 63 + 5) 7 3 = Ok (40, 60) /\ shr_v3 (c := c256_64) 128 11 9 1 = Ok (5, 2 ^ 127 + 4) /\
  shl_v1 (c := c256_64) 64 1 1 128 = Panic /\ shl_v1 (c := c512_32) 64 1 1 129 = Ok (2, 2).
Proof. vm_compute. auto. Qed.

(** The three products of double words, and the word product they build on. *)
Theorem C71_mul : forall (c : Cfg) w h x0 x1 y0 y1, (w = 64 /\ h = 32) \/ (w = 128 /\ h = 64) ->
  fits_u w x0 -> fits_u w x1 -> fits_u w y0 -> fits_u w y1 ->
  let v := (pair_le w (x0, x1) * pair_le w (y0, y1)) mod 2 ^ (2 * w) in
  gives2 w (pair_le w) (mul_v1 w h x0 x1 y0 y1) v /\ gives2 w (pair_le w) (mul_v2 w h x0 x1 y0 y1) v /\ gives2 w (pair_le w) (mul_v3 w h x0 x1 y0 y1) v.
Proof. intros. split; [apply v1_gives; auto|]. split; [apply v2_gives; auto|apply v3_gives; auto]. Qed.
Theorem C71_narrow : forall (c : Cfg) w h x y, (w = 64 /\ h = 32) \/ (w = 128 /\ h = 64) -> fits_u w x -> fits_u w y ->
  gives2 w (pair_le w) (mul_narrow w h x y) (x * y).
Proof. intros. apply narrow_gives; auto. Qed.
Example C71_ex2 :
  mul_v1 (c := c256_64) 64 32 (2 ^ 64 - 1) 5 (2 ^ 64 - 3) 7 = Ok (3, 18446744073709551590) /\
  mul_v2 (c := c256_64) 64 32 (2 ^ 64 - 1) 5 (2 ^ 64 - 3) 7 = Ok (3, 18446744073709551590) /\
  mul_v3 (c := c256_64) 64 32 (2 ^ 64 - 1) 5 (2 ^ 64 - 3) 7 = Ok (3, 18446744073709551590).
Proof. vm_compute. auto. Qed.

(** The bit counts over two 128-bit words and over four 64-bit words. *)
Theorem C71_counts : forall (c : Cfg) x y, fits_u 128 x -> fits_u 128 y ->
  count_ones_u128 x y = Ok (bit_count 256 (x + 2 ^ 128 * y) true) /\
  exists r, leading_zeros_u128 x y = Ok r /\ run_top 256 (x + 2 ^ 128 * y) false r.
Proof.
  intros c x y Hx Hy. split; [apply count_ones_two; auto|]. eexists. split; [apply leading_zeros_two; auto|]. apply lz_run; [lia|]. unfold fits_u in *. lia.
Qed.
Theorem C71_counts_words : forall (c : Cfg) x, length x = 4%nat -> digits 64 x ->
  count_ones_u64 x = Ok (bit_count 256 (lval 64 x) true) /\ exists r, leading_zeros_u64 x = Ok r /\ run_top 256 (lval 64 x) false r.
Proof.
  intros c x L D. pose proof (words_valid c) as HV. assert (Hx : @wf (words_cfg c) x) by (split; [exact L|exact D]).
  rewrite words_ones, words_zeros by auto. rewrite (count_ones_ok HV), (leading_zeros_ok HV) by auto. split; [rewrite bit_count_ones; reflexivity|].
  eexists. split; [reflexivity|]. apply lz_run; [discriminate|]. exact (uval_range HV x Hx).
Qed.
Example C71_ex3 : count_ones_u128 (c := c256_64) 7 (2 ^ 127) = Ok 4 /\ leading_zeros_u128 (c := c256_64) 7 0 = Ok 253 /\
  leading_zeros_u64 (c := c256_64) [1; 2; 0; 0] = Ok 190 /\ count_ones_u64 (c := c256_64) [1; 2; 0; 2 ^ 64 - 1] = Ok 66.
Proof. vm_compute. auto. Qed.

(** The high half of a 256-bit product: the code takes the wrong half of the
    middle sum, so it is right exactly when the two halves agree. *)
Theorem C71_mulhi : forall (c : Cfg) x y, W = 64 -> N = 4%nat -> wf x -> wf y ->
  exists r, bench_mulhi x y = Ok r /\ wf r /\ uval r = bench_high (uval x) (uval y) /\
    (uval r = uval x * uval y / 2 ^ 256 <-> middle (uval x) (uval y) / 2 ^ 128 = middle (uval x) (uval y) mod 2 ^ 128).
Proof.
  intros c x y HW HN Hx Hy. eexists. split; [apply mulhi_ok; auto|]. split; [apply wz; auto|].
  assert (HV : Valid) by (split; [auto|]; unfold BITS; rewrite HN, HW; split; [exists 2; split; [lia|reflexivity]|reflexivity]).
  assert (HB : BITS = 256) by (unfold BITS; rewrite HN, HW; reflexivity).
  pose proof (uval_range HV x Hx) as Rx. pose proof (uval_range HV y Hy) as Ry. rewrite HB in Rx, Ry.
  rewrite (uz HW HN) by (apply high_range; auto). split; [reflexivity|]. unfold bench_high. lia.
Qed.
Theorem C71_mulhi_refuted : exists x y, 0 <= x < 2 ^ 256 /\ 0 <= y < 2 ^ 256 /\ exists r, bench_mulhi (c := c256_64) (@ofZ c256_64 x) (@ofZ c256_64 y) = Ok r /\ uval (c := c256_64) r <> x * y / 2 ^ 256.
Proof. exists (2 ^ 255), 4. split; [lia|]. split; [lia|]. eexists. split; [vm_compute; reflexivity|]. vm_compute. discriminate. Qed.
(** Quotient and remainder as computed. *)
Theorem C71_divide : forall (c : Cfg) x d more, W = 64 -> N = 4%nat -> wf x -> wf d ->
  divide_by_num x d more = Ok (ofZ (bench_quot (uval x) (uval d) more)) /\
  div_rem_by_num x d more = Ok (ofZ (bench_quot (uval x) (uval d) more), ofZ (uval x - bench_quot (uval x) (uval d) more * uval d)).
Proof. intros. split; [apply divide_ok; auto|apply div_rem_ok; auto]. Qed.
(** The two prepared divisors are right for the true high half. *)
Theorem C71_magic : forall x, 0 <= x < 2 ^ 256 ->
  x * lval 64 div10_magic / 2 ^ 256 / 2 ^ div10_more = x / 10 /\ x * lval 64 div1234_magic / 2 ^ 256 / 2 ^ div1234_more = x / 0x12345678.
Proof.
  intros x Hx. rewrite !Z.div_div by (vm_compute; congruence). rewrite <- !Z.pow_add_r by (vm_compute; congruence). split.
  - apply magic_div with (b := 256); [vm_compute; split; discriminate|lia|vm_compute; split; discriminate|exact Hx].
  - apply magic_div with (b := 256); [vm_compute; split; discriminate|lia|vm_compute; split; discriminate|exact Hx].
Qed.
(** The benchmark divides ten by ten and gets zero, and divides one by ten and gets
    more than one; the remainder is formed with the magic number. *)
Theorem C71_divide_refuted : exists x y, 0 <= x < 2 ^ 256 /\ 0 <= y < 2 ^ 256 /\
  divide_by_num (c := c256_64) (@ofZ c256_64 x) div10_magic div10_more = Ok (@ofZ c256_64 0) /\ x / 10 = 1 /\
  y / 10 = 0 /\ (exists q, divide_by_num (c := c256_64) (@ofZ c256_64 y) div10_magic div10_more = Ok q /\ 1 < uval (c := c256_64) q) /\
  div_rem_by_num (c := c256_64) (@ofZ c256_64 12) (@ofZ c256_64 0) 2 = Ok (@ofZ c256_64 3, @ofZ c256_64 12).
Proof.
  exists 10, 1. split; [lia|]. split; [lia|]. split; [vm_compute; reflexivity|]. split; [reflexivity|]. split; [reflexivity|].
  split; [|vm_compute; reflexivity]. eexists. split; [vm_compute; reflexivity|]. vm_compute. reflexivity.
Qed.
Example C71_ex4 : bench_mulhi (c := c256_64) (@ofZ c256_64 (2 ^ 200)) (@ofZ c256_64 (2 ^ 200)) = Ok (@ofZ c256_64 (2 ^ 144)) /\
  divide_by_num (c := c256_64) (@ofZ c256_64 5) div10_magic div10_more = Ok (@ofZ c256_64 0) /\
  middle (2 ^ 200) (2 ^ 200) / 2 ^ 128 = middle (2 ^ 200) (2 ^ 200) mod 2 ^ 128.
Proof. vm_compute. auto. Qed.

(** ** Assumptions (each must print "Closed under the global context") *)

Print Assumptions C71_shl.
Print Assumptions C71_shr.
Print Assumptions C71_shr_refuted.
Print Assumptions C71_mul.
Print Assumptions C71_narrow.
Print Assumptions C71_counts.
Print Assumptions C71_counts_words.
Print Assumptions C71_mulhi.
Print Assumptions C71_mulhi_refuted.
Print Assumptions C71_divide.
Print Assumptions C71_magic.
Print Assumptions C71_divide_refuted.
