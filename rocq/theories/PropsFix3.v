(** * The code with its defects corrected: shifts, conversions, writing (C86)

    What remains of the findings after C84 and C85: the shift operators take the
    wrong amounts (C45), shifting a negative number right without bound loses
    its sign (C16), the signed carry flag over-reports (C39), [midpoint] rounds
    towards zero (C36), [abs] ignores the overflow-check setting (C35), the
    rounding divisions do not refuse what they are documented to refuse (C60),
    the largest signed value is not converted (C26), zero counts as positive
    (C57), negative numbers are not written (C29, C32), the width is handled
    wrongly (C52) and so is a one-digit mantissa (C53).  MFix3.v corrects each at
    one place.  These theorems are about the corrected code and say nothing of
    the code as published. *)

Require Import ZArith List Bool Lia.
From Verif Require Import Prim Spec Facts MAdd MMul MShift MCore PCore PBits PWide MArith PArith PArith2 PPow PMisc PBits2 PRet
  DivSpec MScalar PScalar TextSpec MApi PApi2 MTraits PTraits MParse PParse PParse2 PropsParse PropsArith PropsDiv PropsDivAll
  MWrite PWrite PWrite2 PropsWrite MFix PFixMul PFixApi PFixPow PropsFix MFix2 PropsFix2 MFix3.
Import ListNotations.
Local Open Scope Z_scope.

Section P.
Context {c : Cfg}.
Hypothesis HV : Valid.

Lemma fix_amount_ok : forall (ps : bool) pw o, 1 <= pw <= 128 -> (if ps then fits_s pw o else fits_u pw o) ->
  fix_amount o = if chk && negb ((0 <=? o) && (o <? BITS)) then Panic else Ok tt.
Proof.
  intros ps pw o Hp Ho. unfold fix_amount. destruct chk; [cbn [andb]|reflexivity]. rewrite tbits_BITS.
  pose proof (BITS_lt31 HV). pose proof (BITS_pos HV). assert (2 ^ 31 < 2 ^ 128) by (vm_compute; reflexivity).
  destruct (Z.leb_spec 0 o); cbn [andb assert_ negb]; [|reflexivity].
  assert (o < 2 ^ 128).
  { assert (2 ^ pw <= 2 ^ 128) by (apply pow2_le_mono; lia). assert (2 ^ (pw - 1) <= 2 ^ 128) by (apply pow2_le_mono; lia).
    destruct ps; unfold fits_s, fits_u in Ho; lia. }
  rewrite !ucast_small by lia. destruct (o <? BITS); reflexivity.
Qed.
Lemma div_between : forall l h v d, 0 < d -> l <= 0 < h -> l <= v < h -> l <= v / d < h.
Proof. intros l h v d Hd Hl Hv. split; [apply Z.div_le_lower_bound; nia|apply Z.div_lt_upper_bound; nia]. Qed.
Lemma shr_give : forall sg x k, wf x -> 0 <= k -> gives sg (Ok (ofZ (val sg x / 2 ^ k))) (number sg x / 2 ^ k).
Proof.
  intros sg x k Hx Hk. apply (give_small HV). pose proof (pow2_pos k Hk). pose proof (pBh HV). pose proof (pB HV).
  destruct sg; cbn [in_range val].
  - pose proof (sval_range HV x Hx) as R. unfold fits_s in *. apply div_between; [assumption|lia|exact R].
  - pose proof (uval_range HV x Hx) as R. unfold fits_u in *. apply div_between; [assumption|lia|exact R].
Qed.
Lemma deep_div : forall a v k, 0 <= a <= k -> - 2 ^ a <= v < 2 ^ a -> v / 2 ^ k = if v <? 0 then -1 else 0.
Proof.
  intros a v k Ha Hv. assert (2 ^ a <= 2 ^ k) by (apply pow2_le_mono; lia). destruct (Z.ltb_spec v 0).
  - symmetry. apply (Z.div_unique v (2 ^ k) (-1) (v + 2 ^ k)); lia.
  - apply Z.div_small. lia.
Qed.
(** two signed overflows, the second by one, cancel *)
Lemma carry_cancel : forall a b cy, fits true a -> fits true b ->
  xorb (negb (fitsb true (a + b))) (negb (fitsb true (wrapz true (a + b) + b2z cy))) = negb (fitsb true (a + b + b2z cy)).
Proof.
  intros a b cy Ha Hb. pose proof (pBhalf HV) as PB. pose proof (pBh HV) as PH. cbn in Ha, Hb. unfold fits_s in Ha, Hb.
  pose proof (b2z_range cy).
  assert (SM : forall v k, - 2 ^ (BITS - 1) <= v - k * 2 ^ BITS < 2 ^ (BITS - 1) -> swrap BITS v = v - k * 2 ^ BITS).
  { intros v k Hk. unfold swrap. assert ((v + 2 ^ (BITS - 1)) mod 2 ^ BITS = v + 2 ^ (BITS - 1) - k * 2 ^ BITS) as ->; [|lia].
    symmetry. apply (Z.mod_unique _ _ k); lia. }
  assert (FB : forall v, fitsb true v = true <-> - 2 ^ (BITS - 1) <= v < 2 ^ (BITS - 1)) by (intros v; exact (fitsb_spec true v)).
  assert (FN : forall v, ~ (- 2 ^ (BITS - 1) <= v < 2 ^ (BITS - 1)) -> fitsb true v = false).
  { intros v Hn. destruct (fitsb true v) eqn:E; auto. apply FB in E. contradiction. }
  change (wrapz true (a + b)) with (swrap BITS (a + b)).
  destruct (Z_lt_ge_dec (a + b) (- 2 ^ (BITS - 1))) as [L|L]; [|destruct (Z_lt_ge_dec (a + b) (2 ^ (BITS - 1))) as [L'|L']].
  - rewrite (SM (a + b) (-1)) by lia. rewrite (FN (a + b)) by lia. cbn [negb]. rewrite xorb_true_l, negb_involutive.
    destruct (Z_lt_ge_dec (a + b + b2z cy) (- 2 ^ (BITS - 1))).
    + rewrite (FN (a + b + b2z cy)) by lia. apply FB. lia.
    + rewrite (proj2 (FB (a + b + b2z cy))) by lia. apply FN. lia.
  - rewrite (SM (a + b) 0) by lia. rewrite (proj2 (FB (a + b))) by lia. cbn [negb]. rewrite xorb_false_l. do 2 f_equal. lia.
  - rewrite (SM (a + b) 1) by lia. rewrite (FN (a + b)), (FN (a + b + b2z cy)) by lia. rewrite (proj2 (FB _)) by lia. reflexivity.
Qed.
Lemma borrow_cancel : forall a b cy, fits true a -> fits true b ->
  xorb (negb (fitsb true (a - b))) (negb (fitsb true (wrapz true (a - b) - b2z cy))) = negb (fitsb true (a - b - b2z cy)).
Proof.
  intros a b cy Ha Hb. pose proof (pBhalf HV) as PB. pose proof (pBh HV) as PH. cbn in Ha, Hb. unfold fits_s in Ha, Hb.
  pose proof (b2z_range cy).
  assert (SM : forall v k, - 2 ^ (BITS - 1) <= v - k * 2 ^ BITS < 2 ^ (BITS - 1) -> swrap BITS v = v - k * 2 ^ BITS).
  { intros v k Hk. unfold swrap. assert ((v + 2 ^ (BITS - 1)) mod 2 ^ BITS = v + 2 ^ (BITS - 1) - k * 2 ^ BITS) as ->; [|lia].
    symmetry. apply (Z.mod_unique _ _ k); lia. }
  assert (FB : forall v, fitsb true v = true <-> - 2 ^ (BITS - 1) <= v < 2 ^ (BITS - 1)) by (intros v; exact (fitsb_spec true v)).
  assert (FN : forall v, ~ (- 2 ^ (BITS - 1) <= v < 2 ^ (BITS - 1)) -> fitsb true v = false).
  { intros v Hn. destruct (fitsb true v) eqn:E; auto. apply FB in E. contradiction. }
  change (wrapz true (a - b)) with (swrap BITS (a - b)).
  destruct (Z_lt_ge_dec (a - b) (- 2 ^ (BITS - 1))) as [L|L]; [|destruct (Z_lt_ge_dec (a - b) (2 ^ (BITS - 1))) as [L'|L']].
  - rewrite (SM (a - b) (-1)) by lia. rewrite (FN (a - b)), (FN (a - b - b2z cy)) by lia. rewrite (proj2 (FB _)) by lia. reflexivity.
  - rewrite (SM (a - b) 0) by lia. rewrite (proj2 (FB (a - b))) by lia. cbn [negb]. rewrite xorb_false_l. do 2 f_equal. lia.
  - rewrite (SM (a - b) 1) by lia. rewrite (FN (a - b)) by lia. cbn [negb]. rewrite xorb_true_l, negb_involutive.
    destruct (Z_lt_ge_dec (a - b - b2z cy) (2 ^ (BITS - 1))).
    + rewrite (proj2 (FB (a - b - b2z cy))) by lia. apply FN. lia.
    + rewrite (FN (a - b - b2z cy)) by lia. apply FB. lia.
Qed.
Lemma fix_to_str_radix_ok : forall sg x buffer radix, wf x -> 2 <= radix <= 36 -> BITS + b2z sg <= Z.of_nat (length buffer) ->
  exists i d, let s := (if val sg x <? 0 then [45] else []) ++ d in
    fix_to_str_radix sg x buffer radix = Ok (firstn i buffer ++ s, i) /\ (i + length s = length buffer)%nat /\
    canonical radix (Z.abs (val sg x)) d /\ Forall upper_digit d.
Proof.
  intros sg x buffer radix Hx Hr HL. unfold fix_to_str_radix.
  destruct (Z.ltb_spec radix 2); [lia|]. destruct (Z.ltb_spec 36 radix); [lia|]. cbn [orb].
  destruct (Z.ltb_spec (Z.of_nat (length buffer)) (BITS + b2z sg)); [lia|].
  destruct (Z.ltb_spec (val sg x) 0) as [L|L].
  - destruct sg; cbn [val b2z] in *; [|pose proof (uval_range HV x Hx); lia].
    rewrite (is_negative_ok HV) by auto. destruct (Z.ltb_spec (sval x) 0); [|lia]. cbn [bind]. rewrite (unsigned_abs_ok HV) by auto. cbn [bind].
    destruct (to_str_radix_ok HV false (ofZ (Z.abs (sval x))) buffer radix (wf_ofZ HV _)) as (i & d & E & Li & C & U); auto.
    { cbn [val]. rewrite (abs_uval HV) by auto. lia. }
    { cbn [b2z]. lia. }
    cbn [val] in C. rewrite (abs_uval HV) in C by auto. rewrite E. cbn [bind].
    assert (LD : Z.of_nat (length d) <= BITS).
    { destruct (canonical_low radix _ d ltac:(lia) U C) as [->|B]; [cbn; pose proof (BITS_pos HV); lia|].
      pose proof (sval_range HV x Hx) as R. unfold fits_s in R. pose proof (pow2_pos (Z.of_nat (length d) - 1)).
      destruct (Z_le_gt_dec (Z.of_nat (length d)) BITS); [auto|exfalso].
      assert (2 ^ BITS <= 2 ^ (Z.of_nat (length d) - 1)) by (apply pow2_le_mono; pose proof (BITS_pos HV); lia).
      assert (2 ^ (Z.of_nat (length d) - 1) <= radix ^ (Z.of_nat (length d) - 1)) by (apply Z.pow_le_mono_l; lia).
      pose proof (pBhalf HV). pose proof (pBh HV). lia. }
    destruct i as [|i]; [exfalso; lia|]. cbn [idx_pred bind].
    rewrite set_ok by (rewrite app_length, firstn_length; lia). cbn [bind]. exists i, d. cbv zeta. split; [|split; [cbn [app length]; lia|auto]].
    f_equal. f_equal. set (l := firstn (S i) buffer ++ d). assert (Ll : length l = length buffer) by (unfold l; rewrite app_length, firstn_length; lia).
    rewrite <- (firstn_skipn i (upd l i 45)). rewrite firstn_upd, skipn_upd by lia. unfold l.
    rewrite firstn_app, firstn_firstn, firstn_length. replace (i - Nat.min (S i) (length buffer))%nat with 0%nat by lia. rewrite firstn_O, app_nil_r.
    rewrite skipn_app, firstn_length, skipn_all2 by (rewrite firstn_length; lia).
    replace (S i - Nat.min (S i) (length buffer))%nat with 0%nat by lia. replace (Nat.min i (S i)) with i by lia. reflexivity.
  - assert (N0 : (if sg then is_negative x else Ok false) = Ok false).
    { destruct sg; [|reflexivity]. rewrite (is_negative_ok HV) by auto. cbn [val] in L. destruct (Z.ltb_spec (sval x) 0); [lia|reflexivity]. }
    rewrite N0. cbn [bind]. destruct (to_str_radix_ok HV sg x buffer radix Hx L Hr) as (i & d & E & Li & C & U); [lia|].
    exists i, d. cbv zeta. rewrite Z.abs_eq by lia. cbn [app]. auto.
Qed.
Lemma fix_pad_aligned : forall f body, right_aligned f body (fix_pad f body).
Proof. intros f body. reflexivity. Qed.
Lemma fix_u_exp_ok : forall tag x, wf x ->
  exists d t e, fix_u_exp tag x = Ok (Some (d :: match t with [] => [] | _ => 46 :: t end ++ tag :: e)) /\
    upper_numeral 10 (uval x) (d :: t) /\ upper_numeral 10 (Z.of_nat (length t)) e.
Proof.
  intros tag x Hx. destruct (u_str HV x 10 Hx) as (i & s & E & Es & L & C & U); [lia|]. unfold fix_u_exp. rewrite E. cbn [bind]. cbv zeta. rewrite Es.
  destruct s as [|d t]; [exfalso; apply (proj1 C); reflexivity|]. pose proof U as U'. inversion U' as [|? ? U1 U2]; subst.
  rewrite (upper_ascii t U2). cbn [length]. replace (Z.of_nat (S (length t)) - 1) with (Z.of_nat (length t)) by lia.
  destruct (std_display_ok (Z.of_nat (length t))) as (C1 & C2); [lia|]. exists d, t, (std_display (Z.of_nat (length t))).
  split; [reflexivity|]. split; split; auto.
Qed.
End P.

(** ** C86 *)

(** Shifts by an amount of any primitive type: the amounts below BITS are taken,
    all others refused (or reduced, without overflow checks). *)
Theorem C86_shift_primitive : forall (c : Cfg) (ps : bool) pw sg x o, Valid -> wf x -> 1 <= pw <= 128 ->
  (if ps then fits_s pw o else fits_u pw o) ->
  (0 <= o < BITS -> gives false (fix_op_shl x o) ((uval x * 2 ^ o) mod 2 ^ BITS) /\ gives sg (fix_op_shr sg x o) (number sg x / 2 ^ o)) /\
  (chk = true -> ~ 0 <= o < BITS -> fix_op_shl x o = Panic /\ fix_op_shr sg x o = Panic) /\
  (chk = false -> let k := o mod 2 ^ 32 mod BITS in
     gives false (fix_op_shl x o) ((uval x * 2 ^ k) mod 2 ^ BITS) /\ gives sg (fix_op_shr sg x o) (number sg x / 2 ^ k)).
Proof.
  intros c ps pw sg x o HV Hx Hp Ho. unfold fix_op_shl, fix_op_shr. rewrite (fix_amount_ok HV ps pw o Hp Ho).
  pose proof (BITS_pos HV). assert (K : 0 <= o mod 2 ^ 32 mod BITS) by (apply Z.mod_pos_bound; lia).
  assert (D : forall b : bool, b = false -> gives false (let* _ := (if b then Panic else Ok tt) in wrapping_shl x (ucast 32 o)) ((uval x * 2 ^ (o mod 2 ^ 32 mod BITS)) mod 2 ^ BITS) /\
    gives sg (let* _ := (if b then Panic else Ok tt) in wrapping_shr sg x (ucast 32 o)) (number sg x / 2 ^ (o mod 2 ^ 32 mod BITS))).
  { intros b ->. cbn [bind]. rewrite (wrapping_shl_ok HV), (wrapping_shr_ok HV) by auto. split; [apply (give HV)|apply (shr_give HV); auto]. }
  split; [|split].
  - intros R. destruct (Z.leb_spec 0 o); [|lia]. destruct (Z.ltb_spec o BITS); [|lia]. rewrite andb_false_r.
    specialize (D false eq_refl). rewrite (amount_exact HV) in D by lia. exact D.
  - intros -> R. destruct (Z.leb_spec 0 o), (Z.ltb_spec o BITS); try lia; auto.
  - intros E. cbv zeta. apply D. rewrite E. reflexivity.
Qed.
(** Shifts by an amount of the type itself. *)
Theorem C86_shift_self : forall (c : Cfg) sg x o, Valid -> wf x -> wf o ->
  (0 <= number sg o < BITS -> gives false (fix_op_shl_self sg x o) ((uval x * 2 ^ number sg o) mod 2 ^ BITS) /\
     gives sg (fix_op_shr_self sg x o) (number sg x / 2 ^ number sg o)) /\
  (chk = true -> ~ 0 <= number sg o < BITS -> fix_op_shl_self sg x o = Panic /\ fix_op_shr_self sg x o = Panic) /\
  (chk = false -> let k := uval o mod 2 ^ 32 mod BITS in
     gives false (fix_op_shl_self sg x o) ((uval x * 2 ^ k) mod 2 ^ BITS) /\ gives sg (fix_op_shr_self sg x o) (number sg x / 2 ^ k)).
Proof.
  intros c sg x o HV Hx Ho. unfold fix_op_shl_self, fix_op_shr_self. rewrite (op_shl_big_ok HV), (op_shr_big_ok HV) by auto.
  change (number sg o) with (val sg o). pose proof (BITS_pos HV).
  assert (K : 0 <= uval o mod 2 ^ 32 mod BITS) by (apply Z.mod_pos_bound; lia).
  split; [|split].
  - intros R. destruct (Z.leb_spec 0 (val sg o)); [|lia]. destruct (Z.ltb_spec (val sg o) BITS); [|lia]. cbn [andb negb]. rewrite andb_false_r.
    assert (E : uval o = val sg o).
    { destruct sg; auto. cbn [val] in *. rewrite (sval_uval o) in *. destruct (uval o <? 2 ^ (BITS - 1)); auto. pose proof (uval_range HV o Ho). lia. }
    rewrite E, (amount_exact HV) by lia. split; [apply (give HV)|apply (shr_give HV); auto; lia].
  - intros -> R. destruct (Z.leb_spec 0 (val sg o)), (Z.ltb_spec (val sg o) BITS); try lia; auto.
  - intros ->. cbn [andb]. split; [apply (give HV)|apply (shr_give HV); auto].
Qed.
(** Shifting right without bound keeps the sign. *)
Theorem C86_unbounded_shr : forall (c : Cfg) sg x r, Valid -> wf x -> 0 <= r ->
  gives sg (fix_unbounded_shr sg x r) (number sg x / 2 ^ r).
Proof.
  intros c sg x r HV Hx Hr. unfold fix_unbounded_shr. rewrite tbits_BITS. destruct (Z.ltb_spec r BITS) as [L|L].
  - rewrite (wrapping_shr_ok HV) by auto. rewrite Z.mod_small by lia. apply (shr_give HV); auto.
  - pose proof (BITS_pos HV). pose proof (pBhalf HV). pose proof (pBh HV).
    assert (E : number sg x / 2 ^ r = if sg && (sval x <? 0) then -1 else 0).
    { destruct sg; cbn [number andb].
      - pose proof (sval_range HV x Hx) as R. unfold fits_s in R. apply (deep_div (BITS - 1)); [lia|exact R].
      - pose proof (uval_range HV x Hx) as R. apply Z.div_small. assert (2 ^ BITS <= 2 ^ r) by (apply pow2_le_mono; lia). lia. }
    rewrite E. assert (N0 : (if sg then is_negative x else Ok false) = Ok (sg && (sval x <? 0))).
    { destruct sg; [apply (is_negative_ok HV); auto|reflexivity]. }
    rewrite N0. cbn [bind]. assert (Z0 : from_u8 0 = Ok (ofZ 0)) by (apply (from_u8_ok HV); unfold fits_u; lia). rewrite Z0. cbn [bind].
    destruct sg; cbn [andb]; [destruct (sval x <? 0)|].
    + rewrite (not_const_ok HV) by apply (wf_ofZ HV). rewrite (uval_lit HV) by lia. apply (give_small HV). cbn. unfold fits_s. lia.
    + apply (give_small HV). cbn. unfold fits_s. lia.
    + apply (give_small HV). cbn. unfold fits_u. lia.
Qed.
(** The carry flags. *)
Theorem C86_carry : forall (c : Cfg) sg x y cy, Valid -> wf x -> wf y ->
  flagged sg (number sg x + number sg y + (if cy : bool then 1 else 0)) (fix_carrying_add sg x y cy) /\
  flagged sg (number sg x - number sg y - (if cy : bool then 1 else 0)) (fix_borrowing_sub sg x y cy).
Proof.
  intros c sg x y cy HV Hx Hy. change (if cy then 1 else 0) with (b2z cy). change (number sg) with (val sg).
  pose proof (fits_val HV sg x Hx) as Fx. pose proof (fits_val HV sg y Hy) as Fy.
  split; apply (flagged_ok HV); unfold fix_carrying_add, fix_borrowing_sub, nof; run.
  - rewrite (val_ofZ HV), (ofZ_add_l HV). destruct sg; [rewrite (carry_cancel HV) by auto|rewrite (carry_flag_u HV) by auto]; reflexivity.
  - rewrite (val_ofZ HV), (ofZ_sub_l HV). destruct sg; [rewrite (borrow_cancel HV) by auto|rewrite (borrow_flag_u HV) by auto]; reflexivity.
Qed.
(** The mean, rounded down. *)
Theorem C86_midpoint : forall (c : Cfg) x y, Valid -> wf x -> wf y -> gives true (fix_s_midpoint x y) ((sval x + sval y) / 2).
Proof.
  intros c x y HV Hx Hy. unfold fix_s_midpoint. run. pose proof (BITS_ge HV). rewrite Z.mod_small, Z.pow_1_r by lia. cbn [val].
  pose proof (sval_range HV x Hx) as Rx. pose proof (sval_range HV y Hy) as Ry. pose proof (BITS_pos HV) as HB.
  rewrite (ofZ_lxor_s HV), (ofZ_land_s HV) by auto.
  assert (F1 : fits true (Z.lxor (sval x) (sval y))) by (apply lxor_fits_s; auto).
  assert (F2 : fits true (Z.land (sval x) (sval y))) by (apply land_fits_s; auto).
  assert (S : forall v, fits true v -> sval (ofZ v) = v) by (intros; apply (val_ofZ_small HV true); auto).
  rewrite (S (Z.lxor _ _)), (S (Z.land _ _)) by auto.
  change (sval (ofZ ?v)) with (val true (ofZ v)). rewrite (val_ofZ HV), (ofZ_add_l HV), half_sum. apply (give_small HV). cbn. unfold fits_s in *.
  split; [apply Z.div_le_lower_bound|apply Z.div_lt_upper_bound]; lia.
Qed.
(** The absolute value: like the operators. *)
Theorem C86_abs : forall (c : Cfg) x, Valid -> wf x -> operator true (Z.abs (sval x)) (fix_s_abs x).
Proof.
  intros c x HV Hx. apply (operator_ok HV). unfold fix_s_abs, nof. rewrite (s_wrapping_abs_ok HV), (s_checked_abs_ok HV) by auto.
  destruct chk; cbn [negb andb]; [|reflexivity]. unfold some_if. destruct (fitsb true (Z.abs (sval x))); reflexivity.
Qed.
(** The rounding divisions: refused for a zero divisor and for MIN / -1, exact
    otherwise, whatever the overflow-check setting. *)
Theorem C86_rounding : forall (c : Cfg) x y, Valid -> wf x -> wf y ->
  (sval y = 0 \/ min_over_m1 x y ->
     fix_s_div_euclid x y = Panic /\ fix_s_rem_euclid x y = Panic /\ fix_s_div_floor x y = Panic /\ fix_s_div_ceil x y = Panic) /\
  (~ (sval y = 0 \/ min_over_m1 x y) ->
     gives true (fix_s_div_euclid x y) (Z.sgn (sval y) * (sval x / Z.abs (sval y))) /\ gives true (fix_s_rem_euclid x y) (sval x mod Z.abs (sval y)) /\
     gives true (fix_s_div_floor x y) (sval x / sval y) /\ gives true (fix_s_div_ceil x y) (- (- sval x / sval y))).
Proof.
  intros c x y HV Hx Hy. unfold fix_s_div_euclid, fix_s_rem_euclid, fix_s_div_floor, fix_s_div_ceil, refuse.
  rewrite (is_div_none_ok HV true) by auto. cbn [bind val].
  split; intros D.
  - rewrite (proj2 (dnone_true (sval x) (sval y)) D). auto.
  - destruct (dnone true (sval x) (sval y)) eqn:E; [exfalso; apply D, dnone_true, E|].
    assert (DV : divisible true (num true x) (num true y)).
    { split; cbn [num]; [tauto|]. unfold min_over_m1 in D. tauto. }
    destruct (C84_division c Wrapping true x y HV Hx Hy DV) as (_ & _ & Q & R).
    destruct (C84_rounding c true x y HV Hx Hy DV) as (F & C). cbn in Q, R, F, C. auto.
Qed.
(** The conversion from the unsigned type. *)
Theorem C86_try_from : forall (c : Cfg) x, Valid -> wf x -> optional true (uval x) (fix_s_try_from_unsigned x).
Proof.
  intros c x HV Hx. unfold fix_s_try_from_unsigned. rewrite (s_max_value_ok HV). cbn [bind]. unfold as_unsigned. rewrite (mk_ok HV). cbn [bind].
  rewrite (le_const_ok HV) by wfauto. cbn [bind]. unfold as_signed. rewrite (mk_ok HV). cbn [bind]. pose proof (pBhalf HV). pose proof (pBh HV).
  rewrite (val_ofZ_small HV false) by (cbn; unfold fits_u; lia). cbn [val]. pose proof (uval_range HV x Hx) as R.
  unfold optional, in_range, fits_s. destruct (Z.leb_spec (uval x) (2 ^ (BITS - 1) - 1)); [left|right; split; [lia|reflexivity]].
  split; [lia|]. exists x. split; auto. split; auto. cbn [number]. rewrite (sval_uval x). destruct (Z.ltb_spec (uval x) (2 ^ (BITS - 1))); lia.
Qed.
Theorem C86_is_positive : forall (c : Cfg) x, Valid -> wf x ->
  exists b, fix_nt_is_positive x = Ok b /\ (b = true <-> 0 < sval x).
Proof.
  intros c x HV Hx. unfold fix_nt_is_positive. rewrite (nt_zero_ok HV). cbn [bind]. rewrite (gt_const_ok HV) by wfauto.
  rewrite (val_ofZ_small HV true) by apply (fits_0 HV). cbn [val]. eexists. split; [reflexivity|]. apply Z.ltb_lt.
Qed.
(** Writing: a minus sign for the negative numbers, then the numeral of the
    magnitude, at the end of the buffer. *)
Theorem C86_to_str_radix : forall (c : Cfg) (sg : bool) x buffer radix, Valid -> wf x ->
  (2 <= radix <= 36 /\ BITS + (if sg then 1 else 0) <= Z.of_nat (length buffer) ->
     writes (fix_to_str_radix sg x buffer radix) buffer (fun s => exists d, upper_numeral radix (Z.abs (number sg x)) d /\
       s = (if number sg x <? 0 then [45] else []) ++ d)) /\
  (~ (2 <= radix <= 36 /\ BITS + (if sg then 1 else 0) <= Z.of_nat (length buffer)) -> fix_to_str_radix sg x buffer radix = Panic).
Proof.
  intros c sg x buffer radix HV Hx. change (if sg then 1 else 0) with (b2z sg). change (number sg x) with (val sg x). split.
  - intros (Hr & HL). destruct (fix_to_str_radix_ok HV sg x buffer radix Hx Hr HL) as (i & d & E & L & C & U).
    exists i, ((if val sg x <? 0 then [45] else []) ++ d). split; auto. split; auto. exists d. split; [split|]; auto.
  - intros H. unfold fix_to_str_radix. destruct (Z.ltb_spec radix 2); [reflexivity|]. destruct (Z.ltb_spec 36 radix); [reflexivity|].
    cbn [orb]. destruct (Z.ltb_spec (Z.of_nat (length buffer)) (BITS + b2z sg)); [reflexivity|lia].
Qed.
(** Every number of either type comes back when it is written and read. *)
Theorem C86_round_trip : forall (c : Cfg) (sg : bool) x buffer radix, Valid -> wf x -> 2 <= radix <= 36 ->
  BITS + (if sg then 1 else 0) <= Z.of_nat (length buffer) ->
  writes (fix_to_str_radix sg x buffer radix) buffer (fun s =>
    m_from_str_radix fix_smul_overflowing_full fix_lone sg s radix = Ok (POk x)).
Proof.
  intros c sg x buffer radix HV Hx Hr HL. destruct (proj1 (C86_to_str_radix c sg x buffer radix HV Hx) (conj Hr HL)) as (i & s & E & L & d & (C & U) & ->).
  exists i, ((if number sg x <? 0 then [45] else []) ++ d). split; auto. split; auto.
  pose proof (upper_bytes d U) as Bd.
  assert (R : reads sg (m_from_str_radix fix_smul_overflowing_full fix_lone sg ((if number sg x <? 0 then [45] else []) ++ d) radix) (number sg x)).
  { apply C85_parse; auto.
    - destruct (number sg x <? 0); [|exact Bd]. constructor; [unfold fits_u; lia|exact Bd].
    - split; [|exact (fits_val HV sg x Hx)]. pose proof C as (Hne & Hn & _). destruct (Z.ltb_spec (number sg x) 0) as [N|N]; cbn [app].
      + destruct sg; cbn [number] in *; [|pose proof (uval_range HV x Hx); lia].
        apply numeral_neg. split; auto. rewrite Hn. f_equal. lia.
      + exists d. split; auto. left. split; auto. rewrite Hn. f_equal. lia. }
  destruct R as (r & -> & Wr & Er). do 2 f_equal. apply (val_inj HV sg); auto.
Qed.
(** Minimum width: the padding comes first and counts sign and prefix. *)
Theorem C86_display : forall (c : Cfg) x f, Valid -> wf x ->
  prints (fix_u_display x f) (fun s => exists d, upper_numeral 10 (uval x) d /\ right_aligned f ((if sign_plus f then [43] else []) ++ d) s) /\
  prints (fix_s_display x f) (fun s => exists d, upper_numeral 10 (Z.abs (sval x)) d /\
    right_aligned f ((if sval x <? 0 then [45] else if sign_plus f then [43] else []) ++ d) s).
Proof.
  intros c x f HV Hx. split.
  - destruct (C30_unsigned c x HV Hx) as (s & E & U). unfold fix_u_display. rewrite E. cbn [bind option_map]. eexists. split; [reflexivity|].
    exists s. split; [exact U|apply fix_pad_aligned].
  - destruct (C30_signed c x f HV Hx) as (s & E & d & U & ->). unfold fix_s_display. rewrite E. cbn [bind option_map]. eexists. split; [reflexivity|].
    exists d. split; [exact U|apply fix_pad_aligned].
Qed.
Theorem C86_radix_formats : forall (c : Cfg) x f, Valid -> wf x ->
  prints (fix_u_binary x f) (fun s => exists d, upper_numeral 2 (uval x) d /\ right_aligned f ((if alternate f then [48; 98] else []) ++ d) s) /\
  prints (fix_u_octal x f) (fun s => exists d, upper_numeral 8 (uval x) d /\ right_aligned f ((if alternate f then [48; 111] else []) ++ d) s) /\
  prints (fix_u_lower_hex x f) (fun s => exists d, lower_numeral 16 (uval x) d /\ right_aligned f ((if alternate f then [48; 120] else []) ++ d) s) /\
  prints (fix_u_upper_hex x f) (fun s => exists d, upper_numeral 16 (uval x) d /\ right_aligned f ((if alternate f then [48; 120] else []) ++ d) s) /\
  fix_s_binary x f = fix_u_binary x f /\ fix_s_octal x f = fix_u_octal x f /\
  fix_s_lower_hex x f = fix_u_lower_hex x f /\ fix_s_upper_hex x f = fix_u_upper_hex x f.
Proof.
  intros c x f HV Hx.
  assert (B : forall radix tag, 2 <= radix <= 36 ->
    prints (fix_u_binary_octal radix tag x f) (fun s => exists d, upper_numeral radix (uval x) d /\ right_aligned f ((if alternate f then [48; tag] else []) ++ d) s)).
  { intros radix tag Hr. destruct (u_str HV x radix Hx Hr) as (i & s & E & Es & L & C & U). unfold fix_u_binary_octal. rewrite E. cbn [bind].
    rewrite Es, upper_ascii by auto. cbn [option_map]. eexists. split; [reflexivity|]. exists s. split; [split; auto|apply fix_pad_aligned]. }
  destruct (u_str HV x 16 Hx) as (i & s & E & Es & L & C & U); [lia|].
  split; [apply B; lia|]. split; [apply B; lia|].
  unfold fix_u_lower_hex, fix_u_upper_hex, fix_u_hex. rewrite E. cbn [bind]. cbv zeta. rewrite Es. cbn [fst]. rewrite !hex_slice by auto.
  split; [|split].
  - rewrite lower_ascii by (apply map_lower; auto). cbn [option_map]. eexists. split; [reflexivity|]. exists (map to_lower s).
    split; [split; [apply canonical_lower; auto|apply map_lower; auto]|apply fix_pad_aligned].
  - rewrite map_upper by auto. rewrite upper_ascii by auto. cbn [option_map]. eexists. split; [reflexivity|]. exists s.
    split; [split; auto|apply fix_pad_aligned].
  - unfold fix_s_binary, fix_s_octal, fix_s_lower_hex, fix_s_upper_hex. rewrite !(s_wrapping_ok HV) by auto.
    unfold fix_u_lower_hex, fix_u_upper_hex, fix_u_hex. rewrite E. cbn [bind]. cbv zeta. rewrite Es. cbn [fst]. rewrite !hex_slice by auto. auto.
Qed.
(** Exponent form: a point only when digits follow. *)
Theorem C86_exponent : forall (c : Cfg) tag x f, Valid -> wf x ->
  prints (fix_u_exp tag x) (fun s => exists d t e, s = d :: match t with [] => [] | _ => 46 :: t end ++ tag :: e /\
    upper_numeral 10 (uval x) (d :: t) /\ upper_numeral 10 (Z.of_nat (length t)) e) /\
  prints (fix_s_exp tag x f) (fun s => exists d t e,
    s = (if sval x <? 0 then [45] else if sign_plus f then [43] else []) ++ d :: match t with [] => [] | _ => 46 :: t end ++ tag :: e /\
    upper_numeral 10 (Z.abs (sval x)) (d :: t) /\ upper_numeral 10 (Z.of_nat (length t)) e).
Proof.
  intros c tag x f HV Hx. split.
  - destruct (fix_u_exp_ok HV tag x Hx) as (d & t & e & E & U & U'). eexists. split; [exact E|]. exists d, t, e. auto.
  - unfold fix_s_exp. rewrite (s_signed_ok HV) by auto. destruct (fix_u_exp_ok HV tag (ofZ (Z.abs (sval x))) (wf_ofZ HV _)) as (d & t & e & E & U & U').
    rewrite (abs_uval HV) in U by auto. rewrite E. cbn [bind option_map]. eexists. split; [reflexivity|]. exists d, t, e. auto.
Qed.

(** The published code beside the corrected one. *)
Example C86_ex1 : @op_shl c256_64 false 8 (E64 5) 3 = Panic /\ @fix_op_shl c256_64 (E64 5) 3 = Ok (E64 40) /\ @fix_op_shl c256_64 (E64 5) 256 = Panic /\
  @op_shl_self c256_64 (E64 5) (E64 256) = Ok (E64 5) /\ @fix_op_shl_self c256_64 false (E64 5) (E64 256) = Panic /\
  @fix_op_shr_self c384_64 true (E384 (-5)) (E384 1) = Ok (E384 (-3)) /\
  @unbounded_shr c256_64 true (E64 (-5)) 256 = Ok (E64 0) /\ @fix_unbounded_shr c256_64 true (E64 (-5)) 256 = Ok (E64 (-1)).
Proof. vm_compute. auto 10. Qed.
Example C86_ex2 : let m := 2 ^ 255 in
  @big_carrying_add c256_64 true (E64 (- m)) (E64 (-1)) true = Ok (E64 (- m), true) /\
  @fix_carrying_add c256_64 true (E64 (- m)) (E64 (-1)) true = Ok (E64 (- m), false) /\
  @fix_borrowing_sub c256_64 true (E64 (- m)) (E64 0) true = Ok (E64 (m - 1), true) /\
  @s_midpoint c256_64 (E64 (-3)) (E64 0) = Ok (E64 (-1)) /\ @fix_s_midpoint c256_64 (E64 (-3)) (E64 0) = Ok (E64 (-2)) /\
  @s_abs c512_32 (E512 (- 2 ^ 511)) = Panic /\ @fix_s_abs c512_32 (E512 (- 2 ^ 511)) = Ok (E512 (- 2 ^ 511)) /\
  @s_div_floor c256_64 (E64 (- m)) (E64 (-1)) = Ok (E64 (- m)) /\ @fix_s_div_floor c256_64 (E64 (- m)) (E64 (-1)) = Panic /\
  @fix_s_div_ceil c256_64 (E64 (-7)) (E64 2) = Ok (E64 (-3)) /\ @fix_s_rem_euclid c256_64 (E64 (-7)) (E64 2) = Ok (E64 1).
Proof. vm_compute. auto 15. Qed.
Example C86_ex3 : let m := 2 ^ 255 in
  @s_try_from_unsigned c256_64 (E64 (m - 1)) = Ok None /\ @fix_s_try_from_unsigned c256_64 (E64 (m - 1)) = Ok (Some (E64 (m - 1))) /\
  @fix_s_try_from_unsigned c256_64 (E64 m) = Ok None /\ @nt_is_positive c256_64 (E64 0) = Ok true /\ @fix_nt_is_positive c256_64 (E64 0) = Ok false.
Proof. vm_compute. auto 10. Qed.
Example C86_ex4 : @to_str_radix c512_32 true (E512 (-210)) (repeat 0 513) 10 = Ok (repeat 0 511 ++ [45; 94], 511%nat) /\
  @fix_to_str_radix c512_32 true (E512 (-210)) (repeat 0 513) 10 = Ok (repeat 0 509 ++ [45; 50; 49; 48], 509%nat) /\
  @fix_to_str_radix c256_64 true (E64 (- 2 ^ 255)) (repeat 0 257) 2 = Ok (45 :: 49 :: repeat 48 255, 0%nat).
Proof. vm_compute. auto. Qed.
Example C86_ex5 : @fix_u_lower_hex c256_64 (E64 42) alt10 = Ok (Some (repeat 32 6 ++ [48; 120; 50; 97])) /\
  @fix_s_display c256_64 (E64 (-42)) alt10 = Ok (Some (repeat 32 7 ++ [45; 52; 50])) /\
  @fix_u_exp c256_64 101 (E64 5) = Ok (Some [53; 101; 48]) /\ @fix_s_exp c256_64 101 (E64 (-1234)) plain = Ok (Some [45; 49; 46; 50; 51; 52; 101; 51]).
Proof. vm_compute. auto. Qed.

(** ** Assumptions (each must print "Closed under the global context") *)

Print Assumptions C86_shift_primitive.
Print Assumptions C86_shift_self.
Print Assumptions C86_unbounded_shr.
Print Assumptions C86_carry.
Print Assumptions C86_midpoint.
Print Assumptions C86_abs.
Print Assumptions C86_rounding.
Print Assumptions C86_try_from.
Print Assumptions C86_is_positive.
Print Assumptions C86_to_str_radix.
Print Assumptions C86_round_trip.
Print Assumptions C86_display.
Print Assumptions C86_radix_formats.
Print Assumptions C86_exponent.
