(** * Properties: debug assertions (C65)

    The crate has nine [debug_assert!]s: in the array shifts (math/shift.rs 91,
    215), in the word and shift steps of long division (math/div.rs 438, 439,
    533, 551), in the loops of [wrapping_pow] and [overflowing_pow]
    (shared/wrapping.rs 34, shared/overflowing.rs 44) and in the signed
    [wrapping_neg] (int/wrapping.rs 209).  Whether they are compiled in is the
    field [dbg] of a build.  The theorems say that no call of a public operation
    that can reach one of them has a result that depends on that field: for all
    arguments, also for those where the operation panics or is wrong. *)

Require Import ZArith List Bool Lia.
From Verif Require Import Prim Spec Facts MAdd MMul MShift MCore PCore PBits PWide MArith PArith PArith2 PPow PMisc PBits2 PRot PRet
  MDiv DivSpec MApi PApi PApi2 PApi3 PIlog MScalar PScalar PScalarDiv TextSpec MParse PParse MWrite PWrite PWrite2 PParse2 PropsParse PropsWrite MTraits PTraits PropsDiv PropsCoherent PropsBuild MForms.
Import ListNotations.
Local Open Scope Z_scope.

(** ** Vocabulary *)

(** The same build with debug assertions set to [b]. *)
Definition with_asserts (b : bool) (c : Cfg) : Cfg := {| W := @W c; N := @N c; chk := @chk c; dbg := b |}.
Definition asserting : Cfg -> Cfg := with_asserts true.
Definition silent : Cfg -> Cfg := with_asserts false.

Definition inert1 {A} (c : Cfg) (f : forall c : Cfg, list Z -> res A) : Prop :=
  forall x, @wf c x -> f (asserting c) x = f (silent c) x.
Definition inert2 {A} (c : Cfg) (f : forall c : Cfg, list Z -> list Z -> res A) : Prop :=
  forall x y, @wf c x -> @wf c y -> f (asserting c) x y = f (silent c) x y.

Ltac in1 L := match goal with HV : Valid |- @inert1 _ ?c _ =>
  let x := fresh "x" in let Hx := fresh "Hx" in intros x Hx;
  rewrite (L (asserting c) HV) by side; rewrite (L (silent c) HV) by side; reflexivity end.
Ltac in2 L := match goal with HV : Valid |- @inert2 _ ?c _ =>
  let x := fresh "x" in let y := fresh "y" in let Hx := fresh "Hx" in let Hy := fresh "Hy" in intros x y Hx Hy;
  rewrite (L (asserting c) HV) by side; rewrite (L (silent c) HV) by side; reflexivity end.

(** ** Negation, absolute value, powers *)

Theorem C65_neg : forall (c : Cfg), Valid ->
  inert1 c (@s_wrapping_neg) /\ inert1 c (@s_overflowing_neg) /\ inert1 c (@s_checked_neg) /\
  inert1 c (@s_strict_neg) /\ inert1 c (@s_saturating_neg) /\ inert1 c (@op_neg) /\
  inert1 c (@s_wrapping_abs) /\ inert1 c (@s_overflowing_abs) /\ inert1 c (@s_checked_abs) /\
  inert1 c (@s_strict_abs) /\ inert1 c (@s_saturating_abs) /\ inert1 c (@s_abs) /\ inert1 c (@unsigned_abs).
Proof.
  intros.
  split; [in1 @s_wrapping_neg_ok|].
  split; [in1 @s_overflowing_neg_ok|].
  split; [in1 @s_checked_neg_ok|].
  split; [in1 @s_strict_neg_ok|].
  split; [in1 @s_saturating_neg_ok|].
  split; [in1 @op_neg_ok|].
  split; [in1 @s_wrapping_abs_ok|].
  split; [in1 @s_overflowing_abs_ok|].
  split; [in1 @s_checked_abs_ok|].
  split; [in1 @s_strict_abs_ok|].
  split; [in1 @s_saturating_abs_ok|].
  split; [in1 @s_abs_ok|].
  in1 @unsigned_abs_ok.
Qed.
Theorem C65_pow : forall (c : Cfg) sg e, Valid -> 0 <= e < 2 ^ 32 ->
  inert1 c (fun c x => @wrapping_pow c sg x e) /\ inert1 c (fun c x => @overflowing_pow c sg x e) /\
  inert1 c (fun c x => @checked_pow c sg x e) /\ inert1 c (fun c x => @strict_pow c sg x e) /\
  inert1 c (fun c x => @u_saturating_pow c x e) /\ inert1 c (fun c x => @s_saturating_pow c x e) /\
  inert1 c (fun c x => @pow c sg x e).
Proof.
  intros.
  split; [in1 @wrapping_pow_ok|].
  split; [in1 @overflowing_pow_ok|].
  split; [in1 @checked_pow_ok|].
  split; [in1 @strict_pow_ok|].
  split; [in1 @u_saturating_pow_ok|].
  split; [in1 @s_saturating_pow_ok|].
  in1 @pow_ok.
Qed.

(** ** Shifts *)

Theorem C65_shift : forall (c : Cfg) sg e, Valid -> 0 <= e < 2 ^ 32 ->
  inert1 c (fun c x => @wrapping_shl c x e) /\ inert1 c (fun c x => @wrapping_shr c sg x e) /\
  inert1 c (fun c x => @checked_shl c x e) /\ inert1 c (fun c x => @checked_shr c sg x e) /\
  inert1 c (fun c x => @strict_shl c x e) /\ inert1 c (fun c x => @strict_shr c sg x e) /\
  inert1 c (fun c x => @unbounded_shl c x e) /\ inert1 c (fun c x => @unbounded_shr c sg x e) /\
  inert1 c (fun c x => @s_overflowing_shl c x e) /\ inert1 c (fun c x => @s_overflowing_shr c x e) /\
  inert1 c (fun c x => @rotate_left c x e) /\ inert1 c (fun c x => @rotate_right c x e).
Proof.
  intros.
  split; [in1 @wrapping_shl_ok|].
  split; [in1 @wrapping_shr_ok|].
  split; [in1 @checked_shl_ok|].
  split; [in1 @checked_shr_ok|].
  split; [in1 @strict_shl_ok|].
  split; [in1 @strict_shr_ok|].
  split; [in1 @unbounded_shl_ok|].
  split; [in1 @unbounded_shr_ok|].
  split; [in1 @s_overflowing_shl_ok|].
  split; [in1 @s_overflowing_shr_ok|].
  split; [in1 @rotate_left_ok|].
  in1 @rotate_right_ok.
Qed.
(** The operators: also for an amount out of range, in both settings of the
    overflow checks. *)
Theorem C65_shift_operators : forall (c : Cfg) sg ps, Valid ->
  (forall pw o, 1 <= pw -> inert1 c (fun c x => @op_shl c ps pw x o)) /\
  (forall pw o, 1 <= pw -> inert1 c (fun c x => @op_shr c sg ps pw x o)) /\
  inert2 c (fun c => @op_shl_big c ps) /\ inert2 c (fun c => @op_shr_big c sg ps) /\
  inert2 c (@op_shl_self) /\ inert2 c (fun c => @op_shr_self c sg).
Proof.
  intros. split; [intros pw o Ho; in1 @op_shl_ok|]. split; [intros pw o Ho; in1 @op_shr_ok|].
  split; [in2 @op_shl_big_ok|]. split; [in2 @op_shr_big_ok|]. split; [in2 @op_shl_self_ok|in2 @op_shr_self_ok].
Qed.

(** ** Division: every pair of operands, zero and the add-back cases included *)

Theorem C65_div : forall (c : Cfg) sg, Valid ->
  inert2 c (fun c => @wrapping_div_rem c sg) /\ inert2 c (fun c => @wrapping_div c sg) /\
  inert2 c (fun c => @wrapping_rem c sg) /\ inert2 c (fun c => @wrapping_div_euclid c sg) /\
  inert2 c (fun c => @wrapping_rem_euclid c sg) /\ inert2 c (fun c => @overflowing_div_rem c sg) /\
  inert2 c (fun c => @overflowing_div c sg) /\ inert2 c (fun c => @overflowing_rem c sg) /\
  inert2 c (fun c => @overflowing_div_euclid c sg) /\ inert2 c (fun c => @overflowing_rem_euclid c sg) /\
  inert2 c (fun c => @checked_div_rem c sg) /\ inert2 c (fun c => @checked_div c sg) /\
  inert2 c (fun c => @checked_rem c sg) /\ inert2 c (fun c => @checked_div_euclid c sg) /\
  inert2 c (fun c => @checked_rem_euclid c sg) /\ inert2 c (fun c => @strict_div c sg) /\
  inert2 c (fun c => @strict_rem c sg) /\ inert2 c (fun c => @strict_div_euclid c sg) /\
  inert2 c (fun c => @strict_rem_euclid c sg) /\ inert2 c (fun c => @saturating_div c sg) /\
  inert2 c (fun c => @op_div c sg) /\ inert2 c (fun c => @op_rem c sg) /\ inert2 c (fun c => @div_euclid c sg) /\
  inert2 c (fun c => @rem_euclid c sg) /\ inert2 c (fun c => @div_rem c sg).
Proof.
  intros.
  split; [in2 @wrapping_div_rem_ok|].
  split; [in2 @wrapping_div_ok|].
  split; [in2 @wrapping_rem_ok|].
  split; [in2 @wrapping_div_euclid_ok|].
  split; [in2 @wrapping_rem_euclid_ok|].
  split; [in2 @overflowing_div_rem_ok|].
  split; [in2 @overflowing_div_ok|].
  split; [in2 @overflowing_rem_ok|].
  split; [in2 @overflowing_div_euclid_ok|].
  split; [in2 @overflowing_rem_euclid_ok|].
  split; [in2 @checked_div_rem_ok|].
  split; [in2 @checked_div_ok|].
  split; [in2 @checked_rem_ok|].
  split; [in2 @checked_div_euclid_ok|].
  split; [in2 @checked_rem_euclid_ok|].
  split; [in2 @strict_div_ok|].
  split; [in2 @strict_rem_ok|].
  split; [in2 @strict_div_euclid_ok|].
  split; [in2 @strict_rem_euclid_ok|].
  split; [in2 @saturating_div_ok|].
  split; [in2 @op_div_ok|].
  split; [in2 @op_rem_ok|].
  split; [in2 @div_euclid_ok|].
  split; [in2 @rem_euclid_ok|].
  in2 @div_rem_ok.
Qed.
Theorem C65_rounding : forall (c : Cfg), Valid ->
  inert2 c (@u_div_floor) /\ inert2 c (@u_div_ceil) /\ inert2 c (@s_div_floor) /\ inert2 c (@s_div_ceil).
Proof.
  intros. split; [unfold u_div_floor; in2 @wrapping_div_ok|]. split; [in2 @u_div_ceil_ok|]. split; [in2 @s_div_floor_ok|in2 @s_div_ceil_ok].
Qed.

Theorem C65_multiples : forall (c : Cfg), Valid ->
  inert2 c (@u_next_multiple_of) /\ inert2 c (@u_checked_next_multiple_of) /\ inert2 c (@u_is_multiple_of) /\
  inert2 c (@s_next_multiple_of) /\ inert2 c (@s_checked_next_multiple_of).
Proof.
  intros c HV.
  assert (R : forall sg, inert2 c (fun c => @op_rem c sg)) by (intros; in2 @op_rem_ok).
  assert (K : forall sg, inert2 c (fun c => @checked_rem c sg)) by (intros; in2 @checked_rem_ok).
  assert (Wr : forall sg, inert2 c (fun c => @wrapping_rem c sg)) by (intros; in2 @wrapping_rem_ok).
  split. { intros x y Hx Hy. unfold u_next_multiple_of. rewrite (R false x y Hx Hy). reflexivity. }
  split. { intros x y Hx Hy. unfold u_checked_next_multiple_of. rewrite (K false x y Hx Hy). reflexivity. }
  split. { intros x y Hx Hy. unfold u_is_multiple_of. rewrite (Wr false x y Hx Hy). reflexivity. }
  split. { intros x y Hx Hy. unfold s_next_multiple_of. rewrite (R true x y Hx Hy). reflexivity. }
  intros x y Hx Hy. unfold s_checked_next_multiple_of. rewrite (K true x y Hx Hy). reflexivity.
Qed.
(** Logarithms: also for base one, where neither build ever returns. *)
Theorem C65_ilog : forall (c : Cfg), Valid ->
  inert2 c (@u_checked_ilog) /\ inert2 c (@u_ilog) /\ inert2 c (@s_checked_ilog) /\ inert2 c (@s_ilog).
Proof.
  intros c HV.
  assert (D : inert2 c (fun c => @op_div c false)) by (in2 @op_div_ok).
  assert (U : inert2 c (@u_checked_ilog)).
  { intros x b Hx Hb.
    assert (L : forall fuel n r, @ilog_loop (asserting c) fuel x b n r = @ilog_loop (silent c) fuel x b n r).
    { induction fuel as [|fuel IH]; intros n r; cbn [ilog_loop]; [reflexivity|]. rewrite (D x b Hx Hb).
      destruct (@op_div (silent c) false x b) as [q| |]; cbn [bind]; [|reflexivity|reflexivity].
      change (@le_const (asserting c)) with (@le_const (silent c)).
      destruct (@le_const (silent c) false r q) as [[]| |]; cbn [bind]; [|reflexivity|reflexivity|reflexivity].
      change (@uadd (asserting c)) with (@uadd (silent c)). destruct (@uadd (silent c) 32 n 1) as [m| |]; cbn [bind]; [|reflexivity|reflexivity].
      change (@op_mul (asserting c)) with (@op_mul (silent c)).
      destruct (@op_mul (silent c) false r b) as [s| |]; cbn [bind]; [|reflexivity|reflexivity]. apply IH. }
    pose proof (uval_range HV x Hx) as Rx. pose proof (uval_range HV b Hb) as Rb. unfold fits_u in Rx, Rb.
    assert (C : (@uval c x = 0 \/ @uval c b = 0 \/ @uval c x < @uval c b) \/ 1 <= @uval c b <= @uval c x) by lia.
    unfold u_checked_ilog. change (@tbits (asserting c)) with (@tbits c). change (@tbits (silent c)) with (@tbits c).
    destruct C as [C|C].
    - rewrite (@u_checked_ilog_none (asserting c) HV), (@u_checked_ilog_none (silent c) HV) by assumption. reflexivity.
    - assert (B : @uval c b ^ (Z.log2 (@uval c x) / (Z.log2 (@uval c b) + 1)) <= @uval c x).
      { destruct (Z.eq_dec (@uval c b) 1) as [E|E].
        - rewrite E, Z.pow_1_l; [lia|]. apply Z.div_pos; [apply Z.log2_nonneg|cbn; lia].
        - apply ilog_start. lia. }
      rewrite (@ilog_prefix (asserting c) HV), (@ilog_prefix (silent c) HV) by assumption. cbv zeta.
      change (@uval (asserting c)) with (@uval c). change (@uval (silent c)) with (@uval c).
      change (@ofZ (asserting c)) with (@ofZ c). change (@ofZ (silent c)) with (@ofZ c). rewrite L. reflexivity. }
  split; [exact U|].
  split. { intros x b Hx Hb. unfold u_ilog. rewrite (U x b Hx Hb). reflexivity. }
  assert (S : inert2 c (@s_checked_ilog)).
  { intros x b Hx Hb. rewrite (@s_checked_ilog_eq (asserting c) HV), (@s_checked_ilog_eq (silent c) HV) by assumption.
    rewrite (U x b Hx Hb). reflexivity. }
  split; [exact S|]. intros x b Hx Hb. unfold s_ilog. rewrite (S x b Hx Hb). reflexivity.
Qed.

(** ** Division by a scalar *)

Theorem C65_scalar_div_u : forall (c : Cfg) k sg x n, Valid -> wf x -> fits_u (kbits k) n ->
  @wrapping_div_rem_us (asserting c) k sg x n = @wrapping_div_rem_us (silent c) k sg x n /\
  @overflowing_div_rem_us (asserting c) k sg x n = @overflowing_div_rem_us (silent c) k sg x n /\
  @checked_div_rem_us (asserting c) k sg x n = @checked_div_rem_us (silent c) k sg x n /\
  @div_rem_us (asserting c) k sg x n = @div_rem_us (silent c) k sg x n.
Proof.
  intros c k sg x n HV Hx Hn.
  assert (G : @wrapping_div_rem_us (asserting c) k sg x n = @wrapping_div_rem_us (silent c) k sg x n).
  { destruct sg.
    - unfold wrapping_div_rem_us.
      change (@route (asserting c) k) with (@route c k). change (@route (silent c) k) with (@route c k).
      change (@dbits (asserting c)) with (@dbits c). change (@dbits (silent c)) with (@dbits c).
      rewrite (ucast_d HV) by auto. unfold s_div_rem_u.
      rewrite (@unsigned_abs_ok (asserting c) HV), (@unsigned_abs_ok (silent c) HV) by side. cbn [bind].
      rewrite (@div_by_ok (asserting c) HV k), (@div_by_ok (silent c) HV k) by (try apply (@wf_ofZ c HV); exact Hn).
      change (@lift2 (asserting c)) with (@lift2 c). change (@lift2 (silent c)) with (@lift2 c).
      change (@uval (asserting c)) with (@uval c). change (@uval (silent c)) with (@uval c).
      change (@ofZ (asserting c)) with (@ofZ c). change (@ofZ (silent c)) with (@ofZ c).
      change (@sval (asserting c)) with (@sval c). change (@sval (silent c)) with (@sval c).
      change (@W (asserting c)) with (@W c). change (@W (silent c)) with (@W c).
      change (@N (asserting c)) with (@N c). change (@N (silent c)) with (@N c).
      destruct (scalar_outcome W N (kbits k) (uval (ofZ (Z.abs (sval x)))) n) as [[q r]|]; cbn [lift2 bind]; [|reflexivity].
      rewrite (@is_negative_ok (asserting c) HV), (@is_negative_ok (silent c) HV) by side.
      rewrite (@mk_ok (asserting c) HV), (@mk_ok (silent c) HV). cbn [bind].
      rewrite (@s_wrapping_neg_ok (asserting c) HV), (@s_wrapping_neg_ok (silent c) HV) by apply (@wf_ofZ c HV).
      reflexivity.
    - rewrite (@u_wrapping_div_rem_us_all (asserting c) HV), (@u_wrapping_div_rem_us_all (silent c) HV) by side. reflexivity. }
  assert (O : @overflowing_div_rem_us (asserting c) k sg x n = @overflowing_div_rem_us (silent c) k sg x n).
  { unfold overflowing_div_rem_us. rewrite G. reflexivity. }
  assert (K : @checked_div_rem_us (asserting c) k sg x n = @checked_div_rem_us (silent c) k sg x n).
  { unfold checked_div_rem_us. rewrite G. reflexivity. }
  split; [exact G|]. split; [exact O|]. split; [exact K|].
  unfold div_rem_us. rewrite K, G. reflexivity.
Qed.
Theorem C65_scalar_div_s : forall (c : Cfg) k x n, Valid -> wf x -> fits_s (kbits k) n ->
  @wrapping_div_rem_is (asserting c) k x n = @wrapping_div_rem_is (silent c) k x n /\
  @overflowing_div_rem_is (asserting c) k x n = @overflowing_div_rem_is (silent c) k x n /\
  @checked_div_rem_is (asserting c) k x n = @checked_div_rem_is (silent c) k x n /\
  @div_rem_is (asserting c) k x n = @div_rem_is (silent c) k x n.
Proof.
  intros c k x n HV Hx Hn.
  assert (G : @wrapping_div_rem_is (asserting c) k x n = @wrapping_div_rem_is (silent c) k x n).
  { unfold wrapping_div_rem_is, s_div_rem_i.
    change (@route (asserting c) k) with (@route c k). change (@route (silent c) k) with (@route c k).
    change (@dbits (asserting c)) with (@dbits c). change (@dbits (silent c)) with (@dbits c).
    rewrite (scast_d HV) by auto.
    rewrite (@unsigned_abs_ok (asserting c) HV), (@unsigned_abs_ok (silent c) HV) by side. cbn [bind].
    assert (Ha : 0 <= Z.abs n < 2 ^ kbits k).
    { pose proof (dbits_1 HV k). assert (Hh : 2 ^ kbits k = 2 * 2 ^ (kbits k - 1)) by (apply pow2_half; lia).
      assert (0 < 2 ^ (kbits k - 1)) by (apply pow2_pos; lia). unfold fits_s in Hn. lia. }
    rewrite (@div_by_ok (asserting c) HV k), (@div_by_ok (silent c) HV k) by (try apply (@wf_ofZ c HV); exact Ha).
    change (@lift2 (asserting c)) with (@lift2 c). change (@lift2 (silent c)) with (@lift2 c).
    change (@uval (asserting c)) with (@uval c). change (@uval (silent c)) with (@uval c).
    change (@ofZ (asserting c)) with (@ofZ c). change (@ofZ (silent c)) with (@ofZ c).
    change (@sval (asserting c)) with (@sval c). change (@sval (silent c)) with (@sval c).
    change (@W (asserting c)) with (@W c). change (@W (silent c)) with (@W c).
    change (@N (asserting c)) with (@N c). change (@N (silent c)) with (@N c).
    destruct (scalar_outcome W N (kbits k) (uval (ofZ (Z.abs (sval x)))) (Z.abs n)) as [[q r]|]; cbn [lift2 bind]; [|reflexivity].
    rewrite (@is_negative_ok (asserting c) HV), (@is_negative_ok (silent c) HV) by side.
    rewrite (@mk_ok (asserting c) HV), (@mk_ok (silent c) HV). cbn [bind].
    change (@sval (asserting c)) with (@sval c). change (@sval (silent c)) with (@sval c).
    rewrite (@s_wrapping_neg_ok (asserting c) HV), (@s_wrapping_neg_ok (silent c) HV) by apply (@wf_ofZ c HV). reflexivity. }
  assert (O : @overflowing_div_rem_is (asserting c) k x n = @overflowing_div_rem_is (silent c) k x n).
  { unfold overflowing_div_rem_is. rewrite G. reflexivity. }
  assert (K : @checked_div_rem_is (asserting c) k x n = @checked_div_rem_is (silent c) k x n).
  { unfold checked_div_rem_is. rewrite O. reflexivity. }
  split; [exact G|]. split; [exact O|]. split; [exact K|].
  unfold div_rem_is. rewrite K, G. reflexivity.
Qed.

(** ** Numbers in text form *)

Theorem C65_to_str : forall (c : Cfg) sg x buffer radix, Valid -> wf x ->
  @to_str_radix (asserting c) sg x buffer radix = @to_str_radix (silent c) sg x buffer radix.
Proof.
  intros c sg x buffer radix HV Hx.
  assert (D : (2 <= radix <= 36 /\ @BITS c + b2z sg <= Z.of_nat (length buffer)) \/ ~ (2 <= radix <= 36 /\ @BITS c + b2z sg <= Z.of_nat (length buffer))) by lia.
  destruct D as [(Hr & HL)|D].
  - assert (D : (sg = true /\ @sval c x < 0) \/ (sg = true -> 0 <= @sval c x)) by (destruct sg; [destruct (Z.lt_ge_cases (@sval c x) 0)|]; auto; right; discriminate).
    destruct D as [(-> & D)|D].
    + rewrite (@to_str_radix_negative (asserting c) HV), (@to_str_radix_negative (silent c) HV) by assumption. reflexivity.
    + destruct sg.
      * apply (writes_same _ _ buffer (upper_numeral radix (@sval c x))).
        -- intros s t. apply C29_unique. lia.
        -- apply (C29_signed_nonnegative (asserting c)); auto.
        -- apply (C29_signed_nonnegative (silent c)); auto.
      * cbn [b2z] in HL. rewrite Z.add_0_r in HL.
        apply (writes_same _ _ buffer (upper_numeral radix (@uval c x))).
        -- intros s t. apply C29_unique. lia.
        -- apply (C29_unsigned (asserting c)); auto.
        -- apply (C29_unsigned (silent c)); auto.
  - rewrite (@to_str_radix_panic (asserting c)), (@to_str_radix_panic (silent c)) by exact D. reflexivity.
Qed.
Theorem C65_format : forall (c : Cfg) x f tag, Valid -> wf x ->
  @u_display (asserting c) x = @u_display (silent c) x /\ @s_display (asserting c) x f = @s_display (silent c) x f /\
  @u_binary (asserting c) x f = @u_binary (silent c) x f /\ @s_binary (asserting c) x f = @s_binary (silent c) x f /\
  @u_octal (asserting c) x f = @u_octal (silent c) x f /\ @s_octal (asserting c) x f = @s_octal (silent c) x f /\
  @u_lower_hex (asserting c) x f = @u_lower_hex (silent c) x f /\ @s_lower_hex (asserting c) x f = @s_lower_hex (silent c) x f /\
  @u_upper_hex (asserting c) x f = @u_upper_hex (silent c) x f /\ @s_upper_hex (asserting c) x f = @s_upper_hex (silent c) x f /\
  @u_exp (asserting c) tag x = @u_exp (silent c) tag x /\ @s_exp (asserting c) tag x f = @s_exp (silent c) tag x f.
Proof.
  intros c x f tag HV Hx.
  pose proof (fun y b r Hy => C65_to_str c false y b r HV Hy) as R.
  assert (H1 : forall y, @wf c y -> @u_display (asserting c) y = @u_display (silent c) y).
  { intros y Hy. unfold u_display. rewrite R by assumption. reflexivity. }
  assert (H2 : forall r t, @u_binary_octal (asserting c) r t x f = @u_binary_octal (silent c) r t x f).
  { intros r t. unfold u_binary_octal. rewrite R by assumption. reflexivity. }
  assert (H3 : forall k, @u_hex (asserting c) k x f = @u_hex (silent c) k x f).
  { intros k. unfold u_hex. rewrite R by assumption. reflexivity. }
  assert (H4 : forall y, @wf c y -> @u_exp (asserting c) tag y = @u_exp (silent c) tag y).
  { intros y Hy. unfold u_exp. rewrite R by assumption. reflexivity. }
  assert (S : forall g1 g2, (forall y, @wf c y -> g1 y = g2 y) -> @s_signed (asserting c) g1 x f = @s_signed (silent c) g2 x f).
  { intros g1 g2 Hg. rewrite (@s_signed_ok (asserting c) HV), (@s_signed_ok (silent c) HV) by assumption.
    rewrite Hg by apply (@wf_ofZ c HV). reflexivity. }
  assert (Wr : forall g1 g2, g1 x f = g2 x f -> @s_wrapping (asserting c) g1 x f = @s_wrapping (silent c) g2 x f).
  { intros g1 g2 Hg. rewrite (@s_wrapping_ok (asserting c) HV), (@s_wrapping_ok (silent c) HV) by assumption. exact Hg. }
  split; [auto|]. split; [apply S; auto|]. split; [apply H2|]. split; [apply Wr, H2|]. split; [apply H2|]. split; [apply Wr, H2|].
  split; [apply H3|]. split; [apply Wr, H3|]. split; [apply H3|]. split; [apply Wr, H3|]. split; [auto|apply S; auto].
Qed.
Theorem C65_parse : forall (c : Cfg) sg s radix small, Valid -> bytes s ->
  @from_str_radix (asserting c) sg s radix = @from_str_radix (silent c) sg s radix /\
  @from_str (asserting c) small sg s = @from_str (silent c) small sg s.
Proof.
  intros c sg s radix small HV Hs.
  assert (R : forall radix, @from_str_radix (asserting c) sg s radix = @from_str_radix (silent c) sg s radix).
  { intros r. assert (D : 2 <= r <= 36 \/ ~ 2 <= r <= 36) by lia. destruct D.
    - rewrite (@from_str_radix_ok (asserting c) HV), (@from_str_radix_ok (silent c) HV) by assumption. reflexivity.
    - rewrite !from_str_radix_panic by assumption. reflexivity. }
  split; [apply R|]. destruct (PeanoNat.Nat.lt_ge_cases (length s) 39).
  - rewrite (@from_str_short (asserting c) HV), (@from_str_short (silent c) HV) by assumption. reflexivity.
  - rewrite !from_str_long by assumption. apply R.
Qed.

(** ** The assertions themselves

    Called directly (they are public in the crate's internal [math] module) the
    array shifts do depend on the setting, on exactly the amounts the
    assertion excludes: with it a panic, without it a panic or a value,
    according to the first array access out of bounds. *)
Theorem C65_array_shift : forall (c : Cfg) w sg x s, 32 <= w <= 128 -> (2 <= length x)%nat -> digits w x -> 0 <= s ->
  (s < Z.of_nat (length x) * w ->
     @shl_array (asserting c) w x s = @shl_array (silent c) w x s /\
     @shr_array (asserting c) w sg x s = @shr_array (silent c) w sg x s) /\
  (Z.of_nat (length x) * w <= s ->
     @shl_array (asserting c) w x s = Panic /\ @shr_array (asserting c) w sg x s = Panic).
Proof.
  intros c w sg x s Hw HL Hx Hs. split; intros H; unfold shl_array, shr_array;
    replace (2 <=? length x)%nat with true by (symmetry; apply Nat.leb_le; auto); cbn [assert_ bind].
  - replace (s <? Z.of_nat (length x) * w) with true by (symmetry; apply Z.ltb_lt; lia). split; reflexivity.
  - replace (s <? Z.of_nat (length x) * w) with false by (symmetry; apply Z.ltb_ge; lia). split; reflexivity.
Qed.
Theorem C65_word : forall (c : Cfg) hi lo d, 32 <= W <= 64 -> 0 <= hi < 2 ^ W -> 0 <= lo < 2 ^ W -> 0 <= d < 2 ^ W ->
  (hi < d -> @div_rem_word (asserting c) hi lo d = @div_rem_word (silent c) hi lo d) /\
  (d <= hi -> @div_rem_word (asserting c) hi lo d = Panic).
Proof.
  intros c hi lo d HW Hh Hl Hd. split; intros H; unfold div_rem_word.
  - replace (hi <? d) with true by (symmetry; apply Z.ltb_lt; lia).
    replace (d =? 0) with false by (symmetry; apply Z.eqb_neq; lia). reflexivity.
  - replace (hi <? d) with false by (symmetry; apply Z.ltb_ge; lia). reflexivity.
Qed.
(** Without the assertion the quotient is truncated silently. *)
Theorem C65_word_refuted : exists (c : Cfg) hi lo d q r, Valid /\ 0 <= hi < 2 ^ W /\ 0 <= lo < 2 ^ W /\ 0 < d < 2 ^ W /\
  @div_rem_word (asserting c) hi lo d = Panic /\ @div_rem_word (silent c) hi lo d = Ok (q, r) /\
  q * d + r <> hi * 2 ^ W + lo.
Proof.
  exists c256_64, 1, 5, 1, 5, 0. split; [exact valid_c256_64|]. vm_compute. repeat split; discriminate || (intros; discriminate).
Qed.

Example C65_ex1 : @s_wrapping_neg (asserting c256_64) (E64 (- 2 ^ 255)) = Ok (E64 (- 2 ^ 255))
  /\ @s_wrapping_neg (silent c256_64) (E64 (- 2 ^ 255)) = Ok (E64 (- 2 ^ 255))
  /\ @overflowing_pow (silent c512_32) true (E512 (-3)) 5 = Ok (E512 (-243), false)
  /\ @op_shl (silent c384_64) true 32 (E384 1) 400 = Panic /\ @op_shl (asserting c384_64) true 32 (E384 1) 400 = Panic.
Proof. vm_compute. auto. Qed.
Example C65_ex3 : @u_ilog (silent c256_64) (E64 (10 ^ 30)) (E64 10) = Ok 30 /\ @u_checked_ilog (silent c256_32) (E32 5) (E32 1) = OutOfFuel
  /\ @s_next_multiple_of (silent c512_32) (E512 (-7)) (E512 4) = Ok (E512 (-4)).
Proof. vm_compute. auto. Qed.
Example C65_ex2 : @wrapping_div_rem (silent c256_64) false (E64 (2 ^ 255)) (E64 (2 ^ 127 + 1)) = @wrapping_div_rem (asserting c256_64) false (E64 (2 ^ 255)) (E64 (2 ^ 127 + 1))
  /\ @wrapping_div (silent c256_64) false (E64 7) (E64 0) = Panic
  /\ @div_rem_us (silent c256_32) K32 true (E32 (-7)) 2 = Ok (E32 (-4), 1).
Proof. vm_compute. auto. Qed.

(** ** Assumptions (each must print "Closed under the global context") *)

Print Assumptions C65_neg.
Print Assumptions C65_pow.
Print Assumptions C65_shift.
Print Assumptions C65_shift_operators.
Print Assumptions C65_div.
Print Assumptions C65_rounding.
Print Assumptions C65_multiples.
Print Assumptions C65_ilog.
Print Assumptions C65_scalar_div_u.
Print Assumptions C65_scalar_div_s.
Print Assumptions C65_to_str.
Print Assumptions C65_format.
Print Assumptions C65_parse.
Print Assumptions C65_array_shift.
Print Assumptions C65_word.
Print Assumptions C65_word_refuted.
