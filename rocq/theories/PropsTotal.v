(** * The methods that never panic, and the validity of what they return (C109)

    Every number a method returns is a valid number (right count of limbs, each in
    range), and no call runs out of fuel.  The catalogues below carry the names of the
    methods; C108 says when those of the last catalogue panic. *)

Require Import ZArith List Bool Lia String.
From Verif Require Import Prim Spec Facts MAdd MMul MShift MCore PCore PBits PWide MArith PArith PArith2 PPow PMisc PRet
  MLayout PLayout MDiv DivSpec PDiv PDivFull PBits2 MScalar PScalar MApi PApi PApi2 PApi3 PropsDiv PropsDivAll.
Import ListNotations.
Local Open Scope Z_scope.
Local Open Scope string_scope.

(** the call returns, and its result meets [P] *)
Definition gives {A} (P : A -> Prop) (m : res A) : Prop := exists v, m = Ok v /\ P v.
(** the call panics or returns a result meeting [P] *)
Definition stops {A} (P : A -> Prop) (m : res A) : Prop := m = Panic \/ gives P m.

Section Results.
Context {c : Cfg}.
Definition flagged (r : list Z * bool) : Prop := wf (fst r).
Definition paired (r : list Z * list Z) : Prop := wf (fst r) /\ wf (snd r).
Definition optional (o : option (list Z)) : Prop := match o with Some v => wf v | None => True end.
Definition count (n : Z) : Prop := 0 <= n < BITS.
Definition optional_count (o : option Z) : Prop := match o with Some n => count n | None => True end.

Definition bits_count (n : Z) : Prop := 0 <= n <= BITS.
Definition answer {A} (_ : A) : Prop := True.

(** the methods of both types which take and return numbers:
    shared/wrapping.rs, shared/overflowing.rs, shared/checked.rs, shared/unbounded.rs,
    shared/bitops.rs, shared/bigint.rs, and bitops.rs, constants.rs, ops.rs,
    overflowing.rs, wrapping.rs of uint/ and int/ *)
Definition both (sg : bool) (x y : list Z) (r : Z) (b : bool) : list (string * Prop) := [
  ("wrapping_add", gives wf (wrapping_add sg x y));
  ("wrapping_sub", gives wf (wrapping_sub sg x y));
  ("wrapping_mul", gives wf (wrapping_mul sg x y));
  ("wrapping_pow", gives wf (wrapping_pow sg x r));
  ("wrapping_shl", gives wf (wrapping_shl x r));
  ("wrapping_shr", gives wf (wrapping_shr sg x r));
  ("overflowing_add", gives flagged (overflowing_add sg x y));
  ("overflowing_sub", gives flagged (overflowing_sub sg x y));
  ("overflowing_mul", gives flagged (overflowing_mul sg x y));
  ("overflowing_pow", gives flagged (overflowing_pow sg x r));
  ("checked_add", gives optional (checked_add sg x y));
  ("checked_sub", gives optional (checked_sub sg x y));
  ("checked_mul", gives optional (checked_mul sg x y));
  ("checked_pow", gives optional (checked_pow sg x r));
  ("checked_shl", gives optional (checked_shl x r));
  ("checked_shr", gives optional (checked_shr sg x r));
  ("checked_ilog2", gives optional_count (checked_ilog2 sg x));
  ("unbounded_shl", gives wf (unbounded_shl x r));
  ("unbounded_shr", gives wf (unbounded_shr sg x r));
  ("rotate_left", gives wf (rotate_left x r));
  ("rotate_right", gives wf (rotate_right x r));
  ("abs_diff", gives wf (abs_diff sg x y));
  ("carrying_add", gives flagged (big_carrying_add sg x y b));
  ("borrowing_sub", gives flagged (big_borrowing_sub sg x y b));
  ("bitand_const", gives wf (bitand_const x y));
  ("bitor_const", gives wf (bitor_const x y));
  ("bitxor_const", gives wf (bitxor_const x y));
  ("not_const", gives wf (not_const x));
  ("min_value", gives wf (min_value sg));
  ("max_value", gives wf (max_value sg))].

(** those of the unsigned type alone: uint/saturating.rs, wrapping.rs, overflowing.rs,
    checked.rs, extensions.rs, ops.rs *)
Definition unsigned_only (x y z : list Z) (r : Z) : list (string * Prop) := [
  ("saturating_add", gives wf (u_saturating_add x y));
  ("saturating_sub", gives wf (u_saturating_sub x y));
  ("saturating_mul", gives wf (u_saturating_mul x y));
  ("saturating_pow", gives wf (u_saturating_pow x r));
  ("wrapping_neg", gives wf (u_wrapping_neg x));
  ("checked_neg", gives optional (u_checked_neg x));
  ("wrapping_add_signed", gives wf (u_wrapping_add_signed x y));
  ("overflowing_add_signed", gives flagged (u_overflowing_add_signed x y));
  ("overflowing_sub_signed", gives flagged (u_overflowing_sub_signed x y));
  ("checked_add_signed", gives optional (u_checked_add_signed x y));
  ("saturating_add_signed", gives wf (u_saturating_add_signed x y));
  ("checked_signed_diff", gives optional (u_checked_signed_diff x y));
  ("midpoint", gives wf (u_midpoint x y));
  ("widening_mul", gives paired (widening_mul x y));
  ("carrying_mul", gives paired (carrying_mul x y z));
  ("high_mul", gives wf (high_mul x y));
  ("low", gives wf (low x));
  ("high", gives wf (high x));
  ("checked_next_power_of_two", gives optional (checked_next_power_of_two x));
  ("wrapping_next_power_of_two", gives wf (wrapping_next_power_of_two x))].

(** those of the signed type alone: int/saturating.rs, wrapping.rs, overflowing.rs,
    checked.rs, ops.rs *)
Definition signed_only (x y : list Z) (r : Z) : list (string * Prop) := [
  ("saturating_add", gives wf (s_saturating_add x y));
  ("saturating_sub", gives wf (s_saturating_sub x y));
  ("saturating_mul", gives wf (s_saturating_mul x y));
  ("saturating_pow", gives wf (s_saturating_pow x r));
  ("saturating_neg", gives wf (s_saturating_neg x));
  ("saturating_abs", gives wf (s_saturating_abs x));
  ("saturating_add_unsigned", gives wf (s_saturating_add_unsigned x y));
  ("saturating_sub_unsigned", gives wf (s_saturating_sub_unsigned x y));
  ("wrapping_neg", gives wf (s_wrapping_neg x));
  ("wrapping_abs", gives wf (s_wrapping_abs x));
  ("wrapping_sub_unsigned", gives wf (s_wrapping_sub_unsigned x y));
  ("overflowing_neg", gives flagged (s_overflowing_neg x));
  ("overflowing_abs", gives flagged (s_overflowing_abs x));
  ("overflowing_shl", gives flagged (s_overflowing_shl x r));
  ("overflowing_shr", gives flagged (s_overflowing_shr x r));
  ("overflowing_add_unsigned", gives flagged (s_overflowing_add_unsigned x y));
  ("overflowing_sub_unsigned", gives flagged (s_overflowing_sub_unsigned x y));
  ("checked_neg", gives optional (s_checked_neg x));
  ("checked_abs", gives optional (s_checked_abs x));
  ("checked_add_unsigned", gives optional (s_checked_add_unsigned x y));
  ("checked_sub_unsigned", gives optional (s_checked_sub_unsigned x y));
  ("unsigned_abs", gives wf (unsigned_abs x));
  ("signum", gives wf (signum x));
  ("midpoint", gives wf (s_midpoint x y))].

(** the casts: shared/casts.rs 55-128, 148-236 (from) and 244-368 (as) *)
Definition casts (x : list Z) : list (string * Prop) := [
  ("as_u8", gives (fits_u 8) (as_u8 x));
  ("as_u16", gives (fits_u 16) (as_u16 x));
  ("as_u32", gives (fits_u 32) (as_u32 x));
  ("as_u64", gives (fits_u 64) (as_u64 x));
  ("as_u128", gives (fits_u 128) (as_u128 x));
  ("as_ulimb", gives (fits_u W) (as_ulimb x));
  ("as_uwide", gives (fits_u (2 * W)) (as_uwide x));
  ("as_i8", gives (fits_s 8) (as_i8 x));
  ("as_i16", gives (fits_s 16) (as_i16 x));
  ("as_i32", gives (fits_s 32) (as_i32 x));
  ("as_i64", gives (fits_s 64) (as_i64 x));
  ("as_i128", gives (fits_s 128) (as_i128 x));
  ("as_ilimb", gives (fits_s W) (as_ilimb x));
  ("as_iwide", gives (fits_s (2 * W)) (as_iwide x))].
Definition froms (v : Z) : list (string * Prop) := [
  ("from_u8", fits_u 8 v -> gives wf (from_u8 v));
  ("from_u16", fits_u 16 v -> gives wf (from_u16 v));
  ("from_u32", fits_u 32 v -> gives wf (from_u32 v));
  ("from_u64", fits_u 64 v -> gives wf (from_u64 v));
  ("from_u128", fits_u 128 v -> gives wf (from_u128 v));
  ("from_ulimb", fits_u W v -> gives wf (from_ulimb v));
  ("from_uwide", fits_u (2 * W) v -> gives wf (from_uwide v));
  ("from_i8", fits_s 8 v -> gives wf (from_i8 v));
  ("from_i16", fits_s 16 v -> gives wf (from_i16 v));
  ("from_i32", fits_s 32 v -> gives wf (from_i32 v));
  ("from_i64", fits_s 64 v -> gives wf (from_i64 v));
  ("from_i128", fits_s 128 v -> gives wf (from_i128 v));
  ("from_ilimb", fits_s W v -> gives wf (from_ilimb v));
  ("from_iwide", fits_s (2 * W) v -> gives wf (from_iwide v))].
(** counts and tests: shared/bitops.rs 17-105, shared/extensions.rs 7-57,
    shared/ord.rs 76-159, int/ops.rs 26-55, uint/ops.rs 210-214 *)
Definition counts (sg : bool) (x y : list Z) : list (string * Prop) := [
  ("count_ones", gives bits_count (count_ones x));
  ("count_zeros", gives bits_count (count_zeros x));
  ("leading_zeros", gives bits_count (leading_zeros x));
  ("leading_ones", gives bits_count (leading_ones x));
  ("trailing_zeros", gives bits_count (trailing_zeros x));
  ("trailing_ones", gives bits_count (trailing_ones x));
  ("least_significant_limb", gives (fits_u W) (least_significant_limb x));
  ("eq_const", gives answer (eq_const x y));
  ("lt_const", gives answer (lt_const sg x y));
  ("le_const", gives answer (le_const sg x y));
  ("gt_const", gives answer (gt_const sg x y));
  ("ge_const", gives answer (ge_const sg x y));
  ("cmp_const", gives answer (cmp_const sg x y));
  ("is_even", gives answer (is_even x));
  ("is_odd", gives answer (is_odd x));
  ("i is_negative", gives answer (is_negative x));
  ("i is_positive", gives answer (is_positive x));
  ("u is_power_of_two", gives answer (is_power_of_two x))].
(** arrays of [n] words of [k] bytes *)
Definition words (k n : nat) (l : list Z) : Prop := digits (8 * Z.of_nat k) l /\ List.length l = n.
(** shared/endian.rs 25-546, on a target of either byte order; [x] is the array in
    memory, [b], [w], [h], [l] arrays of bytes, wide words, u32 and u64 *)
Definition layout (be : bool) (x b w h l : list Z) : list (string * Prop) := [
  ("swap_bytes", gives wf (mem_swap_bytes x));
  ("reverse_bits", gives wf (mem_reverse_bits x));
  ("from_be", gives wf (from_be be x));
  ("from_le", gives wf (from_le be x));
  ("to_be", gives wf (to_be be x));
  ("to_le", gives wf (to_le be x));
  ("from_be_limbs", gives wf (from_be_limbs be x));
  ("from_le_limbs", gives wf (from_le_limbs be x));
  ("from_ne_limbs", gives wf (from_ne_limbs x));
  ("to_be_limbs", gives wf (to_be_limbs be x));
  ("to_le_limbs", gives wf (to_le_limbs be x));
  ("to_ne_bytes", gives (words 1 BYTES) (to_ne_bytes be x));
  ("from_ne_bytes", gives wf (from_ne_bytes be b));
  ("to_be_bytes", gives (words 1 BYTES) (to_be_bytes be x));
  ("from_be_bytes", gives wf (from_be_bytes be b));
  ("to_le_bytes", gives (words 1 BYTES) (to_le_bytes be x));
  ("from_le_bytes", gives wf (from_le_bytes be b));
  ("to_ne_wide", gives (words (2 * limb_bytes) WIDE_LEN) (to_ne_wide be x));
  ("from_ne_wide", gives wf (from_ne_wide be w));
  ("to_be_wide", gives (words (2 * limb_bytes) WIDE_LEN) (to_be_wide be x));
  ("from_be_wide", gives wf (from_be_wide be w));
  ("to_le_wide", gives (words (2 * limb_bytes) WIDE_LEN) (to_le_wide be x));
  ("from_le_wide", gives wf (from_le_wide be w));
  ("to_ne_u32", gives (words 4 U32_LEN) (to_ne_u32 be x));
  ("from_ne_u32", gives wf (from_ne_u32 be h));
  ("to_be_u32", gives (words 4 U32_LEN) (to_be_u32 be x));
  ("from_be_u32", gives wf (from_be_u32 be h));
  ("to_le_u32", gives (words 4 U32_LEN) (to_le_u32 be x));
  ("from_le_u32", gives wf (from_le_u32 be h));
  ("to_ne_u64", gives (words 8 U64_LEN) (to_ne_u64 be x));
  ("from_ne_u64", gives wf (from_ne_u64 be l));
  ("to_be_u64", gives (words 8 U64_LEN) (to_be_u64 be x));
  ("from_be_u64", gives wf (from_be_u64 be l));
  ("to_le_u64", gives (words 8 U64_LEN) (to_le_u64 be x));
  ("from_le_u64", gives wf (from_le_u64 be l))].
(** the scalar methods add_, sub_ and mul_ of the unsigned scalars: shared/limb.rs
    12-425, 794-1154, uint/limb.rs 23-351, 389-635, int/limb.rs 465-1093, 1214-1742 *)
Definition scalar_u (o : sop) (k : skind) (sg : bool) (x : list Z) (n : Z) : list (string * Prop) := [
  ("wrapping", gives wf (wrapping_us o k sg x n));
  ("overflowing", gives flagged (overflowing_us o k sg x n));
  ("checked", gives optional (checked_us o k sg x n));
  ("plain", stops wf (plain_us o k sg x n))].
(** and of the signed scalars: int/limb.rs 14-414, 475-1114, 1225-1763, 1823-2180 *)
Definition scalar_i (o : sop) (k : skind) (x : list Z) (n : Z) : list (string * Prop) := [
  ("wrapping", gives wf (wrapping_is o k x n));
  ("overflowing", gives flagged (overflowing_is o k x n));
  ("checked", gives optional (checked_is o k x n));
  ("plain", stops wf (plain_is o k x n))].
(** the methods which may panic; "u" and "i" mark those of one type alone:
    shared/ops.rs, shared/strict.rs, shared/checked.rs, and ops.rs, strict.rs, traits.rs,
    wrapping.rs, overflowing.rs, checked.rs, saturating.rs of uint/ and int/ *)
Definition stopping (sg : bool) (x y : list Z) (r : Z) : list (string * Prop) := [
  ("add", stops wf (op_add sg x y));
  ("sub", stops wf (op_sub sg x y));
  ("mul", stops wf (op_mul sg x y));
  ("pow", stops wf (pow sg x r));
  ("strict_add", stops wf (strict_add sg x y));
  ("strict_sub", stops wf (strict_sub sg x y));
  ("strict_mul", stops wf (strict_mul sg x y));
  ("strict_pow", stops wf (strict_pow sg x r));
  ("strict_shl", stops wf (strict_shl x r));
  ("strict_shr", stops wf (strict_shr sg x r));
  ("ilog2", stops count (ilog2 sg x));
  ("wrapping_div", stops wf (wrapping_div sg x y));
  ("wrapping_rem", stops wf (wrapping_rem sg x y));
  ("wrapping_div_rem", stops paired (wrapping_div_rem sg x y));
  ("wrapping_div_euclid", stops wf (wrapping_div_euclid sg x y));
  ("wrapping_rem_euclid", stops wf (wrapping_rem_euclid sg x y));
  ("overflowing_div", stops flagged (overflowing_div sg x y));
  ("overflowing_rem", stops flagged (overflowing_rem sg x y));
  ("overflowing_div_euclid", stops flagged (overflowing_div_euclid sg x y));
  ("overflowing_rem_euclid", stops flagged (overflowing_rem_euclid sg x y));
  ("checked_div", stops optional (checked_div sg x y));
  ("checked_rem", stops optional (checked_rem sg x y));
  ("checked_div_euclid", stops optional (checked_div_euclid sg x y));
  ("checked_rem_euclid", stops optional (checked_rem_euclid sg x y));
  ("saturating_div", stops wf (saturating_div sg x y));
  ("strict_div", stops wf (strict_div sg x y));
  ("strict_rem", stops wf (strict_rem sg x y));
  ("strict_div_euclid", stops wf (strict_div_euclid sg x y));
  ("strict_rem_euclid", stops wf (strict_rem_euclid sg x y));
  ("div", stops wf (op_div sg x y));
  ("rem", stops wf (op_rem sg x y));
  ("div_rem", stops paired (div_rem sg x y));
  ("div_euclid", stops wf (div_euclid sg x y));
  ("rem_euclid", stops wf (rem_euclid sg x y));
  ("u div_ceil", stops wf (u_div_ceil x y));
  ("i div_floor", stops wf (s_div_floor x y));
  ("i div_ceil", stops wf (s_div_ceil x y));
  ("u next_power_of_two", stops wf (next_power_of_two x));
  ("u strict_add_signed", stops wf (u_strict_add_signed x y));
  ("i strict_neg", stops wf (s_strict_neg x));
  ("i strict_abs", stops wf (s_strict_abs x));
  ("i abs", stops wf (s_abs x));
  ("i neg", stops wf (op_neg x));
  ("i strict_add_unsigned", stops wf (s_strict_add_unsigned x y));
  ("i strict_sub_unsigned", stops wf (s_strict_sub_unsigned x y))].

End Results.

Definition all_hold (l : list (string * Prop)) : Prop := Forall (fun p => snd p) l.

Ltac finish HV :=
  repeat (unfold stops, gives, op_result, ok_if, some_if, lift1, lift_qr, lift_f, lift_o, opd, chko, flagged, paired,
    optional, optional_count, count in *; cbn [fst snd option_map]);
  repeat match goal with
  | |- context [match ?o with Some _ => _ | None => _ end] => destruct o as [[? ?]|] || destruct o
  | |- context [if ?b then _ else _] => destruct b
  end;
  first [ left; reflexivity
        | right; eexists; split; [reflexivity|cbn [fst snd]; try split; apply (wf_ofZ HV)]
        | eexists; split; [reflexivity|cbn [fst snd]; first [exact I | apply (wf_ofZ HV) | split; apply (wf_ofZ HV)]] ].
Ltac one L := constructor; [cbn [snd]; rewrite L by (auto; lia); match goal with HV : Valid |- _ => finish HV | HV : @Valid _ |- _ => finish HV end|].

Section Proofs.
Context {c : Cfg} (HV : Valid).
Lemma log_count : forall sg x, wf x -> 0 < val sg x -> 0 <= Z.log2 (val sg x) < BITS.
Proof.
  intros sg x Hx H. split; [apply Z.log2_nonneg|]. apply Z.log2_lt_pow2; auto.
  pose proof (BITS_pos HV). destruct sg; cbn [val] in *.
  - pose proof (sval_range HV x Hx) as R. pose proof (Z.pow_le_mono_r 2 (BITS - 1) BITS). lia.
  - apply (uval_range HV x Hx).
Qed.
End Proofs.

Theorem C109_both : forall (c : Cfg) sg x y r b, Valid -> wf x -> wf y -> 0 <= r < 2 ^ 32 -> all_hold (both sg x y r b).
Proof.
  intros c sg x y r b HV Hx Hy Hr. unfold all_hold, both.
  one (wrapping_add_ok HV).
  one (wrapping_sub_ok HV).
  one (wrapping_mul_ok HV).
  one (wrapping_pow_ok HV).
  one (wrapping_shl_ok HV).
  one (wrapping_shr_ok HV).
  one (overflowing_add_ok HV).
  one (overflowing_sub_ok HV).
  one (overflowing_mul_ok HV).
  one (overflowing_pow_ok HV).
  one (checked_add_ok HV).
  one (checked_sub_ok HV).
  one (checked_mul_ok HV).
  one (checked_pow_ok HV).
  one (checked_shl_ok HV).
  one (checked_shr_ok HV).
  constructor; [cbn [snd]; rewrite (checked_ilog2_ok HV) by auto; eexists; split; [reflexivity|]|].
  { destruct (Z.leb_spec (val sg x) 0); [exact I|]. apply (log_count HV); auto. }
  one (unbounded_shl_ok HV).
  one (unbounded_shr_ok HV).
  one (rotate_left_ok HV).
  one (rotate_right_ok HV).
  one (abs_diff_ok HV).
  one (big_carrying_add_ok HV).
  one (big_borrowing_sub_ok HV).
  one (bitand_ok HV).
  one (bitor_ok HV).
  one (bitxor_ok HV).
  one (not_const_ok HV).
  one (min_value_ok HV).
  one (max_value_ok HV).
  constructor.
Qed.
Theorem C109_unsigned : forall (c : Cfg) x y z r, Valid -> wf x -> wf y -> wf z -> 0 <= r < 2 ^ 32 -> all_hold (unsigned_only x y z r).
Proof.
  intros c x y z r HV Hx Hy Hz Hr. unfold all_hold, unsigned_only.
  one (u_saturating_add_ok HV).
  one (u_saturating_sub_ok HV).
  one (u_saturating_mul_ok HV).
  one (u_saturating_pow_ok HV).
  one (u_wrapping_neg_ok HV).
  one (u_checked_neg_ok HV).
  one (u_wrapping_add_signed_ok HV).
  one (u_overflowing_add_signed_ok HV).
  one (u_overflowing_sub_signed_ok HV).
  one (u_checked_add_signed_ok HV).
  one (u_saturating_add_signed_ok HV).
  one (u_checked_signed_diff_ok HV).
  one (u_midpoint_ok HV).
  one (widening_mul_ok HV).
  one (carrying_mul_ok HV).
  one (high_mul_ok HV).
  one (low_ok HV).
  one (high_ok HV).
  one (checked_next_power_of_two_ok HV).
  one (wrapping_next_power_of_two_ok HV).
  constructor.
Qed.
Theorem C109_signed : forall (c : Cfg) x y r, Valid -> wf x -> wf y -> 0 <= r < 2 ^ 32 -> all_hold (signed_only x y r).
Proof.
  intros c x y r HV Hx Hy Hr. unfold all_hold, signed_only.
  one (s_saturating_add_ok HV).
  one (s_saturating_sub_ok HV).
  one (s_saturating_mul_ok HV).
  one (s_saturating_pow_ok HV).
  one (s_saturating_neg_ok HV).
  one (s_saturating_abs_ok HV).
  one (s_saturating_add_unsigned_ok HV).
  one (s_saturating_sub_unsigned_ok HV).
  one (s_wrapping_neg_ok HV).
  one (s_wrapping_abs_ok HV).
  one (s_wrapping_sub_unsigned_ok HV).
  one (s_overflowing_neg_ok HV).
  one (s_overflowing_abs_ok HV).
  one (s_overflowing_shl_ok HV).
  one (s_overflowing_shr_ok HV).
  one (s_overflowing_add_unsigned_ok HV).
  one (s_overflowing_sub_unsigned_ok HV).
  one (s_checked_neg_ok HV).
  one (s_checked_abs_ok HV).
  one (s_checked_add_unsigned_ok HV).
  one (s_checked_sub_unsigned_ok HV).
  one (unsigned_abs_ok HV).
  one (signum_ok HV).
  one (s_midpoint_ok HV).
  constructor.
Qed.
Theorem C109_stopping : forall (c : Cfg) sg x y r, Valid -> wf x -> wf y -> 0 <= r < 2 ^ 32 -> all_hold (stopping sg x y r).
Proof.
  intros c sg x y r HV Hx Hy Hr. unfold all_hold, stopping.
  one (op_add_ok HV).
  one (op_sub_ok HV).
  one (op_mul_ok HV).
  one (pow_ok HV).
  one (strict_add_ok HV).
  one (strict_sub_ok HV).
  one (strict_mul_ok HV).
  one (strict_pow_ok HV).
  one (strict_shl_ok HV).
  one (strict_shr_ok HV).
  constructor; [cbn [snd]; rewrite (ilog2_ok HV) by auto|].
  { destruct (Z.leb_spec (val sg x) 0); [left; auto|]. right. eexists. split; [reflexivity|]. apply (log_count HV); auto. }
  one (wrapping_div_ok HV).
  one (wrapping_rem_ok HV).
  one (wrapping_div_rem_ok HV).
  one (wrapping_div_euclid_ok HV).
  one (wrapping_rem_euclid_ok HV).
  one (overflowing_div_ok HV).
  one (overflowing_rem_ok HV).
  one (overflowing_div_euclid_ok HV).
  one (overflowing_rem_euclid_ok HV).
  one (checked_div_ok HV).
  one (checked_rem_ok HV).
  one (checked_div_euclid_ok HV).
  one (checked_rem_euclid_ok HV).
  one (saturating_div_ok HV).
  one (strict_div_ok HV).
  one (strict_rem_ok HV).
  one (strict_div_euclid_ok HV).
  one (strict_rem_euclid_ok HV).
  one (op_div_ok HV).
  one (op_rem_ok HV).
  one (div_rem_ok HV).
  one (div_euclid_ok HV).
  one (rem_euclid_ok HV).
  one (u_div_ceil_ok HV).
  one (s_div_floor_ok HV).
  one (s_div_ceil_ok HV).
  one (next_power_of_two_ok HV).
  one (u_strict_add_signed_ok HV).
  one (s_strict_neg_ok HV).
  one (s_strict_abs_ok HV).
  one (s_abs_ok HV).
  one (op_neg_ok HV).
  one (s_strict_add_unsigned_ok HV).
  one (s_strict_sub_unsigned_ok HV).
  constructor.
Qed.
Theorem C109_scalar_u : forall (c : Cfg) o k sg x n, Valid -> wf x -> fits_u (kbits k) n -> (sg = true -> ~ swapped k) ->
  all_hold (scalar_u o k sg x n).
Proof.
  intros c o k sg x n HV Hx Hn Hs. unfold all_hold, scalar_u.
  one (wrapping_us_ok HV). one (overflowing_us_ok HV). one (checked_us_ok HV). one (plain_us_ok HV). constructor.
Qed.
Theorem C109_scalar_i : forall (c : Cfg) o k x n, Valid -> wf x -> fits_s (kbits k) n -> ~ swapped k ->
  all_hold (scalar_i o k x n).
Proof.
  intros c o k x n HV Hx Hn Hs. unfold all_hold, scalar_i.
  one (wrapping_is_ok HV). one (overflowing_is_ok HV). one (checked_is_ok HV). one (plain_is_ok HV). constructor.
Qed.

Theorem C109_casts : forall (c : Cfg) x, Valid -> wf x -> all_hold (casts x).
Proof.
  intros c x HV Hx. unfold all_hold, casts. pose proof (W_cases HV) as HW.
  constructor; [cbn [snd]; rewrite (as_u8_ok HV) by auto; eexists; split; [reflexivity|apply Z.mod_pos_bound, Z.pow_pos_nonneg; lia]|].
  constructor; [cbn [snd]; rewrite (as_u16_ok HV) by auto; eexists; split; [reflexivity|apply Z.mod_pos_bound, Z.pow_pos_nonneg; lia]|].
  constructor; [cbn [snd]; rewrite (as_u32_ok HV) by auto; eexists; split; [reflexivity|apply Z.mod_pos_bound, Z.pow_pos_nonneg; lia]|].
  constructor; [cbn [snd]; rewrite (as_u64_ok HV) by auto; eexists; split; [reflexivity|apply Z.mod_pos_bound, Z.pow_pos_nonneg; lia]|].
  constructor; [cbn [snd]; rewrite (as_u128_ok HV) by auto; eexists; split; [reflexivity|apply Z.mod_pos_bound, Z.pow_pos_nonneg; lia]|].
  constructor; [cbn [snd]; rewrite (as_ulimb_ok HV) by auto; eexists; split; [reflexivity|apply Z.mod_pos_bound, Z.pow_pos_nonneg; lia]|].
  constructor; [cbn [snd]; rewrite (as_uwide_ok HV) by auto; eexists; split; [reflexivity|apply Z.mod_pos_bound, Z.pow_pos_nonneg; lia]|].
  constructor; [cbn [snd]; rewrite (as_i8_ok HV) by auto; eexists; split; [reflexivity|apply swrap_range; lia]|].
  constructor; [cbn [snd]; rewrite (as_i16_ok HV) by auto; eexists; split; [reflexivity|apply swrap_range; lia]|].
  constructor; [cbn [snd]; rewrite (as_i32_ok HV) by auto; eexists; split; [reflexivity|apply swrap_range; lia]|].
  constructor; [cbn [snd]; rewrite (as_i64_ok HV) by auto; eexists; split; [reflexivity|apply swrap_range; lia]|].
  constructor; [cbn [snd]; rewrite (as_i128_ok HV) by auto; eexists; split; [reflexivity|apply swrap_range; lia]|].
  constructor; [cbn [snd]; rewrite (as_ilimb_ok HV) by auto; eexists; split; [reflexivity|apply swrap_range; lia]|].
  constructor; [cbn [snd]; rewrite (as_iwide_ok HV) by auto; eexists; split; [reflexivity|apply swrap_range; lia]|].
  constructor.
Qed.
Theorem C109_froms : forall (c : Cfg) v, Valid -> all_hold (froms v).
Proof.
  intros c v HV. unfold all_hold, froms.
  constructor; [cbn [snd]; intros H; rewrite (from_u8_ok HV) by auto; eexists; split; [reflexivity|apply (wf_ofZ HV)]|].
  constructor; [cbn [snd]; intros H; rewrite (from_u16_ok HV) by auto; eexists; split; [reflexivity|apply (wf_ofZ HV)]|].
  constructor; [cbn [snd]; intros H; rewrite (from_u32_ok HV) by auto; eexists; split; [reflexivity|apply (wf_ofZ HV)]|].
  constructor; [cbn [snd]; intros H; rewrite (from_u64_ok HV) by auto; eexists; split; [reflexivity|apply (wf_ofZ HV)]|].
  constructor; [cbn [snd]; intros H; rewrite (from_u128_ok HV) by auto; eexists; split; [reflexivity|apply (wf_ofZ HV)]|].
  constructor; [cbn [snd]; intros H; rewrite (from_ulimb_ok HV) by auto; eexists; split; [reflexivity|apply (wf_ofZ HV)]|].
  constructor; [cbn [snd]; intros H; rewrite (from_uwide_ok HV) by auto; eexists; split; [reflexivity|apply (wf_ofZ HV)]|].
  constructor; [cbn [snd]; intros H; rewrite (from_i8_ok HV) by auto; eexists; split; [reflexivity|apply (wf_ofZ HV)]|].
  constructor; [cbn [snd]; intros H; rewrite (from_i16_ok HV) by auto; eexists; split; [reflexivity|apply (wf_ofZ HV)]|].
  constructor; [cbn [snd]; intros H; rewrite (from_i32_ok HV) by auto; eexists; split; [reflexivity|apply (wf_ofZ HV)]|].
  constructor; [cbn [snd]; intros H; rewrite (from_i64_ok HV) by auto; eexists; split; [reflexivity|apply (wf_ofZ HV)]|].
  constructor; [cbn [snd]; intros H; rewrite (from_i128_ok HV) by auto; eexists; split; [reflexivity|apply (wf_ofZ HV)]|].
  constructor; [cbn [snd]; intros H; rewrite (from_ilimb_ok HV) by auto; eexists; split; [reflexivity|apply (wf_ofZ HV)]|].
  constructor; [cbn [snd]; intros H; rewrite (from_iwide_ok HV) by auto; eexists; split; [reflexivity|apply (wf_ofZ HV)]|].
  constructor.
Qed.
Theorem C109_counts : forall (c : Cfg) sg x y, Valid -> wf x -> wf y -> all_hold (counts sg x y).
Proof.
  intros c sg x y HV Hx Hy. unfold all_hold, counts. pose proof (W_cases HV) as HW. pose proof (BITS_pos HV) as HB.
  assert (LZ : forall z, wf z -> gives bits_count (leading_zeros z)).
  { intros z Hz. rewrite (leading_zeros_ok HV) by auto. eexists. split; [reflexivity|].
    destruct (lz_run BITS (uval z)) as (K & _); [lia|apply (uval_range HV z Hz)|exact K]. }
  constructor; [cbn [snd]; rewrite (count_ones_ok HV) by auto; eexists; split; [reflexivity|]|].
  { pose proof (ones_range (uval x) (Z.to_nat BITS)). unfold bits_count. lia. }
  constructor; [cbn [snd]; rewrite (count_zeros_ok HV) by auto; eexists; split; [reflexivity|]|].
  { pose proof (bit_count_total BITS (uval x)). pose proof (bit_count_ones BITS (uval x)) as E.
    pose proof (ones_range (uval x) (Z.to_nat BITS)). unfold bits_count. split; [unfold bit_count|]; lia. }
  constructor; [apply LZ; auto|].
  constructor; [cbn [snd]; destruct (leading_ones_ok HV x Hx) as (r & -> & K & _); exists r; auto|].
  constructor; [cbn [snd]; destruct (trailing_zeros_ok HV x Hx) as (r & -> & K)|].
  { exists r. split; auto. destruct (tz_run BITS (uval x) r) as (L & _); auto; lia. }
  constructor; [cbn [snd]; destruct (trailing_ones_ok HV x Hx) as (r & -> & K & _); exists r; auto|].
  constructor; [cbn [snd]; rewrite (lsl_ok HV) by auto; eexists; split; [reflexivity|apply Z.mod_pos_bound, Z.pow_pos_nonneg; lia]|].
  constructor; [cbn [snd]; rewrite (eq_const_ok HV) by auto; eexists; split; [reflexivity|exact I]|].
  constructor; [cbn [snd]; rewrite (lt_const_ok HV) by auto; eexists; split; [reflexivity|exact I]|].
  constructor; [cbn [snd]; rewrite (le_const_ok HV) by auto; eexists; split; [reflexivity|exact I]|].
  constructor; [cbn [snd]; rewrite (gt_const_ok HV) by auto; eexists; split; [reflexivity|exact I]|].
  constructor; [cbn [snd]; rewrite (ge_const_ok HV) by auto; eexists; split; [reflexivity|exact I]|].
  constructor; [cbn [snd]; rewrite (cmp_const_ok HV) by auto; eexists; split; [reflexivity|exact I]|].
  constructor; [cbn [snd]; rewrite (is_even_ok HV) by auto; eexists; split; [reflexivity|exact I]|].
  constructor; [cbn [snd]; unfold is_odd; rewrite (is_even_ok HV) by auto; eexists; split; [reflexivity|exact I]|].
  constructor; [cbn [snd]; rewrite (is_negative_ok HV) by auto; eexists; split; [reflexivity|exact I]|].
  constructor; [cbn [snd]; rewrite (is_positive_ok HV) by auto; eexists; split; [reflexivity|exact I]|].
  constructor; [cbn [snd]; destruct (is_power_of_two_ok HV x Hx) as (b & -> & _); exists b; split; [reflexivity|exact I]|].
  constructor.
Qed.

Section LayoutProofs.
Context {c : Cfg} (HV : Valid).
Lemma wf_ord : forall be x, wf x -> wf (ord be x).
Proof. intros be x (HL & D). split; [destruct be; unfold ord; rewrite ?rev_length; auto|apply digits_ord; auto]. Qed.
Lemma words_ord : forall be k n x, words k n x -> words k n (ord be x).
Proof. intros be k n x (D & HL). split; [apply digits_ord; auto|destruct be; unfold ord; rewrite ?rev_length; auto]. Qed.
Lemma words_lenc : forall k n v, words k n (lenc (8 * Z.of_nat k) n v).
Proof. intros. split; [apply digits_lenc; lia|apply length_lenc]. Qed.
Variables (k n : nat).
Hypothesis Hkn : BYTES = (n * k)%nat.
Lemma layout_words : forall be x, wf x ->
  gives (words k n) (to_ne_words be k n x) /\ gives (words k n) (to_be_words be k n x) /\ gives (words k n) (to_le_words be k n x).
Proof.
  intros be x Hx. rewrite <- (ord_ord be x). pose proof (wf_ord be x Hx) as Hy.
  rewrite (to_ne_words_ok HV k n Hkn), (to_be_words_ok HV k n Hkn), (to_le_words_ok HV k n Hkn) by auto.
  repeat (split; [eexists; split; [reflexivity|]|]). 3: eexists; split; [reflexivity|].
  - apply words_ord, words_lenc.
  - apply (words_ord true), words_lenc.
  - apply words_lenc.
Qed.
Lemma layout_from : forall be l, words k n l ->
  gives wf (from_ne_words be k l) /\ gives wf (from_be_words be k l) /\ gives wf (from_le_words be k l).
Proof.
  intros be l Hl. assert (G : forall m v, m = Ok (ord be (ofZ v)) -> gives wf m).
  { intros m v ->. eexists. split; [reflexivity|apply wf_ord, (wf_ofZ HV)]. }
  pose proof (words_ord be k n l Hl) as (D1 & L1). pose proof (words_ord true k n l Hl) as (D2 & L2). destruct Hl as (D & HL).
  split; [|split].
  - rewrite <- (ord_ord be l). eapply G. apply (from_ne_words_ok HV k n Hkn); auto.
  - rewrite <- (ord_ord true l). eapply G. apply (from_be_words_ok HV k n Hkn); auto.
  - eapply G. apply (from_le_words_ok HV k n Hkn); auto.
Qed.
End LayoutProofs.

Theorem C109_layout : forall (c : Cfg) be x b w h l, Valid -> wf x -> words 1 BYTES b ->
  words (2 * limb_bytes) WIDE_LEN w -> words 4 U32_LEN h -> words 8 U64_LEN l -> all_hold (layout be x b w h l).
Proof.
  intros c be x b w h l HV Hx Hb Hw Hh Hl. unfold all_hold, layout.
  assert (OK : forall y, wf y -> gives wf (Ok y)) by (intros y Hy; exists y; auto).
  assert (SW : gives wf (mem_swap_bytes x)).
  { rewrite <- (ord_ord be x). rewrite (swap_bytes_ok HV) by (apply wf_ord; auto). apply OK, wf_ord, (wf_ofZ HV). }
  assert (RB : gives wf (mem_reverse_bits x)).
  { rewrite <- (ord_ord be x). rewrite (reverse_bits_ok HV) by (apply wf_ord; auto). apply OK, wf_ord, (wf_ofZ HV). }
  constructor; [exact SW|]. constructor; [exact RB|].
  constructor; [cbn [snd]; unfold from_be; destruct be; auto|].
  constructor; [cbn [snd]; unfold from_le; destruct be; cbn [negb]; auto|].
  constructor; [cbn [snd]; unfold to_be; destruct be; auto|].
  constructor; [cbn [snd]; unfold to_le; destruct be; cbn [negb]; auto|].
  constructor; [cbn [snd]; rewrite <- (ord_ord true x); cbn [ord]; rewrite (from_be_limbs_ok HV); apply OK, wf_ord, (wf_ord true); auto|].
  constructor; [cbn [snd]; rewrite (from_le_limbs_ok HV); apply OK, wf_ord; auto|].
  constructor; [cbn [snd]; rewrite (from_ne_limbs_ok HV); auto|].
  constructor; [cbn [snd]; rewrite <- (ord_ord be x); rewrite to_be_limbs_ok; apply OK, (wf_ord true), wf_ord; auto|].
  constructor; [cbn [snd]; rewrite <- (ord_ord be x); rewrite to_le_limbs_ok; apply OK, wf_ord; auto|].
  assert (TB : gives (words 1 BYTES) (to_ne_bytes be x) /\ gives (words 1 BYTES) (to_be_bytes be x) /\ gives (words 1 BYTES) (to_le_bytes be x)).
  { rewrite <- (ord_ord be x). pose proof (wf_ord be x Hx) as Hy.
    rewrite (to_ne_bytes_ok HV), (to_be_bytes_ok HV), (to_le_bytes_ok HV) by auto.
    split; [|split]; (eexists; split; [reflexivity|]); [apply words_ord|apply (words_ord true)|]; apply (words_lenc 1). }
  assert (FB : gives wf (from_ne_bytes be b) /\ gives wf (from_be_bytes be b) /\ gives wf (from_le_bytes be b)).
  { pose proof (words_ord be 1 BYTES b Hb) as (D1 & L1). pose proof (words_ord true 1 BYTES b Hb) as (D2 & L2). destruct Hb as (D & HL).
    split; [|split].
    - rewrite <- (ord_ord be b). rewrite (from_ne_bytes_ok HV) by auto. apply OK, wf_ord, (wf_ofZ HV).
    - rewrite <- (ord_ord true b). cbn [ord]. rewrite (from_be_bytes_ok HV) by auto. apply OK, wf_ord, (wf_ofZ HV).
    - rewrite (from_le_bytes_ok HV) by auto. apply OK, wf_ord, (wf_ofZ HV). }
  destruct TB as (T1 & T2 & T3). destruct FB as (F1 & F2 & F3).
  destruct (layout_words HV _ _ (wide_len HV) be x Hx) as (T4 & T5 & T6). destruct (layout_from HV _ _ (wide_len HV) be w Hw) as (F4 & F5 & F6).
  destruct (layout_words HV _ _ (u32_len HV) be x Hx) as (T7 & T8 & T9). destruct (layout_from HV _ _ (u32_len HV) be h Hh) as (F7 & F8 & F9).
  destruct (layout_words HV _ _ (u64_len HV) be x Hx) as (T10 & T11 & T12). destruct (layout_from HV _ _ (u64_len HV) be l Hl) as (F10 & F11 & F12).
  repeat (constructor; [cbn [snd]; assumption|]). constructor.
Qed.

(** ** Examples: the hypotheses are met by numbers on which the results are not trivial *)
Definition seq_words (n : nat) : list Z := map Z.of_nat (seq 0 n).
Example C109_ex1 : @Valid c256_64 /\ @wf c256_64 (E64 (2 ^ 255 + 7)) /\ @wf c256_64 (E64 (-5)) /\
  @wrapping_mul c256_64 true (E64 (2 ^ 255 + 7)) (E64 (-5)) = Ok (E64 (2 ^ 255 - 35)) /\
  @op_mul c256_64 true (E64 (2 ^ 255 + 7)) (E64 (-5)) = Panic.
Proof. split; [exact valid_c256_64|]. split; [exact (wf_ofZ valid_c256_64 _)|]. split; [exact (wf_ofZ valid_c256_64 _)|]. vm_compute. auto. Qed.
Example C109_ex2 : @Valid c256_32 /\ ~ @swapped c256_32 K64 /\ fits_s (@kbits c256_32 K64) (-3) /\
  @wrapping_is c256_32 SMul K64 (E32 7) (-3) = Ok (E32 (-21)).
Proof.
  split; [exact valid_c256_32|]. split; [intros (K & _); discriminate|]. split; [vm_compute; split; discriminate || reflexivity|].
  vm_compute. reflexivity.
Qed.
Example C109_ex4 : words 4 (@U32_LEN c256_64) (seq_words 8) /\
  @from_be_u32 c256_64 false (seq_words 8) = Ok [2 ^ 32 * 6 + 7; 2 ^ 32 * 4 + 5; 2 ^ 32 * 2 + 3; 2 ^ 32 * 0 + 1] /\
  @from_be_u32 c256_64 true (seq_words 8) = Ok [2 ^ 32 * 0 + 1; 2 ^ 32 * 2 + 3; 2 ^ 32 * 4 + 5; 2 ^ 32 * 6 + 7].
Proof. split; [split; [unfold seq_words, digits; cbn; repeat constructor; lia|reflexivity]|]. vm_compute. auto. Qed.
(** the catalogues name this many methods *)
Example C109_ex3 : let l := E64 1 in
  List.length (@both c256_64 true l l 1 true ++ @unsigned_only c256_64 l l l 1 ++ @signed_only c256_64 l l 1 ++
    @casts c256_64 l ++ @froms c256_64 1 ++ @counts c256_64 true l l ++ @stopping c256_64 true l l 1) = 165%nat.
Proof. reflexivity. Qed.

(** ** Assumptions (each must print "Closed under the global context") *)

Print Assumptions C109_both.
Print Assumptions C109_unsigned.
Print Assumptions C109_signed.
Print Assumptions C109_stopping.
Print Assumptions C109_scalar_u.
Print Assumptions C109_scalar_i.
Print Assumptions C109_casts.
Print Assumptions C109_froms.
Print Assumptions C109_counts.
Print Assumptions C109_layout.
