(** * Model: the random tests of the array functions

    devel/tests/native_math.rs runs the functions of [i256::math] on arrays of
    two 32-bit limbs and compares with the 64-bit primitive; the first three
    tests of devel/tests/div_math.rs divide arrays of two limbs of the build's
    own width and compare with the primitive of twice that width.  As in
    MQuick.v a test is a function from its inputs to [Ok true], [Ok false] or
    [Panic], paired with its name less the suffix [_quickcheck]; the comparison
    numbers are plain integers reduced to the primitive's range.
    native_math.rs uses the 32-bit functions in every build: here that is
    [W = 32].  The fourth test of div_math.rs is the [wrapping_div] test of
    MQuick.v. *)

Require Import String ZArith List Bool.
From Verif Require Import Prim Spec MAdd MMul MShift MDiv.
Import ListNotations.
Local Open Scope string_scope.
Local Open Scope list_scope.
Local Open Scope Z_scope.

Section M.
Context {c : Cfg}.

(** ** The harness *)

(** native_math.rs 4-6 [split], on [x as u64] *)
Definition split64 (x : Z) : list Z := [ucast 32 (ucast 64 x); ucast 32 (ucast 64 x / 2 ^ 32)].
(** native_math.rs 8-10 [unsplit] *)
Definition unsplit64 (r : list Z) : res Z :=
  let* r0 := get r 0 in
  let* r1 := get r 1 in
  let* h := ushl 64 r1 32 in
  uadd 64 r0 h.
(** [actual as u64] or [actual as i64] *)
Definition as64 (sg : bool) (x : Z) : Z := if sg then scast 64 x else x.
(** The primitive's wrapped result and overflow flag for the number [v]. *)
Definition wrap64 (sg : bool) (v : Z) : Z := if sg then scast 64 v else ucast 64 v.
Definition over64 (sg : bool) (v : Z) : bool := negb (if sg then in_s 64 v else in_u 64 v).
(** [expected == actual] *)
Definition same64 (sg : bool) (m : res (list Z)) (v : Z) : res bool :=
  let* r := m in
  let* a := unsplit64 r in
  Ok (wrap64 sg v =? as64 sg a).
(** [expected == (actual, overflowed)] *)
Definition same64_flag (sg : bool) (m : res (list Z * bool)) (v : Z) : res bool :=
  let* (r, overflowed) := m in
  let* a := unsplit64 r in
  Ok ((wrap64 sg v =? as64 sg a) && eqb (over64 sg v) overflowed).

Definition native_test : Type := string * (Z -> Z -> res bool).

(** ** native_math.rs, inputs [u64] and [u64]: 13-20, 22-29, 47-54, 72-79,
    81-88, 292-300 *)
Definition native_uu : list native_test := [
  ("wrapping_add_u32", fun x y => same64 false (add_wrapping_full (split64 x) (split64 y)) (x + y));
  ("overflowing_add_u32", fun x y => same64_flag false (add_overflowing_full (split64 x) (split64 y)) (x + y));
  ("overflowing_sub_u32", fun x y => same64_flag false (sub_overflowing_full (split64 x) (split64 y)) (x - y));
  ("wrapping_mul_u32", fun x y => same64 false (mul_wrapping_full (split64 x) (split64 y)) (x * y));
  ("overflowing_mul_u32", fun x y => same64_flag false (mul_overflowing_full (split64 x) (split64 y)) (x * y));
  ("widening_mul", fun x y =>
     let* (lo, hi) := mul_widening (split64 x) (split64 y) in
     let* lo := unsplit64 lo in
     let* hi := unsplit64 hi in
     let* h := ushl 128 hi 64 in
     let* expected := umul 128 x y in
     Ok (expected =? Z.lor lo h)) ].

(** inputs [u64] and [u32]: 31-37, 39-45, 56-62, 64-70 *)
Definition native_ul : list native_test := [
  ("wrapping_add_wide_u32", fun x y => same64 false (add_wrapping_limb (split64 x) y) (x + y));
  ("overflowing_add_wide_u32", fun x y => same64_flag false (add_overflowing_limb (split64 x) y) (x + y));
  ("wrapping_sub_limb_u32", fun x y => same64 false (sub_wrapping_limb (split64 x) y) (x - y));
  ("overflowing_sub_limb_u32", fun x y => same64_flag false (sub_overflowing_limb (split64 x) y) (x - y)) ].

(** inputs [u64] and an amount: 90-97, 99-106, 108-114, 116-122.  The
    primitive's rotation turns by the amount modulo 64. *)
Definition rotl64 (x n : Z) : Z := let k := n mod 64 in x * 2 ^ k + x * 2 ^ k / 2 ^ 64.
Definition native_un : list native_test := [
  ("shl_u32", fun x n => same64 false (shl_array 32 (split64 x) (n mod 64)) (x * 2 ^ (n mod 64)));
  ("shr_u32", fun x n => same64 false (shr_array 32 false (split64 x) (n mod 64)) (x / 2 ^ (n mod 64)));
  ("rotate_left_u32", fun x n => same64 false (rotl_array 32 (split64 x) n) (rotl64 x n));
  ("rotate_right_u32", fun x n => same64 false (rotr_array 32 (split64 x) n) (rotl64 x (- n))) ].

(** inputs [i64] and [i64]: 124-131, 133-140, 174-181, 183-190, 224-231 *)
Definition native_ss : list native_test := [
  ("wrapping_add_i32", fun x y => same64 true (sadd_wrapping_full (split64 x) (split64 y)) (x + y));
  ("overflowing_add_i32", fun x y => same64_flag true (sadd_overflowing_full (split64 x) (split64 y)) (x + y));
  ("wrapping_sub_i32", fun x y => same64 true (ssub_wrapping_full (split64 x) (split64 y)) (x - y));
  ("overflowing_sub_i32", fun x y => same64_flag true (ssub_overflowing_full (split64 x) (split64 y)) (x - y));
  ("wrapping_mul_i32", fun x y => same64 true (smul_wrapping_full (split64 x) (split64 y)) (x * y)) ].

(** inputs [i64] and [u32]: 142-148, 150-156, 192-198, 200-206, 242-248 *)
Definition native_su : list native_test := [
  ("wrapping_add_ulimb_i32", fun x y => same64 true (sadd_wrapping_ulimb (split64 x) y) (x + y));
  ("overflowing_add_ulimb_i32", fun x y => same64_flag true (sadd_overflowing_ulimb (split64 x) y) (x + y));
  ("wrapping_sub_ulimb_i32", fun x y => same64 true (ssub_wrapping_ulimb (split64 x) y) (x - y));
  ("overflowing_sub_ulimb_i32", fun x y => same64_flag true (ssub_overflowing_ulimb (split64 x) y) (x - y));
  ("wrapping_mul_ulimb_i32", fun x y => same64 true (smul_wrapping_ulimb (split64 x) y) (x * y)) ].

(** inputs [i64] and [i32]: 158-164, 166-172, 208-214, 216-222, 258-264 *)
Definition native_sl : list native_test := [
  ("wrapping_add_ilimb_i32", fun x y => same64 true (sadd_wrapping_ilimb (split64 x) y) (x + y));
  ("overflowing_add_ilimb_i32", fun x y => same64_flag true (sadd_overflowing_ilimb (split64 x) y) (x + y));
  ("wrapping_sub_ilimb_i32", fun x y => same64 true (ssub_wrapping_ilimb (split64 x) y) (x - y));
  ("overflowing_sub_ilimb_i32", fun x y => same64_flag true (ssub_overflowing_ilimb (split64 x) y) (x - y));
  ("wrapping_mul_ilimb_i32", fun x y => same64 true (smul_wrapping_ilimb (split64 x) y) (x * y)) ].

(** inputs [i64] and an amount: 274-281, 283-290 *)
Definition native_sn : list native_test := [
  ("shl_i32", fun x n => same64 true (shl_array 32 (split64 x) (n mod 64)) (x * 2 ^ (n mod 64)));
  ("shr_i32", fun x n => same64 true (shr_array 32 true (split64 x) (n mod 64)) (x / 2 ^ (n mod 64))) ].

(** signed products with the overflow flag: 233-240 ([i64]), 250-256 ([u32]),
    266-272 ([i32]) *)
Definition native_mul_s : native_test :=
  ("overflowing_mul_i32", fun x y => same64_flag true (smul_overflowing_full (split64 x) (split64 y)) (x * y)).
Definition native_mul_u : native_test :=
  ("overflowing_mul_ulimb_i32", fun x y => same64_flag true (smul_overflowing_ulimb (split64 x) y) (x * y)).
Definition native_mul_l : native_test :=
  ("overflowing_mul_ilimb_i32", fun x y => same64_flag true (smul_overflowing_ilimb (split64 x) y) (x * y)).

(** ** div_math.rs: numerators of type [UWide] *)

(** the two limbs of a wide number, div_math.rs 8-11 *)
Definition split_wide (v : Z) : res (list Z) :=
  let* h := ushr (2 * W) v W in
  Ok [ucast W v; ucast W h].
(** [x0 | x1 << ULimb::BITS], div_math.rs 22 *)
Definition join_wide (r : list Z) : res Z :=
  let* r0 := get r 0 in
  let* r1 := get r 1 in
  let* h := ushl (2 * W) r1 W in
  Ok (Z.lor r0 h).

(** 52-61 with 7-23, [den] of type [UWide] *)
Definition uwide_div : native_test :=
  ("uwide_div", fun num den =>
     if negb (den =? 0) then
       let* n := split_wide num in
       let* d := split_wide den in
       let* (q, r) := div_full n d in
       let* q := join_wide q in
       let* r := join_wide r in
       Ok ((q =? num / den) && (r =? num mod den))
     else Ok true).
(** 63-72 with 25-36 and 74-83 with 38-49, [den] of type [ULimb] *)
Definition uwide_scalar_div : list native_test := [
  ("uwide_div_wide", fun num den =>
     if negb (den =? 0) then
       let* n := split_wide num in
       let* (q, r) := div_wide n den in
       let* q := join_wide q in
       Ok ((q =? num / den) && (ucast W r =? ucast W (num mod den)))
     else Ok true);
  ("uwide_div_limb", fun num den =>
     if negb (den =? 0) then
       let* n := split_wide num in
       let* (q, r) := div_limb n den in
       let* q := join_wide q in
       Ok ((q =? num / den) && (r =? ucast W (num mod den)))
     else Ok true) ].
End M.
