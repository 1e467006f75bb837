(** * The repository's own tests, run on the model

    The tests of /repo that have literal inputs and expected values, transcribed
    as [Example]s and computed on the model.  They say nothing new about the
    code; they check that the model answers as the authors say the code does.
    Each cites the test.  Tests of the form "for all random inputs, agree with
    another library" are in MQuick.v, and PropsQuick.v decides them. *)

Require Import ZArith List Bool String Ascii.
From Verif Require Import Prim Spec MAdd MMul MShift MCore MArith MDiv MApi MScalar MParse MWrite.
From Verif Require MLayout.
Import ListNotations.
Local Open Scope Z_scope.

(** Two-limb arrays of 32-bit limbs, as in the tests of src/math. *)
Definition a2 : Cfg := {| W := 32; N := 2; chk := true; dbg := true |}.
(** Rust's [u32::MAX], [i32::MAX as u32], [i32::MIN as u32]. *)
Definition M32 : Z := 4294967295.
Definition IMAX32 : Z := 2147483647.
Definition IMIN32 : Z := 2147483648.
Definition M64 : Z := 18446744073709551615.
Definition M128 : Z := 340282366920938463463374607431768211455.

(** Bytes of a string literal. *)
Fixpoint str (s : string) : list Z :=
  match s with EmptyString => [] | String a t => Z.of_nat (nat_of_ascii a) :: str t end.

(** ** src/math/add.rs 787-833 *)

Example overflowing_add_u32_test :
  map (fun p => @add_overflowing_full a2 (fst p) (snd p))
    [([1; 0], [1; 0]); ([M32; 0], [M32; 0]); ([M32; 1], [M32; 0]); ([M32; M32], [1; 0]); ([M32; M32], [2; 0]); ([M32; M32], [M32; M32])]
  = [Ok ([2; 0], false); Ok ([M32 - 1; 1], false); Ok ([M32 - 1; 2], false); Ok ([0; 0], true); Ok ([1; 0], true); Ok ([M32 - 1; M32], true)].
Proof. vm_compute. reflexivity. Qed.

Example overflowing_add_i32_test :
  map (fun p => @sadd_overflowing_full a2 (fst p) (snd p))
    [([1; 0], [1; 0]); ([M32; 0], [M32; 0]); ([M32; 1], [M32; 0]); ([M32; IMAX32], [1; 0]); ([M32; IMAX32], [2; 0]); ([M32; IMAX32], [M32; IMAX32])]
  = [Ok ([2; 0], false); Ok ([M32 - 1; 1], false); Ok ([M32 - 1; 2], false); Ok ([0; IMIN32], true); Ok ([1; IMIN32], true); Ok ([M32 - 1; M32], true)].
Proof. vm_compute. reflexivity. Qed.

(** ** src/math/sub.rs 791-802 *)

Example overflowing_sub_u32_test :
  map (fun p => @sub_overflowing_full a2 (fst p) (snd p))
    [([0; 0], [1; 0]); ([1; 0], [1; 0]); ([1; 0], [0; 0]); ([M32; 1], [0; 2]); ([0; 1], [0; 2]); ([0; 1], [1; 1])]
  = [Ok ([M32; M32], true); Ok ([0; 0], false); Ok ([1; 0], false); Ok ([M32; M32], true); Ok ([0; 4294967295], true); Ok ([M32; M32], true)].
Proof. vm_compute. reflexivity. Qed.

(** ** src/math/mul.rs 742-842 *)

Example overflowing_mul_u32_test :
  map (fun p => @mul_overflowing_full a2 (fst p) (snd p))
    [([M32; M32], [M32; M32]); ([1; 0], [M32; 1]); ([2; 0], [2147483648; 0]); ([1; 0], [1; 0]); ([1; 0], [0; 0]);
     ([M32; 1], [0; 2]); ([0; 1], [0; 2]); ([67; 0], [64103990; 0])]
  = [Ok ([1; 0], true); Ok ([M32; 1], false); Ok ([0; 1], false); Ok ([1; 0], false); Ok ([0; 0], false);
     Ok ([0; M32 - 1], true); Ok ([0; 0], true); Ok ([34; 1], false)].
Proof. vm_compute. reflexivity. Qed.

Example wrapping_mul_limb_u32_test :
  map (fun p => @mul_wrapping_limb a2 (fst p) (snd p))
    [([67; 0], 64103990); ([2; 0], 2147483648); ([0; 2147483648], 2); ([2; 2147483648], 2); ([2147483647; 2147483647], 2)]
  = [Ok [34; 1]; Ok [0; 1]; Ok [0; 0]; Ok [4; 0]; Ok [4294967294; 4294967294]].
Proof. vm_compute. reflexivity. Qed.

Example overflowing_mul_limb_u32_test :
  map (fun p => @mul_overflowing_limb a2 (fst p) (snd p))
    [([67; 0], 64103990); ([2; 0], 2147483648); ([0; 2147483648], 2); ([2; 2147483648], 2); ([2147483647; 2147483647], 2)]
  = [Ok ([34; 1], false); Ok ([0; 1], false); Ok ([0; 0], true); Ok ([4; 0], true); Ok ([4294967294; 4294967294], false)].
Proof. vm_compute. reflexivity. Qed.

Example wrapping_mul_i32_test :
  map (fun p => @smul_wrapping_full a2 (fst p) (snd p)) [([1; 0], [0; 1]); ([M32; M32], [1; 0])] = [Ok [0; 1]; Ok [M32; M32]].
Proof. vm_compute. reflexivity. Qed.

(** [-i32::MAX as u32] is [2^31 + 1]. *)
Example overflowing_mul_i32_test :
  map (fun p => @smul_overflowing_full a2 (fst p) (snd p))
    [([M32; M32], [0; IMIN32]); ([M32; M32], [0; IMAX32]); ([M32; M32], [0; 2147483648]); ([0; IMIN32], [1; 0]);
     ([M32; IMIN32], [1; 0]); ([M32; IMIN32], [0; 0])]
  = [Ok ([0; IMIN32], true); Ok ([0; IMIN32 + 1], false); Ok ([0; IMIN32], true); Ok ([0; IMIN32], false);
     Ok ([M32; IMIN32], false); Ok ([0; 0], false)].
Proof. vm_compute. reflexivity. Qed.

Example widening_mul_i32_test :
  map (fun p => @mul_widening a2 (fst p) (snd p)) [([1; 0], [0; 1]); ([0; 1], [0; 1]); ([M32; M32], [M32; M32])]
  = [Ok ([0; 1], [0; 0]); Ok ([0; 0], [1; 0]); Ok ([1; 0], [M32 - 1; M32])].
Proof. vm_compute. reflexivity. Qed.

(** ** src/math/shift.rs 381-421 *)

Example shl_u32_test :
  map (fun p => @shl_array a2 32 (fst p) (snd p))
    [([1; 0], 1); ([0; 1], 0); ([0; 1], 1); ([1; 0], 32); ([0; 1], 32); ([2; 0], 31); ([0; 2], 31); ([1; 2], 31)]
  = [Ok [2; 0]; Ok [0; 1]; Ok [0; 2]; Ok [0; 1]; Ok [0; 0]; Ok [0; 1]; Ok [0; 0]; Ok [2147483648; 0]]
  /\ map (fun p => @shl_array a2 32 (fst p) (snd p))
    [([1; 2; 3], 31); ([1; 2; 0], 31); ([1; 2; 3], 32); ([1; 2; 3], 63); ([1; 2; 3], 64); ([1; 2; 3], 95); ([1; 2; 3], 0)]
  = [Ok [2147483648; 0; 2147483649]; Ok [2147483648; 0; 1]; Ok [0; 1; 2]; Ok [0; 2147483648; 0]; Ok [0; 0; 1]; Ok [0; 0; 2147483648]; Ok [1; 2; 3]].
Proof. vm_compute. auto. Qed.

Example shr_u32_test :
  map (fun p => @shr_array a2 32 false (fst p) (snd p))
    [([1; 0], 1); ([0; 1], 0); ([0; 1], 1); ([1; 0], 32); ([0; 1], 32); ([2; 0], 31); ([0; 2], 31); ([1; 2], 31)]
  = [Ok [0; 0]; Ok [0; 1]; Ok [2147483648; 0]; Ok [0; 0]; Ok [1; 0]; Ok [0; 0]; Ok [4; 0]; Ok [4; 0]]
  /\ map (fun p => @shr_array a2 32 false (fst p) (snd p))
    [([1; 2; 3], 31); ([1; 2; 0], 31); ([1; 2; 3], 32); ([1; 2; 3], 63); ([1; 2; 3], 64); ([1; 2; 3], 95); ([1; 2; 3], 0)]
  = [Ok [4; 6; 0]; Ok [4; 0; 0]; Ok [2; 3; 0]; Ok [6; 0; 0]; Ok [3; 0; 0]; Ok [0; 0; 0]; Ok [1; 2; 3]].
Proof. vm_compute. auto. Qed.

(** ** Tests on the 256-bit types, in both limb sizes on a little-endian machine *)

Definition both (P : Cfg -> Prop) : Prop := P c256_64 /\ P c256_32.
Ltac run := vm_compute; repeat split; reflexivity.

(** [from_le_u64]/[to_le_u64] (src/shared/endian.rs), as modelled in MLayout. *)
Definition le64 {c : Cfg} (l : list Z) : res (list Z) := MLayout.from_le_u64 (c := c) false l.
Definition u64s {c : Cfg} (m : res (list Z)) : res (list Z) := let* x := m in MLayout.to_le_u64 (c := c) false x.
Definition ap {A} (f : list Z -> res A) (m : res (list Z)) : res A := let* x := m in f x.
Definition ap2 {A} (f : list Z -> list Z -> res A) (m n : res (list Z)) : res A := let* x := m in let* y := n in f x y.
Definition res_fst {A B} (m : res (A * B)) : res A := let* r := m in Ok (fst r).
(** devel/tests/util.rs 22-41: [to_u256], [to_i256] *)
Definition to256 {c : Cfg} (lo hi : Z) : res (list Z) :=
  le64 (c := c) [lo mod 2 ^ 64; lo / 2 ^ 64; (hi mod 2 ^ 128) mod 2 ^ 64; (hi mod 2 ^ 128) / 2 ^ 64].

(** *** src/lib.rs 195-234 *)

Example add_test : both (fun c =>
  ap2 (wrapping_add false) (from_u8 1) (from_u8 1) = from_u8 2
  /\ ap2 (wrapping_add false) u_max_value u_max_value = le64 [M64 - 1; M64; M64; M64]
  /\ res_fst (ap2 (overflowing_add false) (from_u8 1) (from_u8 1)) = ap2 (wrapping_add false) (from_u8 1) (from_u8 1)
  /\ res_fst (ap2 (overflowing_add false) u_max_value u_max_value) = ap2 (wrapping_add false) u_max_value u_max_value).
Proof. run. Qed.

(** The first component of [data] is the least significant word in both byte orders. *)
Example endian_tests : forall be,
  let data := [0x123456; 0x789abc; 0xdef012; 0x345678] in both (fun c =>
  let int := MLayout.from_le_u64 (c := c) be data in
  let trip (f g : list Z -> res (list Z)) := (let* x := int in let* l := f x in g l) = int in
  ap (MLayout.to_le_u64 be) int = Ok data
  /\ trip (MLayout.to_le_bytes be) (MLayout.from_le_bytes be) /\ trip (MLayout.to_be_bytes be) (MLayout.from_be_bytes be)
  /\ trip (MLayout.to_ne_bytes be) (MLayout.from_ne_bytes be) /\ trip (MLayout.to_le_limbs be) (MLayout.from_le_limbs be)
  /\ trip (MLayout.to_be_limbs be) (MLayout.from_be_limbs be) /\ trip MLayout.to_ne_limbs MLayout.from_ne_limbs
  /\ trip (MLayout.to_le_wide be) (MLayout.from_le_wide be) /\ trip (MLayout.to_be_wide be) (MLayout.from_be_wide be)
  /\ trip (MLayout.to_ne_wide be) (MLayout.from_ne_wide be) /\ trip (MLayout.to_le_u32 be) (MLayout.from_le_u32 be)
  /\ trip (MLayout.to_be_u32 be) (MLayout.from_be_u32 be) /\ trip (MLayout.to_ne_u32 be) (MLayout.from_ne_u32 be)
  /\ trip (MLayout.to_le_u64 be) (MLayout.from_le_u64 be) /\ trip (MLayout.to_be_u64 be) (MLayout.from_be_u64 be)
  /\ trip (MLayout.to_ne_u64 be) (MLayout.from_ne_u64 be)).
Proof. intros []; run. Qed.

(** *** src/lib.rs 236-344: formatting *)

Definition plain : fmt := {| alternate := false; sign_plus := false; width := None; fill := [32] |}.
Definition alt : fmt := {| alternate := true; sign_plus := false; width := None; fill := [32] |}.
Definition text (s : string) : res (option (list Z)) := Ok (Some (str s)).

Example display_test : both (fun c =>
  ap u_display u_max_value = text "115792089237316195423570985008687907853269984665640564039457584007913129639935"
  /\ ap u_display (le64 [0; 0; 1; 0]) = text "340282366920938463463374607431768211456").
Proof. run. Qed.

Example exp_test : both (fun c =>
  ap (u_exp 101) u_max_value = text "1.15792089237316195423570985008687907853269984665640564039457584007913129639935e77"
  /\ ap (u_exp 101) (le64 [0; 0; 1; 0]) = text "3.40282366920938463463374607431768211456e38"
  /\ ap (u_exp 69) u_max_value = text "1.15792089237316195423570985008687907853269984665640564039457584007913129639935E77"
  /\ ap (u_exp 69) (le64 [0; 0; 1; 0]) = text "3.40282366920938463463374607431768211456E38").
Proof. run. Qed.

Example octal_test : both (fun c =>
  ap (fun x => u_octal x plain) u_max_value = text "17777777777777777777777777777777777777777777777777777777777777777777777777777777777777"
  /\ ap (fun x => u_octal x alt) u_max_value = text "0o17777777777777777777777777777777777777777777777777777777777777777777777777777777777777"
  /\ ap (fun x => u_octal x plain) (le64 [0; 0; 1; 0]) = text "4000000000000000000000000000000000000000000").
Proof. run. Qed.

(** 256 ones; 1 and 128 zeros *)
Example binary_test : both (fun c =>
  ap (fun x => u_binary x plain) u_max_value = Ok (Some (repeat 49 256))
  /\ ap (fun x => u_binary x alt) u_max_value = Ok (Some (str "0b" ++ repeat 49 256))
  /\ ap (fun x => u_binary x plain) (le64 [0; 0; 1; 0]) = Ok (Some (str "1" ++ repeat 48 128))).
Proof. run. Qed.

Example hex_test : both (fun c =>
  ap (fun x => u_lower_hex x plain) u_max_value = text "ffffffffffffffffffffffffffffffffffffffffffffffffffffffffffffffff"
  /\ ap (fun x => u_lower_hex x alt) u_max_value = text "0xffffffffffffffffffffffffffffffffffffffffffffffffffffffffffffffff"
  /\ ap (fun x => u_lower_hex x plain) (le64 [0; 0; 1; 0]) = text "100000000000000000000000000000000"
  /\ ap (fun x => u_upper_hex x plain) u_max_value = text "FFFFFFFFFFFFFFFFFFFFFFFFFFFFFFFFFFFFFFFFFFFFFFFFFFFFFFFFFFFFFFFF"
  /\ ap (fun x => u_upper_hex x alt) u_max_value = text "0xFFFFFFFFFFFFFFFFFFFFFFFFFFFFFFFFFFFFFFFFFFFFFFFFFFFFFFFFFFFFFFFF"
  /\ ap (fun x => u_upper_hex x plain) (le64 [0; 0; 1; 0]) = text "100000000000000000000000000000000").
Proof. run. Qed.

(** *** src/lib.rs 346-477: parsing *)

Definition is_err (m : res parsed) : bool := match m with Ok (PErr _) => true | _ => false end.
(** The helper [parse] of the tests: the text gives the number, and so does what the number displays as. *)
Definition parses {c : Cfg} (sg : bool) (radix : Z) (s : string) (m : res (list Z)) : Prop :=
  from_str_radix sg (str s) radix = (let* x := m in Ok (POk x))
  /\ (let* x := m in let* o := (if sg then s_display x plain else u_display x) in
      match o with Some t => from_str_radix sg t 10 | None => Panic end) = (let* x := m in Ok (POk x)).

Example u256_from_str_radix_test : both (fun c =>
  parses false 10 "115792089237316195423570985008687907853269984665640564039457584007913129639935" u_max_value
  /\ parses false 10 "+115792089237316195423570985008687907853269984665640564039457584007913129639935" u_max_value
  /\ parses false 16 "+ffffffffffffffffffffffffffffffffffffffffffffffffffffffffffffffff" u_max_value
  /\ parses false 16 "+ffffffffffffffff" (from_u128 0xffffffffffffffff)
  /\ parses false 10 "5124095576027427" (from_u128 0x123456789ab123)
  /\ parses false 16 "+123456789ab123" (from_u128 0x123456789ab123)).
Proof. run. Qed.

Example u256_from_str_radix_failing : both (fun c =>
  map (fun p => is_err (from_str_radix false (str (snd p)) (fst p)))
    [(10, "-15"); (16, "-0xFF"); (16, "+0xFF"); (16, "0xFF"); (10, "FF"); (10, "a9"); (10, "12.34"); (10, "1234_67");
     (10, "115792089237316195423570985008687907853269984665640564039457584007913129639936"); (10, "-123")]%string
  = repeat true 10).
Proof. run. Qed.

Example i256_from_str_radix_test : both (fun c =>
  parses true 10 "-57896044618658097711785492504343953926634992332820282019728792003956564819968" s_min_value
  /\ parses true 10 "+57896044618658097711785492504343953926634992332820282019728792003956564819967" s_max_value
  /\ parses true 16 "+ffffffffffffffff" (from_i128 0xffffffffffffffff)
  /\ parses true 10 "5124095576027427" (from_i128 0x123456789ab123)
  /\ parses true 16 "+123456789ab123" (from_i128 0x123456789ab123)
  /\ parses true 10 "-15" (from_i128 (-15)) /\ parses true 16 "-FF" (from_i128 (-255)) /\ parses true 16 "+FF" (from_i128 255)).
Proof. run. Qed.

Example i256_from_str_radix_failing : both (fun c =>
  map (fun p => is_err (from_str_radix true (str (snd p)) (fst p)))
    [(16, "-0xFF"); (16, "+0xFF"); (16, "0xFF"); (10, "FF"); (10, "a9"); (10, "12.34"); (10, "1234_67");
     (10, "57896044618658097711785492504343953926634992332820282019728792003956564819968");
     (10, "115792089237316195423570985008687907853269984665640564039457584007913129639935");
     (10, "115792089237316195423570985008687907853269984665640564039457584007913129639936");
     (16, "+ffffffffffffffffffffffffffffffffffffffffffffffffffffffffffffffff"); (10, "-1F")]%string
  = repeat true 12).
Proof. run. Qed.

(** *** devel/tests/ops.rs 1387-1615 *)

(** 1387-1410: [0 - MIN] overflows to [MIN]; [0 - (MIN + 1)] does not overflow *)
Example overflowing_sub_tests : both (fun c =>
  ap2 (wrapping_sub true) (to256 0 0) (to256 0 (- 2 ^ 127)) = to256 0 (- 2 ^ 127)
  /\ ap2 (overflowing_sub true) (to256 0 0) (to256 0 (- 2 ^ 127)) = (let* m := to256 0 (- 2 ^ 127) in Ok (m, true))
  /\ ap2 (checked_sub true) (to256 0 0) (to256 0 (- 2 ^ 127)) = Ok None
  /\ ap2 (overflowing_sub true) (le64 [0; 0; 0; 0]) (le64 [1; 0; 0; 2 ^ 63]) = (let* z := to256 M128 (2 ^ 127 - 1) in Ok (z, false))
  /\ ap2 (checked_sub true) (le64 [0; 0; 0; 0]) (le64 [1; 0; 0; 2 ^ 63]) = (let* z := to256 M128 (2 ^ 127 - 1) in Ok (Some z))).
Proof. run. Qed.

(** The word of the tests at bit 128: [get_wide(2)] with 32-bit limbs, else [get_wide(1)]. *)
Definition hi_wide {c : Cfg} (x : list Z) : res Z := get_wide x (if W =? 32 then 2 else 1).

(** 1412-1494: negation and absolute values; [le64 [0; 0; M64; M64]] is [-2^128] *)
Example neg_abs_tests : both (fun c =>
  let z := le64 [0; 0; 0; 0] in let m := le64 [0; 0; M64; M64] in let m1 := to256 M128 (-1) in
  let is (w0 w1 : Z) (r : res (list Z)) := ap (fun x => get_wide x 0) r = Ok w0 /\ ap hi_wide r = Ok w1 in
  is 0 0 (ap s_wrapping_neg z) /\ is 0 0 (ap s_saturating_neg z) /\ is 0 1 (ap s_saturating_neg m)
  /\ is 0 1 (unwrap (ap s_checked_neg m)) /\ is 0 0 (ap s_saturating_abs z) /\ is 0 1 (ap s_saturating_abs m)
  /\ is 1 0 (ap s_saturating_abs m1) /\ is 0 0 (ap s_abs z) /\ ap s_checked_abs (to256 0 (- 2 ^ 127)) = Ok None
  /\ is 1 0 (unwrap (ap s_checked_abs m1)) /\ is 0 1 (ap2 (abs_diff true) z m)).
Proof. run. Qed.

(** 1496-1505 *)
Example midpoint_tests : both (fun c =>
  (let* m := ap2 s_midpoint (to256 3 0) (le64 [0; 0; M64; M64]) in s_display m plain) = text "-170141183460469231731687303715884105726").
Proof. run. Qed.

(** 1507-1520, 1606-1615 *)
Example next_power_of_two_tests : both (fun c =>
  let np r := ap wrapping_next_power_of_two r in
  np (le64 [0; 0; 0; 0]) = to256 1 0 /\ np (to256 1 0) = to256 1 0 /\ np (to256 2 0) = to256 2 0 /\ np (to256 3 0) = to256 4 0
  /\ u64s (np (le64 [0; 2; 0; 0])) = Ok [0; 2; 0; 0] /\ u64s (np (le64 [0; 3; 0; 0])) = Ok [0; 4; 0; 0]).
Proof. run. Qed.

(** 1522-1540, 1589-1596; the second only with 64-bit limbs *)
Example wrapping_scalar_tests : both (fun c =>
  ap (fun x => wrapping_is SAdd KLimb x (-1)) (le64 [0; 0; 0; 0]) = to256 M128 (-1)
  /\ (W = 64 -> ap (fun x => wrapping_us SMul KLimb true x 9223372036854775808) (to256 2 0) = to256 18446744073709551616 0)
  /\ ap (fun x => wrapping_is SMul KLimb x (-1)) (to256 0 1) = le64 [0; 0; M64; M64]
  /\ ap (fun x => wrapping_is SAdd K64 x 2147483648) (le64 [0; 0; 0; 0]) = le64 [2147483648; 0; 0; 0]).
Proof. vm_compute; repeat split; try reflexivity; intros; discriminate. Qed.

(** 1542-1549 *)
Example checked_rem_tests : both (fun c =>
  let m := le64 [0; 0; M64; M64] in
  ap2 (wrapping_div_rem true) m (to256 1 1) = (let* q := from_i8 0 in let* r := m in Ok (q, r))).
Proof. run. Qed.

(** 1551-1561, 64-bit limbs *)
Example checked_rem_ulimb_tests :
  ap (fun x => @wrapping_div_rem_us c256_64 KLimb true x M64) (@le64 c256_64 [0; 0; M64; M64])
  = (let* q := @from_i128 c256_64 (-18446744073709551618) in Ok (q, 18446744073709551614)).
Proof. run. Qed.

(** 1563-1572 *)
Example widening_mul_tests : both (fun c =>
  let x := le64 [0; 0; 1; 0] in let y := le64 [1; 0; 0; 0] in
  let p := ap2 widening_mul x y in
  res_fst p = ap2 (wrapping_mul false) x y /\ u64s (res_fst p) = Ok [0; 0; 1; 0]
  /\ u64s (let* r := p in Ok (snd r)) = Ok [0; 0; 0; 0] /\ (let* r := p in Ok (snd r)) = ap2 high_mul x y).
Proof. run. Qed.

(** 1598-1604 *)
Example u256_rotate_right_tests : both (fun c =>
  u64s (ap (fun x => rotate_right x 1) (le64 [0; 0; 1; 0])) = Ok [0; 9223372036854775808; 0; 0]).
Proof. run. Qed.

(** *** Documentation examples: src/shared/bitops.rs 47-57 (for signed types), src/uint/ops.rs 277-278 *)

Example leading_zeros_doc : both (fun c =>
  ap leading_zeros (ap (fun x => op_shr true true 32 x 2) s_max_value) = Ok 3 /\ ap leading_zeros s_min_value = Ok 0
  /\ ap leading_zeros (from_u8 0) = Ok 256 /\ ap leading_zeros s_max_value = Ok 1).
Proof. run. Qed.
(** one-limb array of 32 bits *)
Example widening_mul_doc :
  let c1 := {| W := 32; N := 1; chk := true; dbg := true |} in
  @mul_widening c1 [5] [2] = Ok ([10], [0]) /\ @mul_widening c1 [1000000000] [10] = Ok ([1410065408], [2]).
Proof. run. Qed.
