(** * Model: the repository's random tests of the 256-bit types

    devel/tests/ops.rs checks each operation on random inputs against the
    256-bit types of the [bnum] library, and each scalar form against the full
    one.  Here every such test is a function from its inputs to [Ok true] (the
    test holds), [Ok false] (it fails) or [Panic]; a list pairs the functions
    with the names they have in the file, less the suffix [_quickcheck].

    [bnum] is not part of the repository.  Its answers are written as plain
    integer arithmetic; MIN / -1 is taken to wrap in [div_floor] and
    [div_ceil], and [midpoint] to round toward zero on signed operands.
    The machine is little-endian ([be] = [false]), so memory order is logical
    order.  The tests marked [#[test]] are in RepoTests.v. *)

Require Import String ZArith List Bool.
From Verif Require Import Prim Spec MAdd MMul MShift MCore MArith MDiv MApi MScalar MTraits MForms MLayout.
Import ListNotations.
Local Open Scope string_scope.
Local Open Scope list_scope.
Local Open Scope Z_scope.

(** ** The other library's answers *)

Definition lo256 (sg : bool) : Z := if sg then - 2 ^ 255 else 0.
Definition hi256 (sg : bool) : Z := if sg then 2 ^ 255 - 1 else 2 ^ 256 - 1.
Definition in256 (sg : bool) (v : Z) : bool := (lo256 sg <=? v) && (v <=? hi256 sg).
Definition over256 (sg : bool) (v : Z) : Z * bool := (v, negb (in256 sg v)).
Definition check256 (sg : bool) (v : Z) : option Z := if in256 sg v then Some v else None.
Definition sat256 (sg : bool) (v : Z) : Z := Z.max (lo256 sg) (Z.min (hi256 sg) v).
(** the 256-bit pattern of a number *)
Definition pat256 (v : Z) : Z := v mod 2 ^ 256.
(** number of bits equal to [t]; length of the run of such bits at the top and
    at the bottom, among the low [n] bits *)
Fixpoint count_bits (t : bool) (v : Z) (n : nat) : Z :=
  match n with O => 0 | S n => b2z (eqb (Z.testbit v (Z.of_nat n)) t) + count_bits t v n end.
Fixpoint top_bits (t : bool) (v : Z) (n : nat) : Z :=
  match n with O => 0 | S n => if eqb (Z.testbit v (Z.of_nat n)) t then 1 + top_bits t v n else 0 end.
Fixpoint low_bits (t : bool) (v : Z) (n : nat) : Z :=
  match n with O => 0 | S n => if eqb (Z.odd v) t then 1 + low_bits t (v / 2) n else 0 end.
(** the pattern turned left by [n] places *)
Definition turn256 (v n : Z) : Z :=
  let s := n mod 256 in pat256 v * 2 ^ s mod 2 ^ 256 + pat256 v * 2 ^ s / 2 ^ 256.
Fixpoint mirror (v : Z) (n : nat) : Z :=
  match n with O => 0 | S n => v mod 2 * 2 ^ Z.of_nat n + mirror (v / 2) n end.
(** the smallest power of two not below the number *)
Definition pow2_up (v : Z) : Z := 2 ^ Z.log2_up v.

Section M.
Context {c : Cfg}.

(** ** devel/tests/util.rs *)

(** util.rs 8-20 [to_ubnum], [to_ibnum]: the number with low half [x] and high
    half [y] *)
Definition num256 (x y : Z) : Z := x + 2 ^ 128 * y.
(** util.rs 22-37 [to_u256] *)
Definition to_u256 (x y : Z) : res (list Z) :=
  if W =? 64 then
    let* x1 := ushr 128 x 64 in
    let* y1 := ushr 128 y 64 in
    from_le_u64 false [ucast 64 x; ucast 64 x1; ucast 64 y; ucast 64 y1]
  else
    let* x1 := ushr 128 x 32 in
    let* x2 := ushr 128 x 64 in
    let* x3 := ushr 128 x 96 in
    let* y1 := ushr 128 y 32 in
    let* y2 := ushr 128 y 64 in
    let* y3 := ushr 128 y 96 in
    from_le_u32 false [ucast 32 x; ucast 32 x1; ucast 32 x2; ucast 32 x3; ucast 32 y; ucast 32 y1; ucast 32 y2; ucast 32 y3].
(** util.rs 39-41 [to_i256]; [sg] selects the function *)
Definition operand (sg : bool) (x y : Z) : res (list Z) :=
  if sg then let* u := to_u256 x (ucast 128 y) in as_signed u else to_u256 x y.

(** The closures the macros pass as [$cmp]; a byte comparison reads
    [to_le_bytes] of both sides. *)
Definition bytes_eqb (a b : list Z) : bool := if list_eq_dec Z.eq_dec a b then true else false.
(** util.rs 76-92, 190-206 [wrap] *)
Definition same_wrap (v : Z) (r : list Z) : res bool :=
  let* b := to_le_bytes false r in Ok (bytes_eqb (le_bytes 32 v) b).
(** util.rs 94-117, 208-231 [over] *)
Definition same_over (v : Z * bool) (r : list Z * bool) : res bool :=
  let* e := same_wrap (fst v) (fst r) in Ok (e && eqb (snd v) (snd r)).
(** util.rs 119-142, 233-256 [check] *)
Definition same_check (v : option Z) (r : option (list Z)) : res bool :=
  match v, r with
  | Some v, Some r => same_wrap v r
  | None, None => Ok true
  | _, _ => Ok false
  end.
(** util.rs 144-154, 258-268 [scalar] *)
Definition same_int (v r : Z) : res bool := Ok (v =? r).
Definition same_bool (v r : bool) : res bool := Ok (eqb v r).
Definition same_int_opt (v r : option Z) : res bool :=
  Ok (match v, r with Some v, Some r => v =? r | None, None => true | _, _ => false end).

(** util.rs 44-74, 158-188: the same call on both libraries *)
Definition ask1 {A B} (sg : bool) (theirs : Z -> A) (ours : list Z -> res B) (cmp : A -> B -> res bool) (x0 x1 : Z) : res bool :=
  let* x := operand sg x0 x1 in
  let* r := ours x in
  cmp (theirs (num256 x0 x1)) r.
Definition ask_n {A B} (sg : bool) (theirs : Z -> Z -> A) (ours : list Z -> Z -> res B) (cmp : A -> B -> res bool) (x0 x1 y : Z) : res bool :=
  let* x := operand sg x0 x1 in
  let* r := ours x y in
  cmp (theirs (num256 x0 x1) y) r.
Definition ask2 {A B} (sg : bool) (theirs : Z -> Z -> A) (ours : list Z -> list Z -> res B) (cmp : A -> B -> res bool)
    (x0 x1 y0 y1 : Z) : res bool :=
  let* x := operand sg x0 x1 in
  let* y := operand sg y0 y1 in
  let* r := ours x y in
  cmp (theirs (num256 x0 x1) (num256 y0 y1)) r.
(** [if y0 != 0 && y1 != 0 { .. } else { true }] around the division tests *)
Definition guarded (t : Z -> Z -> Z -> Z -> res bool) (x0 x1 y0 y1 : Z) : res bool :=
  if negb (y0 =? 0) && negb (y1 =? 0) then t x0 x1 y0 y1 else Ok true.

(** ** devel/tests/ops.rs 6-947: two operands *)

Definition test1 : Type := string * (Z -> Z -> res bool).
Definition test_n : Type := string * (Z -> Z -> Z -> res bool).
Definition test2 : Type := string * (Z -> Z -> Z -> Z -> res bool).

(** ops.rs 7-21, 55-65, 99-121, 147-149 *)
Definition u256_pairs : list test2 :=
  [ ("u256_wrapping_add", ask2 false Z.add (wrapping_add false) same_wrap);
    ("u256_wrapping_sub", ask2 false Z.sub (wrapping_sub false) same_wrap);
    ("u256_wrapping_mul", ask2 false Z.mul (wrapping_mul false) same_wrap);
    ("u256_abs_diff", ask2 false (fun x y => Z.abs (x - y)) (abs_diff false) same_wrap);
    ("u256_overflowing_add", ask2 false (fun x y => over256 false (x + y)) (overflowing_add false) same_over);
    ("u256_overflowing_sub", ask2 false (fun x y => over256 false (x - y)) (overflowing_sub false) same_over);
    ("u256_overflowing_mul", ask2 false (fun x y => over256 false (x * y)) (overflowing_mul false) same_over);
    ("u256_checked_add", ask2 false (fun x y => check256 false (x + y)) (checked_add false) same_check);
    ("u256_checked_sub", ask2 false (fun x y => check256 false (x - y)) (checked_sub false) same_check);
    ("u256_checked_mul", ask2 false (fun x y => check256 false (x * y)) (checked_mul false) same_check);
    ("u256_saturating_add", ask2 false (fun x y => sat256 false (x + y)) u_saturating_add same_wrap);
    ("u256_saturating_sub", ask2 false (fun x y => sat256 false (x - y)) u_saturating_sub same_wrap);
    ("u256_saturating_mul", ask2 false (fun x y => sat256 false (x * y)) u_saturating_mul same_wrap);
    ("u256_midpoint", ask2 false (fun x y => (x + y) / 2) u_midpoint same_wrap) ].
(** ops.rs 432-446, 468-474, 496-502, 524-526, 667-669, 687-691 *)
Definition i256_pairs : list test2 :=
  [ ("i256_wrapping_add", ask2 true Z.add (wrapping_add true) same_wrap);
    ("i256_wrapping_sub", ask2 true Z.sub (wrapping_sub true) same_wrap);
    ("i256_saturating_sub", ask2 true (fun x y => sat256 true (x - y)) s_saturating_sub same_wrap);
    ("i256_wrapping_mul", ask2 true Z.mul (wrapping_mul true) same_wrap);
    ("i256_overflowing_add", ask2 true (fun x y => over256 true (x + y)) (overflowing_add true) same_over);
    ("i256_overflowing_sub", ask2 true (fun x y => over256 true (x - y)) (overflowing_sub true) same_over);
    ("i256_checked_add", ask2 true (fun x y => check256 true (x + y)) (checked_add true) same_check);
    ("i256_checked_sub", ask2 true (fun x y => check256 true (x - y)) (checked_sub true) same_check);
    ("i256_midpoint", ask2 true (fun x y => Z.quot (x + y) 2) s_midpoint same_wrap);
    ("i256_saturating_add", ask2 true (fun x y => sat256 true (x + y)) s_saturating_add same_wrap);
    ("i256_abs_diff", ask2 true (fun x y => Z.abs (x - y)) (abs_diff true) same_wrap) ].
(** ops.rs 448-450, 476-478, 504-506: products of signed operands *)
Definition i256_products : list test2 :=
  [ ("i256_saturating_mul", ask2 true (fun x y => sat256 true (x * y)) s_saturating_mul same_wrap);
    ("i256_overflowing_mul", ask2 true (fun x y => over256 true (x * y)) (overflowing_mul true) same_over);
    ("i256_checked_mul", ask2 true (fun x y => check256 true (x * y)) (checked_mul true) same_check) ].
(** ops.rs 23-53, 67-97, 123-145: division of unsigned operands *)
Definition u256_divisions : list test2 :=
  [ ("u256_wrapping_div", guarded (ask2 false Z.div (wrapping_div false) same_wrap));
    ("u256_wrapping_rem", guarded (ask2 false Z.modulo (wrapping_rem false) same_wrap));
    ("u256_div_floor", guarded (ask2 false Z.div u_div_floor same_wrap));
    ("u256_div_ceil", guarded (ask2 false (fun x y => - (- x / y)) u_div_ceil same_wrap));
    ("u256_overflowing_div", guarded (ask2 false (fun x y => over256 false (x / y)) (overflowing_div false) same_over));
    ("u256_overflowing_rem", guarded (ask2 false (fun x y => over256 false (x mod y)) (overflowing_rem false) same_over));
    ("u256_overflowing_div_euclid", guarded (ask2 false (fun x y => over256 false (x / y)) (overflowing_div_euclid false) same_over));
    ("u256_overflowing_rem_euclid", guarded (ask2 false (fun x y => over256 false (x mod y)) (overflowing_rem_euclid false) same_over));
    ("u256_checked_next_multiple_of", guarded (ask2 false (fun x y => check256 false (x + - x mod y)) u_checked_next_multiple_of same_check));
    ("u256_checked_div", guarded (ask2 false (fun x y => check256 false (x / y)) (checked_div false) same_check));
    ("u256_checked_rem", guarded (ask2 false (fun x y => check256 false (x mod y)) (checked_rem false) same_check)) ].
(** The remainder forms answer [None] when the quotient does not fit. *)
Definition check_rem (q r : Z) : option Z := if in256 true q then Some r else None.
(** ops.rs 452-466, 488-494, 508-522, 528-542, 671-685: division of signed operands *)
Definition i256_divisions : list test2 :=
  [ ("i256_wrapping_div", guarded (ask2 true Z.quot (wrapping_div true) same_wrap));
    ("i256_saturating_div", guarded (ask2 true (fun x y => sat256 true (Z.quot x y)) (saturating_div true) same_wrap));
    ("i256_overflowing_div", guarded (ask2 true (fun x y => over256 true (Z.quot x y)) (overflowing_div true) same_over));
    ("i256_checked_div", guarded (ask2 true (fun x y => check256 true (Z.quot x y)) (checked_div true) same_check));
    ("i256_checked_rem", guarded (ask2 true (fun x y => check_rem (Z.quot x y) (Z.rem x y)) (checked_rem true) same_check));
    ("i256_checked_div_euclid", guarded (ask2 true (fun x y => check256 true (Z.sgn y * (x / Z.abs y))) (checked_div_euclid true) same_check));
    ("i256_checked_rem_euclid", guarded (ask2 true (fun x y => check_rem (Z.sgn y * (x / Z.abs y)) (x mod Z.abs y)) (checked_rem_euclid true) same_check));
    ("i256_div_floor", guarded (ask2 true Z.div s_div_floor same_wrap));
    ("i256_div_ceil", guarded (ask2 true (fun x y => - (- x / y)) s_div_ceil same_wrap)) ].
(** ops.rs 424-430; both sides are this crate *)
Definition u256_high_mul (x0 x1 y0 y1 : Z) : res bool :=
  let* x := operand false x0 x1 in
  let* y := operand false y0 y1 in
  let* (_, expected) := widening_mul x y in
  let* actual := high_mul x y in
  Ok (derived_eq expected actual).

(** ** One operand and a [u32] *)

(** ops.rs 151-169, 207-213 *)
Definition u256_amounts : list test_n :=
  [ ("u256_checked_shl", ask_n false (fun x n => if n <? 256 then Some (x * 2 ^ n) else None) checked_shl same_check);
    ("u256_checked_shr", ask_n false (fun x n => if n <? 256 then Some (x / 2 ^ n) else None) (checked_shr false) same_check);
    ("u256_wrapping_shl", ask_n false (fun x n => x * 2 ^ (n mod 256)) wrapping_shl same_wrap);
    ("u256_wrapping_shr", ask_n false (fun x n => x / 2 ^ (n mod 256)) (wrapping_shr false) same_wrap);
    ("u256_checked_pow", ask_n false (fun x n => check256 false (x ^ n)) (checked_pow false) same_check);
    ("u256_rotate_left", ask_n false turn256 rotate_left same_wrap);
    ("u256_rotate_right", ask_n false (fun x n => turn256 x (- n)) rotate_right same_wrap) ].
(** ops.rs 480-486, 544-550, 655-665 *)
Definition i256_amounts : list test_n :=
  [ ("i256_checked_shl", ask_n true (fun x n => if n <? 256 then Some (x * 2 ^ n) else None) checked_shl same_check);
    ("i256_checked_shr", ask_n true (fun x n => if n <? 256 then Some (x / 2 ^ n) else None) (checked_shr true) same_check);
    ("i256_rotate_left", ask_n true turn256 rotate_left same_wrap);
    ("i256_rotate_right", ask_n true (fun x n => turn256 x (- n)) rotate_right same_wrap);
    ("i256_wrapping_pow", ask_n true (fun x n => x ^ n) (wrapping_pow true) same_wrap);
    ("i256_wrapping_shl", ask_n true (fun x n => x * 2 ^ (n mod 256)) wrapping_shl same_wrap);
    ("i256_wrapping_shr", ask_n true (fun x n => x / 2 ^ (n mod 256)) (wrapping_shr true) same_wrap) ].
(** ops.rs 647-653: powers of a signed base *)
Definition i256_powers : list test_n :=
  [ ("i256_checked_pow", ask_n true (fun x n => check256 true (x ^ n)) (checked_pow true) same_check);
    ("i256_saturating_pow", ask_n true (fun x n => sat256 true (x ^ n)) s_saturating_pow same_wrap) ].

(** ** One operand *)

(** ops.rs 171-201, 552-582: the same tests on both types *)
Definition bit_tests (sg : bool) : list test1 :=
  [ ("count_ones", ask1 sg (fun x => count_bits true x 256) count_ones same_int);
    ("count_zeros", ask1 sg (fun x => count_bits false x 256) count_zeros same_int);
    ("leading_zeros", ask1 sg (fun x => top_bits false x 256) leading_zeros same_int);
    ("leading_ones", ask1 sg (fun x => top_bits true x 256) leading_ones same_int);
    ("trailing_zeros", ask1 sg (fun x => low_bits false x 256) trailing_zeros same_int);
    ("trailing_ones", ask1 sg (fun x => low_bits true x 256) trailing_ones same_int);
    ("swap_bytes", ask1 sg (fun x => le_value (rev (le_bytes 32 x))) mem_swap_bytes same_wrap);
    ("reverse_bits", ask1 sg (fun x => mirror x 256) mem_reverse_bits same_wrap) ].
(** ops.rs 203-205, 215-234, 416-422; [x1.max(1)] in [ilog2] *)
Definition u256_singles : list test1 :=
  [ ("u256_wrapping_neg", ask1 false Z.opp u_wrapping_neg same_wrap);
    ("u256_cast_signed", ask1 false (fun x => x) cast_signed same_wrap);
    ("u256_ilog2", fun x0 x1 => ask1 false Z.log2 (ilog2 false) same_int x0 (Z.max x1 1));
    ("u256_is_power_of_two", ask1 false (fun x => x =? 2 ^ Z.log2 x) is_power_of_two same_bool);
    ("u256_wrapping_next_power_of_two", ask1 false pow2_up wrapping_next_power_of_two same_wrap);
    ("u256_checked_next_power_of_two", ask1 false (fun x => check256 false (pow2_up x)) checked_next_power_of_two same_check);
    ("u256_low", fun x0 x1 => let* x := operand false x0 x1 in let* l := low x in let* v := as_u128 l in Ok (v =? x0));
    ("u256_high", fun x0 x1 => let* x := operand false x0 x1 in let* h := high x in let* v := as_u128 h in Ok (v =? x1)) ].
(** ops.rs 594-599: the argument [x1] is a [u128] *)
Definition i256_ilog2 (x0 x1 : Z) : res bool :=
  let x1 := scast 128 (Z.min x1 (2 ^ 127 - 1)) in
  ask1 true Z.log2 (ilog2 true) same_int x0 (Z.max x1 1).
(** ops.rs 584-592, 601-645; [abs] panics on the minimum, and the test then
    uses [wrapping_abs] *)
Definition i256_singles : list test1 :=
  [ ("i256_wrapping_neg", ask1 true Z.opp s_wrapping_neg same_wrap);
    ("i256_cast_unsigned", ask1 true (fun x => x) cast_unsigned same_wrap);
    ("i256_checked_ilog2", ask1 true (fun x => if x <=? 0 then None else Some (Z.log2 x)) (checked_ilog2 true) same_int_opt);
    ("i256_saturating_neg", ask1 true (fun x => sat256 true (- x)) s_saturating_neg same_wrap);
    ("i256_saturating_abs", ask1 true (fun x => sat256 true (Z.abs x)) s_saturating_abs same_wrap);
    ("i256_wrapping_abs", ask1 true Z.abs s_wrapping_abs same_wrap);
    ("i256_unsigned_abs", ask1 true Z.abs unsigned_abs same_wrap);
    ("i256_abs", fun x0 x1 =>
       if negb (x0 =? 2 ^ 128 - 1) && negb (x1 =? - 2 ^ 127) then ask1 true Z.abs s_abs same_wrap x0 x1
       else ask1 true Z.abs s_wrapping_abs same_wrap x0 x1);
    ("i256_signum", ask1 true Z.sgn signum same_wrap);
    ("i256_is_positive", ask1 true (fun x => 0 <? x) is_positive same_bool);
    ("i256_is_negative", ask1 true (fun x => x <? 0) is_negative same_bool);
    ("i256_checked_abs", ask1 true (fun x => check256 true (Z.abs x)) s_checked_abs same_check) ].

(** ** One operand and a scalar: both sides are this crate

    util.rs 271-353.  [ps] is the signedness of the scalar type and [k] its
    kind; [u256::from(y)], [y.into()] pick the [From] impl of the primitive
    type the kind stands for.  ops.rs 236-414, 696-946, 953-1383 instantiate
    the functions below with the kinds other than [K128]. *)
Definition scalar_prim (k : skind) : prim :=
  match k with
  | KLimb => if W =? 64 then P64 else P32
  | KWide => if W =? 64 then P128 else P64
  | K32 => P32 | K64 => P64 | K128 => P128
  end.
Definition into_full (ps : bool) (k : skind) (y : Z) : res (list Z) := from_trait ps (scalar_prim k) y.

Definition ours_wrap (x y : list Z) : res bool :=
  let* a := to_le_bytes false x in let* b := to_le_bytes false y in Ok (bytes_eqb a b).
Definition ours_over (x y : list Z * bool) : res bool :=
  let* e := ours_wrap (fst x) (fst y) in Ok (e && eqb (snd x) (snd y)).
Definition ours_check (x y : option (list Z)) : res bool :=
  match x, y with Some x, Some y => ours_wrap x y | None, None => Ok true | _, _ => Ok false end.
(** ops.rs 270-272, 330-332, 390-392 and siblings: the remainder of the scalar
    form is a scalar *)
Definition ours_rem (ps : bool) (k : skind) (x : list Z) (r : Z) : res bool :=
  let* r := into_full ps k r in Ok (derived_eq x r).
Definition ours_rem_over (ps : bool) (k : skind) (x : list Z * bool) (r : Z * bool) : res bool :=
  let* e := ours_rem ps k (fst x) (fst r) in Ok (e && eqb (snd x) (snd r)).
Definition ours_rem_check (ps : bool) (k : skind) (x : option (list Z)) (r : option Z) : res bool :=
  match x, r with
  | Some x, Some r => let* r := into_full ps k r in ours_wrap x r
  | None, None => Ok true
  | _, _ => Ok false
  end.

Definition ask_s {A B} (sg ps : bool) (k : skind) (full : list Z -> list Z -> res A) (short : list Z -> Z -> res B)
    (cmp : A -> B -> res bool) (x0 x1 y : Z) : res bool :=
  let* x := operand sg x0 x1 in
  let* fy := into_full ps k y in
  let* f := full x fy in
  let* l := short x y in
  cmp f l.

(** the full form of an operation *)
Definition full_wrapping (o : sop) (sg : bool) : list Z -> list Z -> res (list Z) :=
  match o with SAdd => wrapping_add sg | SSub => wrapping_sub sg | SMul => wrapping_mul sg end.
Definition full_overflowing (o : sop) (sg : bool) : list Z -> list Z -> res (list Z * bool) :=
  match o with SAdd => overflowing_add sg | SSub => overflowing_sub sg | SMul => overflowing_mul sg end.
Definition full_checked (o : sop) (sg : bool) : list Z -> list Z -> res (option (list Z)) :=
  match o with SAdd => checked_add sg | SSub => checked_sub sg | SMul => checked_mul sg end.

(** [{u256,i256}_{wrapping,overflowing,checked}_{add,sub,mul}_{ulimb,uwide,u32,u64}]:
    ops.rs 236-258, 296-318, 356-378, 696-766, 953-963, 983-993, 1013-1023,
    1043-1077, 1171-1181, 1201-1211, 1231-1241, 1261-1295 *)
Definition unsigned_scalar (o : sop) (k : skind) (sg : bool) : list test_n :=
  [ ("wrapping", ask_s sg false k (full_wrapping o sg) (wrapping_us o k sg) ours_wrap);
    ("overflowing", ask_s sg false k (full_overflowing o sg) (overflowing_us o k sg) ours_over);
    ("checked", ask_s sg false k (full_checked o sg) (checked_us o k sg) ours_check) ].
(** [i256_{wrapping,overflowing,checked}_{add,sub,mul}_{ilimb,iwide,i32,i64}]:
    ops.rs 768-790, 828-850, 888-910, 1079-1089, 1109-1119, 1139-1149,
    1297-1307, 1327-1337, 1357-1367 *)
Definition signed_scalar (o : sop) (k : skind) : list test_n :=
  [ ("wrapping", ask_s true true k (full_wrapping o true) (wrapping_is o k) ours_wrap);
    ("overflowing", ask_s true true k (full_overflowing o true) (overflowing_is o k) ours_over);
    ("checked", ask_s true true k (full_checked o true) (checked_is o k) ours_check) ].

(** [if y != 0 { .. } else { true }] *)
Definition nonzero (t : Z -> Z -> Z -> res bool) (x0 x1 y : Z) : res bool :=
  if y =? 0 then Ok true else t x0 x1 y.
(** [if y == 0 || (y != -1 && x0 == 0 && x1 == i128::MIN) { true } else { .. }] *)
Definition not_min (t : Z -> Z -> Z -> res bool) (x0 x1 y : Z) : res bool :=
  if (y =? 0) || (negb (y =? -1) && (x0 =? 0) && (x1 =? - 2 ^ 127)) then Ok true else t x0 x1 y.
(** [u256_{wrapping,overflowing,checked}_{div,rem}_{ulimb,uwide,u32,u64}]:
    ops.rs 260-294, 320-354, 380-414, 965-981, 995-1011, 1025-1041, 1183-1199,
    1213-1229, 1243-1259 *)
Definition unsigned_scalar_division (k : skind) : list test_n :=
  [ ("wrapping_div", nonzero (ask_s false false k (wrapping_div false) (wrapping_div_us k false) ours_wrap));
    ("wrapping_rem", nonzero (ask_s false false k (wrapping_rem false) (wrapping_rem_us k false) (ours_rem false k)));
    ("overflowing_div", nonzero (ask_s false false k (overflowing_div false) (overflowing_div_us k false) ours_over));
    ("overflowing_rem", nonzero (ask_s false false k (overflowing_rem false) (overflowing_rem_us k false) (ours_rem_over false k)));
    ("checked_div", nonzero (ask_s false false k (checked_div false) (checked_div_us k false) ours_check));
    ("checked_rem", nonzero (ask_s false false k (checked_rem false) (checked_rem_us k false) (ours_rem_check false k))) ].
(** [i256_{wrapping,overflowing,checked}_{div,rem}_{ilimb,iwide,i32,i64}]:
    ops.rs 792-826, 852-886, 912-946, 1091-1107, 1121-1137, 1151-1167,
    1309-1325, 1339-1355, 1369-1385; [from_iwide] (823) and [from_i32] (1104)
    are what the [From] impls call *)
Definition signed_scalar_division (k : skind) : list test_n :=
  [ ("wrapping_div", not_min (ask_s true true k (wrapping_div true) (wrapping_div_is k) ours_wrap));
    ("wrapping_rem", not_min (ask_s true true k (wrapping_rem true) (wrapping_rem_is k) (ours_rem true k)));
    ("overflowing_div", not_min (ask_s true true k (overflowing_div true) (overflowing_div_is k) ours_over));
    ("overflowing_rem", not_min (ask_s true true k (overflowing_rem true) (overflowing_rem_is k) (ours_rem_over true k)));
    ("checked_div", not_min (ask_s true true k (checked_div true) (checked_div_is k) ours_check));
    ("checked_rem", not_min (ask_s true true k (checked_rem true) (checked_rem_is k) (ours_rem_check true k))) ].
End M.
