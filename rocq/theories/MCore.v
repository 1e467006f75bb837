(** * Model of the core of the integer types

    Storage, constants, primitive casts, bit operations, comparison, shifts
    and rotations of one unsigned ([uN]) and one signed ([iN]) type of [N]
    limbs of [W] bits.  A value of either type is its limb array in logical
    (least significant first) order: the code reads and writes limbs through
    [ne_index!] (src/util.rs 20-28), or uniformly over all of them.  What
    depends on the byte order of the machine is modelled in MLayout.v.

    Code that src/shared instantiates for both types takes [sg : bool]
    ([Self::IS_SIGNED], src/uint/constants.rs 33 and src/int/constants.rs 37)
    where the two instances differ. *)

Require Import ZArith List Bool.
From Verif Require Import Prim MShift MAdd.
Import ListNotations.
Local Open Scope Z_scope.

(** ** Bit counting on primitives (std) *)

(** [x.count_ones()] of a [w]-bit primitive *)
Definition p_count_ones (w x : Z) : Z :=
  Z.of_nat (length (filter (fun i => Z.testbit x (Z.of_nat i)) (seq 0 (Z.to_nat w)))).
(** [x.leading_zeros()] *)
Definition p_leading_zeros (w x : Z) : Z := if x =? 0 then w else w - 1 - Z.log2 x.
Fixpoint ctz_pos (p : positive) : Z :=
  match p with
  | xO q => 1 + ctz_pos q
  | _ => 0
  end.
(** [x.trailing_zeros()] *)
Definition p_trailing_zeros (w x : Z) : Z :=
  match x with
  | Zpos p => ctz_pos p
  | _ => w
  end.

Section M.
Context {c : Cfg}.

(** ** Storage and constants *)

(** shared/constants.rs 35 [BITS] (the type's [$bits]; [LIMBS] at 40 is
    [BITS / 8 / size_of ULimb], i.e. [BITS = LIMBS * ULimb::BITS]). *)
Definition tbits : Z := Z.of_nat N * W.
(** shared/constants.rs 43 [WIDE] *)
Definition WIDE : nat := N / 2.

(** shared/endian.rs 286-291 [from_ne_limbs] *)
Definition mk (l : list Z) : res (list Z) :=
  let* _ := assert_ (tbits mod 128 =? 0) in
  Ok l.

(** shared/endian.rs 370-376 [from_ne_wide] (through [from_ne_bytes] 193-199,
    which ends in [from_ne_limbs]) *)
Definition from_ne_wide (wd : list Z) : res (list Z) := mk (from_wide wd).

(** uint/constants.rs 21-23 [min_value] ([MIN], shared/constants.rs 16) *)
Definition u_min_value : res (list Z) := mk (repeat 0 N).
(** uint/constants.rs 28-30 [max_value] ([MAX], shared/constants.rs 23) *)
Definition u_max_value : res (list Z) := mk (repeat (2 ^ W - 1) N).
(** int/constants.rs 21-25 [min_value] *)
Definition s_min_value : res (list Z) :=
  let limbs := repeat 0 N in
  let* limbs := set limbs (N - 1) (ucast W (- 2 ^ (W - 1))) in
  mk limbs.
(** int/constants.rs 30-34 [max_value] *)
Definition s_max_value : res (list Z) :=
  let limbs := repeat (2 ^ W - 1) N in
  let* limbs := set limbs (N - 1) (ucast W (2 ^ (W - 1) - 1)) in
  mk limbs.
Definition min_value (sg : bool) : res (list Z) := if sg then s_min_value else u_min_value.
Definition max_value (sg : bool) : res (list Z) := if sg then s_max_value else u_max_value.

(** ** Casts from primitives *)

(** [const BITS: u32 = ULimb::BITS; assert!(BITS == 32 || BITS == 64);] *)
Definition limb_width_ok : res unit := assert_ ((W =? 32) || (W =? 64)).

(** shared/casts.rs 67-71 [from_u32] *)
Definition from_u32 (v : Z) : res (list Z) :=
  let* limbs := set (repeat 0 N) 0 (ucast W v) in
  mk limbs.
(** shared/casts.rs 55-57 [from_u8] *)
Definition from_u8 (v : Z) : res (list Z) := from_u32 v.
(** shared/casts.rs 61-63 [from_u16] *)
Definition from_u16 (v : Z) : res (list Z) := from_u32 v.
(** shared/casts.rs 75-87 [from_u64] *)
Definition from_u64 (v : Z) : res (list Z) :=
  let* _ := limb_width_ok in
  let limbs := repeat 0 N in
  let* limbs :=
    (if W =? 32 then
       let* limbs := set limbs 0 (ucast W v) in
       let* v1 := ushr 64 v 32 in
       set limbs 1 (ucast W v1)
     else set limbs 0 (ucast W v)) in
  mk limbs.
(** The stores shared by [from_u128] (96-104) and [from_i128] (204-212). *)
Definition store_u128 (limbs : list Z) (v : Z) : res (list Z) :=
  if W =? 32 then
    let* limbs := set limbs 0 (ucast W v) in
    let* v1 := ushr 128 v 32 in
    let* limbs := set limbs 1 (ucast W v1) in
    let* v2 := ushr 128 v 64 in
    let* limbs := set limbs 2 (ucast W v2) in
    let* v3 := ushr 128 v 96 in
    set limbs 3 (ucast W v3)
  else
    let* limbs := set limbs 0 (ucast W v) in
    let* v1 := ushr 128 v 64 in
    set limbs 1 (ucast W v1).
(** shared/casts.rs 91-106 [from_u128] *)
Definition from_u128 (v : Z) : res (list Z) :=
  let* _ := limb_width_ok in
  let* limbs := store_u128 (repeat 0 N) v in
  mk limbs.
(** shared/casts.rs 111-119 [from_ulimb] *)
Definition from_ulimb (v : Z) : res (list Z) :=
  let* _ := limb_width_ok in
  if W =? 32 then from_u32 (ucast 32 v) else from_u64 (ucast 64 v).
(** shared/casts.rs 124-132 [from_uwide] *)
Definition from_uwide (v : Z) : res (list Z) :=
  let* _ := assert_ ((2 * W =? 64) || (2 * W =? 128)) in
  if 2 * W =? 64 then from_u64 (ucast 64 v) else from_u128 (ucast 128 v).
(** shared/casts.rs 136-144 [from_unsigned], [from_signed]; 371-379
    [as_unsigned], [as_signed]; uint/casts.rs 27 [cast_signed], int/casts.rs
    26 [cast_unsigned]: all copy the limbs. *)
Definition from_unsigned (x : list Z) : res (list Z) := mk x.
Definition from_signed (x : list Z) : res (list Z) := mk x.
Definition as_unsigned (x : list Z) : res (list Z) := mk x.
Definition as_signed (x : list Z) : res (list Z) := mk x.
Definition cast_signed (x : list Z) : res (list Z) := as_signed x.
Definition cast_unsigned (x : list Z) : res (list Z) := as_unsigned x.

(** shared/casts.rs 176-193 [from_i64] *)
Definition from_i64 (v : Z) : res (list Z) :=
  let* _ := limb_width_ok in
  let limbs := repeat (sign_limb v) N in
  if W =? 32 then
    let v := ucast (2 * W) v in
    let* limbs := set limbs 0 (ucast W v) in
    let* v1 := ushr (2 * W) v 32 in
    let* limbs := set limbs 1 (ucast W v1) in
    mk limbs
  else
    let* limbs := set limbs 0 (ucast W v) in
    mk limbs.
(** shared/casts.rs 160-172 [from_i32] *)
Definition from_i32 (v : Z) : res (list Z) :=
  let* _ := limb_width_ok in
  if W =? 32 then
    let limbs := repeat (sign_limb v) N in
    let* limbs := set limbs 0 (ucast W v) in
    mk limbs
  else from_i64 v.
(** shared/casts.rs 148-150 [from_i8], 154-156 [from_i16] *)
Definition from_i8 (v : Z) : res (list Z) := from_i32 v.
Definition from_i16 (v : Z) : res (list Z) := from_i32 v.
(** shared/casts.rs 197-214 [from_i128] *)
Definition from_i128 (v : Z) : res (list Z) :=
  let* _ := limb_width_ok in
  let* limbs := store_u128 (repeat (sign_limb v) N) (ucast 128 v) in
  mk limbs.
(** shared/casts.rs 219-227 [from_ilimb] *)
Definition from_ilimb (v : Z) : res (list Z) :=
  let* _ := limb_width_ok in
  if W =? 32 then from_i32 (scast 32 v) else from_i64 (scast 64 v).
(** shared/casts.rs 232-240 [from_iwide] *)
Definition from_iwide (v : Z) : res (list Z) :=
  let* _ := assert_ ((2 * W =? 64) || (2 * W =? 128)) in
  if 2 * W =? 64 then from_i64 (scast 64 v) else from_i128 (scast 128 v).
(** shared/traits.rs 132 [From<bool>] ([from_u8(value as u8)]), 133
    [From<char>] ([from_u32(value as u32)]) *)
Definition from_bool (b : bool) : res (list Z) := from_u8 (b2z b).
Definition from_char (ch : Z) : res (list Z) := from_u32 ch.

(** ** Casts to primitives *)

(** shared/casts.rs 256-261 [as_u32] *)
Definition as_u32 (x : list Z) : res Z :=
  let* _ := limb_width_ok in
  let* x0 := get x 0 in
  Ok (ucast 32 x0).
(** shared/casts.rs 244-252 [as_u8], [as_u16] *)
Definition as_u8 (x : list Z) : res Z := let* v := as_u32 x in Ok (ucast 8 v).
Definition as_u16 (x : list Z) : res Z := let* v := as_u32 x in Ok (ucast 16 v).
(** shared/casts.rs 265-277 [as_u64] *)
Definition as_u64 (x : list Z) : res Z :=
  let* _ := limb_width_ok in
  if W =? 32 then
    let* x0 := get x 0 in
    let* x1 := get x 1 in
    let* h1 := ushl 64 x1 32 in
    Ok (Z.lor x0 h1)
  else
    let* x0 := get x 0 in
    Ok (ucast 64 x0).
(** shared/casts.rs 281-297 [as_u128] *)
Definition as_u128 (x : list Z) : res Z :=
  let* _ := limb_width_ok in
  if W =? 32 then
    let* x0 := get x 0 in
    let* x1 := get x 1 in
    let* x2 := get x 2 in
    let* x3 := get x 3 in
    let* h1 := ushl 128 x1 32 in
    let* h2 := ushl 128 x2 64 in
    let* h3 := ushl 128 x3 96 in
    Ok (Z.lor (Z.lor (Z.lor x0 h1) h2) h3)
  else
    let* x0 := get x 0 in
    let* x1 := get x 1 in
    let* h1 := ushl 128 x1 64 in
    Ok (Z.lor x0 h1).
(** shared/casts.rs 302-310 [as_ulimb] *)
Definition as_ulimb (x : list Z) : res Z :=
  let* _ := limb_width_ok in
  if W =? 32 then let* v := as_u32 x in Ok (ucast W v)
  else let* v := as_u64 x in Ok (ucast W v).
(** shared/casts.rs 315-323 [as_uwide] *)
Definition as_uwide (x : list Z) : res Z :=
  let* _ := assert_ ((2 * W =? 64) || (2 * W =? 128)) in
  if 2 * W =? 64 then let* v := as_u64 x in Ok (ucast (2 * W) v)
  else let* v := as_u128 x in Ok (ucast (2 * W) v).
(** shared/casts.rs 327-353 [as_i8] .. [as_i128] *)
Definition as_i8 (x : list Z) : res Z := let* v := as_u8 x in Ok (scast 8 v).
Definition as_i16 (x : list Z) : res Z := let* v := as_u16 x in Ok (scast 16 v).
Definition as_i32 (x : list Z) : res Z := let* v := as_u32 x in Ok (scast 32 v).
Definition as_i64 (x : list Z) : res Z := let* v := as_u64 x in Ok (scast 64 v).
Definition as_i128 (x : list Z) : res Z := let* v := as_u128 x in Ok (scast 128 v).
(** shared/casts.rs 358-367 [as_ilimb], [as_iwide] *)
Definition as_ilimb (x : list Z) : res Z := let* v := as_ulimb x in Ok (scast W v).
Definition as_iwide (x : list Z) : res Z := let* v := as_uwide x in Ok (scast (2 * W) v).

(** ** Limb access *)

(** shared/extensions.rs 19-21 [get_limb] *)
Definition get_limb (x : list Z) (i : nat) : res Z := get x i.
(** shared/extensions.rs 28-49 [get_wide]: on either byte order the limbs
    [2 i] and [2 i + 1] joined (see MLayout.v for the byte-level reading) *)
Definition get_wide (x : list Z) (i : nat) : res Z :=
  let* _ := assert_ (i <? WIDE)%nat in
  let* lo := get x (2 * i) in
  let* hi := get x (2 * i + 1) in
  Ok (lo + 2 ^ W * hi).
(** shared/extensions.rs 7-15 [is_even], [is_odd] *)
Definition is_even (x : list Z) : res bool :=
  let* l := get_limb x 0 in
  let* r := urem l 2 in
  Ok (r =? 0).
Definition is_odd (x : list Z) : res bool := let* b := is_even x in Ok (negb b).
(** shared/extensions.rs 53-61 [least_significant_limb], [most_significant_limb] *)
Definition least_significant_limb (x : list Z) : res Z := get_limb x 0.
Definition most_significant_limb (sg : bool) (x : list Z) : res Z :=
  let* v := get_limb x (N - 1) in
  Ok (if sg then scast W v else v).

(** ** Bit operations (shared/bitops.rs) *)

(** bitops.rs 151-160 [not_const] *)
Definition not_const (x : list Z) : res (list Z) :=
  let* r := for_range 0 N
    (fun i r => let* l := get x i in set r i (p_not W l)) (repeat 0 N) in
  mk r.
Definition bitwise (op : Z -> Z -> Z) (x y : list Z) : res (list Z) :=
  let* r := for_range 0 N
    (fun i r =>
       let* a := get x i in
       let* b := get y i in
       set r i (op a b)) (repeat 0 N) in
  mk r.
(** bitops.rs 109-119 [bitand_const], 123-133 [bitor_const], 137-147
    [bitxor_const]; the operators (245, 253, 262) call these. *)
Definition bitand_const (x y : list Z) : res (list Z) := bitwise Z.land x y.
Definition bitor_const (x y : list Z) : res (list Z) := bitwise Z.lor x y.
Definition bitxor_const (x y : list Z) : res (list Z) := bitwise Z.lxor x y.

(** bitops.rs 17-26 [count_ones] *)
Definition count_ones (x : list Z) : res Z :=
  for_range 0 N
    (fun i count => let* l := get x i in uadd 32 count (p_count_ones W l)) 0.
(** bitops.rs 32-34 [count_zeros] *)
Definition count_zeros (x : list Z) : res Z := let* n := not_const x in count_ones n.
(** bitops.rs 62-70 [leading_zeros].  [i as u32 * ULimb::BITS] in the loop
    condition is at most [BITS], a [u32], so its overflow check is omitted. *)
Definition leading_zeros (x : list Z) : res Z :=
  let* (count, _) := while_m N
    (fun s => let '(count, i) := s in (i <? N)%nat && (count =? Z.of_nat i * W))
    (fun s => let '(count, i) := s in
       let* l := get_limb x (N - i - 1) in
       let* count := uadd 32 count (p_leading_zeros W l) in
       Ok (count, S i)) (0, 0%nat) in
  Ok count.
(** bitops.rs 77-85 [trailing_zeros] *)
Definition trailing_zeros (x : list Z) : res Z :=
  let* (count, _) := while_m N
    (fun s => let '(count, i) := s in (i <? N)%nat && (count =? Z.of_nat i * W))
    (fun s => let '(count, i) := s in
       let* l := get_limb x i in
       let* count := uadd 32 count (p_trailing_zeros W l) in
       Ok (count, S i)) (0, 0%nat) in
  Ok count.
(** bitops.rs 92-103 [leading_ones], [trailing_ones] *)
Definition leading_ones (x : list Z) : res Z := let* n := not_const x in leading_zeros n.
Definition trailing_ones (x : list Z) : res Z := let* n := not_const x in trailing_zeros n.

(** bitops.rs 169-172 [rotate_left], 182-185 [rotate_right] *)
Definition rotate_left (x : list Z) (n : Z) : res (list Z) :=
  let* r := rotl_array (2 * W) (to_wide x) n in from_ne_wide r.
Definition rotate_right (x : list Z) (n : Z) : res (list Z) :=
  let* r := rotr_array (2 * W) (to_wide x) n in from_ne_wide r.

(** uint/bitops.rs 18-29 and int/bitops.rs 19-30 [wrapping_shl],
    [wrapping_shr]; [rhs] is a [u32] *)
Definition wrapping_shl (x : list Z) (rhs : Z) : res (list Z) :=
  let* s := urem rhs tbits in
  let* r := shl_array (2 * W) (to_wide x) s in from_ne_wide r.
Definition wrapping_shr (sg : bool) (x : list Z) (rhs : Z) : res (list Z) :=
  let* s := urem rhs tbits in
  let* r := shr_array (2 * W) sg (to_wide x) s in from_ne_wide r.

(** shared/checked.rs 157-179 [checked_shl], [checked_shr] *)
Definition checked_shl (x : list Z) (rhs : Z) : res (option (list Z)) :=
  if rhs <? tbits then let* r := wrapping_shl x rhs in Ok (Some r) else Ok None.
Definition checked_shr (sg : bool) (x : list Z) (rhs : Z) : res (option (list Z)) :=
  if rhs <? tbits then let* r := wrapping_shr sg x rhs in Ok (Some r) else Ok None.
(** [match m { Some(v) => v, None => panic!(..) }] *)
Definition unwrap {A} (m : res (option A)) : res A :=
  let* o := m in match o with Some v => Ok v | None => Panic end.
(** shared/strict.rs 83-104 [strict_shl], [strict_shr] *)
Definition strict_shl (x : list Z) (rhs : Z) : res (list Z) := unwrap (checked_shl x rhs).
Definition strict_shr (sg : bool) (x : list Z) (rhs : Z) : res (list Z) :=
  unwrap (checked_shr sg x rhs).
(** shared/unbounded.rs 18-24 [unbounded_shl], 35-41 [unbounded_shr] *)
Definition unbounded_shl (x : list Z) (rhs : Z) : res (list Z) :=
  if rhs <? tbits then wrapping_shl x rhs else from_u8 0.
Definition unbounded_shr (sg : bool) (x : list Z) (rhs : Z) : res (list Z) :=
  if rhs <? tbits then wrapping_shr sg x rhs else from_u8 0.
(** int/overflowing.rs 192-194 [overflowing_shl], 206-208 [overflowing_shr]
    (only the signed types have them) *)
Definition s_overflowing_shl (x : list Z) (rhs : Z) : res (list Z * bool) :=
  let* r := wrapping_shl x rhs in Ok (r, tbits <=? rhs).
Definition s_overflowing_shr (x : list Z) (rhs : Z) : res (list Z * bool) :=
  let* r := wrapping_shr true x rhs in Ok (r, tbits <=? rhs).

(** ** Comparison (shared/ord.rs) *)

(** ord.rs 47-58 [eq_branchless] *)
Definition eq_branchless (x y : list Z) : res bool :=
  let lhs := to_wide x in
  let rhs := to_wide y in
  for_range 0 WIDE
    (fun i is_eq =>
       let* a := get lhs i in
       let* b := get rhs i in
       Ok (is_eq && (a =? b))) true.
(** ord.rs 62-72 [eq_branched] *)
Definition eq_branched (x y : list Z) : res bool :=
  let lhs := to_wide x in
  let rhs := to_wide y in
  let* (is_eq, _) := while_m WIDE
    (fun s => let '(is_eq, i) := s in (i <? WIDE)%nat && is_eq)
    (fun s => let '(is_eq, i) := s in
       let* a := get lhs i in
       let* b := get rhs i in
       Ok (is_eq && (a =? b), S i)) (true, 0%nat) in
  Ok is_eq.
(** ord.rs 76-82 [eq_const] *)
Definition eq_const (x y : list Z) : res bool :=
  if tbits <? 4096 then eq_branchless x y else eq_branched x y.
(** shared/mod.rs 63 [#[derive(PartialEq)]]: equality of the limb arrays *)
Definition derived_eq (x y : list Z) : bool := if list_eq_dec Z.eq_dec x y then true else false.

(** [lhs as $hi_t]: [UWide] for the unsigned types, [IWide] for the signed *)
Definition as_hi (sg : bool) (v : Z) : Z := if sg then scast (2 * W) v else v.

(** ord.rs 7-39, the [@ord] macro arm *)
Definition ord_macro (sg : bool) (op1 op2 : Z -> Z -> bool) (x y : list Z) : res bool :=
  let lhs := to_wide x in
  let rhs := to_wide y in
  let i := (WIDE - 1)%nat in
  let* lhs_0 := get lhs i in
  let* rhs_0 := get rhs i in
  let lhs_0 := as_hi sg lhs_0 in
  let rhs_0 := as_hi sg rhs_0 in
  let* (is_ord, _, _) := while_m WIDE
    (fun s => let '(is_ord, is_eq, i) := s in (0 <? i)%nat && negb is_ord && is_eq)
    (fun s => let '(is_ord, is_eq, i) := s in
       let i := (i - 1)%nat in
       let* lhs_i := get lhs i in
       let* rhs_i := get rhs i in
       Ok (if (i =? 0)%nat then op2 lhs_i rhs_i else op1 lhs_i rhs_i, lhs_i =? rhs_i, i))
    (op1 lhs_0 rhs_0, lhs_0 =? rhs_0, i) in
  Ok is_ord.
(** ord.rs 91-101 [lt_const], 106-116 [le_const], 120-122 [gt_const],
    126-128 [ge_const]; the [PartialOrd] methods (174-199) call these. *)
Definition lt_const (sg : bool) (x y : list Z) : res bool := ord_macro sg Z.ltb Z.ltb x y.
Definition le_const (sg : bool) (x y : list Z) : res bool := ord_macro sg Z.ltb Z.leb x y.
Definition gt_const (sg : bool) (x y : list Z) : res bool :=
  let* b := le_const sg x y in Ok (negb b).
Definition ge_const (sg : bool) (x y : list Z) : res bool :=
  let* b := lt_const sg x y in Ok (negb b).
(** ord.rs 132-159 [cmp_const]; [Ord::cmp] and [PartialOrd::partial_cmp]
    (167-178) call it. *)
Definition cmp_const (sg : bool) (x y : list Z) : res comparison :=
  let lhs := to_wide x in
  let rhs := to_wide y in
  let i := (WIDE - 1)%nat in
  let* lhs_0 := get lhs i in
  let* rhs_0 := get rhs i in
  let lhs_0 := as_hi sg lhs_0 in
  let rhs_0 := as_hi sg rhs_0 in
  let* (_, is_lt, is_gt, _) := while_m WIDE
    (fun s => let '(is_eq, is_lt, is_gt, i) := s in
       (0 <? i)%nat && negb is_lt && negb is_gt && is_eq)
    (fun s => let '(is_eq, is_lt, is_gt, i) := s in
       let i := (i - 1)%nat in
       let* lhs_i := get lhs i in
       let* rhs_i := get rhs i in
       Ok (lhs_i =? rhs_i, lhs_i <? rhs_i, rhs_i <? lhs_i, i))
    (lhs_0 =? rhs_0, lhs_0 <? rhs_0, rhs_0 <? lhs_0, i) in
  Ok (if is_lt then Lt else if is_gt then Gt else Eq).
(** [Ord::max], [Ord::min], [Ord::clamp] (default methods of std): MOrd.v. *)

(** ** Sign (int/ops.rs) *)

(** int/ops.rs 50-54 [is_negative] *)
Definition is_negative (x : list Z) : res bool :=
  let* l := get_limb x (N - 1) in
  Ok (scast W l <? 0).
(** int/ops.rs 26-43 [is_positive].  The countdown loop is written over the
    offset from the top: iteration [j] looks at limb [N - 2 - j]; once a
    nonzero limb is found the result stays [true]. *)
Definition is_positive (x : list Z) : res bool :=
  let* high := most_significant_limb true x in
  if high <? 0 then Ok false
  else if 0 <? high then Ok true
  else
    for_range 0 (N - 1)
      (fun j found =>
         if (found : bool) then Ok true
         else let* l := get_limb x (N - 1 - 1 - j) in Ok (0 <? l)) false.

(** ** Shift operators (shared/shift.rs) *)

(** shift.rs 11-16 [Shl<$t>] and 25-30 [Shr<$t>] for a primitive amount type
    of [pw] bits, signed when [ps]; [other] is in that type's range.
    [Self::BITS as $t] truncates. *)
Definition bits_as (ps : bool) (pw : Z) : Z := if ps then scast pw tbits else ucast pw tbits.
Definition op_shl (ps : bool) (pw : Z) (x : list Z) (other : Z) : res (list Z) :=
  let* _ := (if chk then assert_ ((other <? bits_as ps pw) && (0 <=? other)) else Ok tt) in
  wrapping_shl x (ucast 32 other).
Definition op_shr (sg ps : bool) (pw : Z) (x : list Z) (other : Z) : res (list Z) :=
  let* _ := (if chk then assert_ ((other <? bits_as ps pw) && (0 <=? other)) else Ok tt) in
  wrapping_shr sg x (ucast 32 other).
(** shift.rs 40-48, 56-64: [Shl<$t>]/[Shr<$t>] where the amount is a big
    integer of the same width, signed when [ps]. *)
Definition op_shl_big (ps : bool) (x other : list Z) : res (list Z) :=
  let* _ :=
    (if chk then
       let* b := from_u32 tbits in
       let* is_above := ge_const ps other b in
       let* z := from_u32 0 in
       let* is_below := lt_const ps other z in
       assert_ (negb (is_above || is_below))
     else Ok tt) in
  let* s := as_u32 other in
  wrapping_shl x s.
Definition op_shr_big (sg ps : bool) (x other : list Z) : res (list Z) :=
  let* _ :=
    (if chk then
       let* b := from_u32 tbits in
       let* is_above := ge_const ps other b in
       let* z := from_u32 0 in
       let* is_below := lt_const ps other z in
       assert_ (negb (is_above || is_below))
     else Ok tt) in
  let* s := as_u32 other in
  wrapping_shr sg x s.
(** shared/ops.rs 150-170 [Shl<Self>], [Shr<Self>] *)
Definition op_shl_self (x other : list Z) : res (list Z) :=
  let* l := least_significant_limb other in
  wrapping_shl x (Z.land (ucast 32 l) (2 ^ 32 - 1)).
Definition op_shr_self (sg : bool) (x other : list Z) : res (list Z) :=
  let* l := least_significant_limb other in
  wrapping_shr sg x (Z.land (ucast 32 l) (2 ^ 32 - 1)).

End M.
