(** * Model: a crate built with two settings

    build.rs asks whether additions are checked *in the build script*, and the
    crate is compiled with [cfg(have_overflow_checks)] according to the answer.
    The plain [+], [-], [*], [<<], [>>] of the crate itself are checked or not
    according to the crate's own setting.  Cargo compiles build scripts under
    [profile.*.build-override], packages under [profile.*.package], so the two
    can differ.  The other model files give both the one name [chk]; here they
    are apart: [chk] is the crate's own setting, [h] is the answer of the build
    script, and every definition that looks at [cfg!(have_overflow_checks)], or
    calls one that does, is written again with [h]. *)

Require Import ZArith List Bool.
From Verif Require Import Prim Spec MAdd MMul MShift MCore MArith MDiv MApi MScalar MTraits MParse MWrite.
Import ListNotations.
Local Open Scope Z_scope.

(** ** The build script *)

(** build.rs 4-6 [overflow]: [let _ = 255_u8 + 1;], compiled with the script's
    settings *)
Definition script_overflow {script : Cfg} : res Z := uadd 8 255 1.
(** build.rs 8-14 [main]: [catch_unwind(..).is_err()]; the answer is whether the
    line [cargo:rustc-cfg=have_overflow_checks] is printed. *)
Definition have_overflow_checks (script : Cfg) : bool :=
  match @script_overflow script with Panic => true | _ => false end.

Section M.
Context {c : Cfg} (h : bool).

(** ** Definitions that look at the flag *)

(** shared/ops.rs 53-131 *)
Definition b_op_add (sg : bool) (x y : list Z) : res (list Z) :=
  if negb h then wrapping_add sg x y else unwrap (checked_add sg x y).
Definition b_op_sub (sg : bool) (x y : list Z) : res (list Z) :=
  if negb h then wrapping_sub sg x y else unwrap (checked_sub sg x y).
Definition b_op_mul (sg : bool) (x y : list Z) : res (list Z) :=
  if negb h then wrapping_mul sg x y else unwrap (checked_mul sg x y).
(** shared/limb.rs 12-37 *)
Definition b_add_ulimb (sg : bool) (x : list Z) (n : Z) : res (list Z) :=
  if negb h then wrapping_add_ulimb sg x n else unwrap (checked_add_ulimb sg x n).
Definition b_sub_ulimb (sg : bool) (x : list Z) (n : Z) : res (list Z) :=
  if negb h then wrapping_sub_ulimb sg x n else unwrap (checked_sub_ulimb sg x n).
(** int/traits.rs 12-26 *)
Definition b_op_neg (x : list Z) : res (list Z) :=
  if negb h then s_wrapping_neg x else unwrap (s_checked_neg x).
(** shared/ops.rs 20-26 [pow] *)
Definition b_pow (sg : bool) (x : list Z) (exp : Z) : res (list Z) :=
  if negb h then wrapping_pow sg x exp else strict_pow sg x exp.
(** uint/ops.rs 233-242 [next_power_of_two] *)
Definition b_next_power_of_two (x : list Z) : res (list Z) :=
  if negb h then wrapping_next_power_of_two x else unwrap (checked_next_power_of_two x).
(** shared/ops.rs 36-45, 69-83, 101-115 *)
Definition b_div_rem (sg : bool) (x n : list Z) : res (list Z * list Z) :=
  if negb h then wrapping_div_rem sg x n else unwrap (checked_div_rem sg x n).
Definition b_op_div (sg : bool) (x n : list Z) : res (list Z) :=
  if negb h then wrapping_div sg x n else unwrap (checked_div sg x n).
Definition b_op_rem (sg : bool) (x n : list Z) : res (list Z) :=
  if negb h then wrapping_rem sg x n else unwrap (checked_rem sg x n).
(** uint/ops.rs 39-48, 61-70, int/ops.rs 90-99, 112-121 *)
Definition b_div_euclid (sg : bool) (x n : list Z) : res (list Z) :=
  if negb h then wrapping_div_euclid sg x n else unwrap (checked_div_euclid sg x n).
Definition b_rem_euclid (sg : bool) (x n : list Z) : res (list Z) :=
  if negb h then (if sg then wrapping_rem_euclid true x n else wrapping_rem false x n)
  else unwrap (checked_rem_euclid sg x n).
(** shared/shift.rs 11-16, 25-30 *)
Definition b_op_shl (ps : bool) (pw : Z) (x : list Z) (other : Z) : res (list Z) :=
  let* _ := (if h then assert_ ((other <? bits_as ps pw) && (0 <=? other)) else Ok tt) in
  wrapping_shl x (ucast 32 other).
Definition b_op_shr (sg ps : bool) (pw : Z) (x : list Z) (other : Z) : res (list Z) :=
  let* _ := (if h then assert_ ((other <? bits_as ps pw) && (0 <=? other)) else Ok tt) in
  wrapping_shr sg x (ucast 32 other).
(** shared/shift.rs 40-48, 56-64 *)
Definition b_op_shl_big (ps : bool) (x other : list Z) : res (list Z) :=
  let* _ :=
    (if h then
       let* b := from_u32 tbits in
       let* is_above := ge_const ps other b in
       let* z := from_u32 0 in
       let* is_below := lt_const ps other z in
       assert_ (negb (is_above || is_below))
     else Ok tt) in
  let* s := as_u32 other in
  wrapping_shl x s.
Definition b_op_shr_big (sg ps : bool) (x other : list Z) : res (list Z) :=
  let* _ :=
    (if h then
       let* b := from_u32 tbits in
       let* is_above := ge_const ps other b in
       let* z := from_u32 0 in
       let* is_below := lt_const ps other z in
       assert_ (negb (is_above || is_below))
     else Ok tt) in
  let* s := as_u32 other in
  wrapping_shr sg x s.
(** shared/limb.rs 12-425, int/limb.rs 14-414 *)
Definition b_plain_us (o : sop) (k : skind) (sg : bool) (x : list Z) (n : Z) : res (list Z) :=
  if negb h then wrapping_us o k sg x n else unwrap (checked_us o k sg x n).
Definition b_plain_is (o : sop) (k : skind) (x : list Z) (n : Z) : res (list Z) :=
  if negb h then wrapping_is o k x n else unwrap (checked_is o k x n).
(** int/limb.rs 63-72, 148-157, 241-250, 332-341, 423-432 *)
Definition b_div_rem_is (k : skind) (x : list Z) (n : Z) : res (list Z * Z) :=
  if negb h then wrapping_div_rem_is k x n else unwrap (checked_div_rem_is k x n).

(** ** Definitions that call one of those *)

(** uint/ops.rs 308-316 [carrying_mul] *)
Definition b_carrying_mul (x y carry : list Z) : res (list Z * list Z) :=
  let* (lo, hi) := mul_widening x y in
  let* lo := mk lo in
  let* (lo, overflowed) := overflowing_add false lo carry in
  let* hi := mk hi in
  let* hi := b_add_ulimb false hi (b2z overflowed) in
  Ok (lo, hi).
(** int/ops.rs 156-167 [div_ceil]; [Self::BITS - 1] is the crate's own *)
Definition b_s_div_ceil (x n : list Z) : res (list Z) :=
  let* (d, r) := wrapping_div_rem true x n in
  let* one := from_u8 1 in
  let* xor := bitxor_const x n in
  let* s := usub 32 tbits 1 in
  let* mask := b_op_shr true false 32 xor s in
  let* correction := b_op_add true one mask in
  let* z := from_u8 0 in
  let* e := eq_const r z in
  if negb e then wrapping_add true d correction else Ok d.
(** uint/ops.rs 183-190 [next_multiple_of] *)
Definition b_u_next_multiple_of (x n : list Z) : res (list Z) :=
  let* r := b_op_rem false x n in
  let* m := u_min_value in
  if derived_eq r m then Ok x
  else let* d := b_op_sub false n r in b_op_add false x d.
(** int/ops.rs 181-201 [next_multiple_of] *)
Definition b_s_next_multiple_of (x n : list Z) : res (list Z) :=
  let* o := from_i8 (-1) in
  let* b := eq_const n o in
  if b then Ok x
  else
    let* zero := from_u8 0 in
    let* r := b_op_rem true x n in
    let* rp := gt_const true r zero in
    let* nn := lt_const true n zero in
    let* rn := lt_const true r zero in
    let* np := gt_const true n zero in
    let* m := (if (rp && nn) || (rn && np) then b_op_add true r n else Ok r) in
    let* e := eq_const m zero in
    if e then Ok x
    else let* d := b_op_sub true n m in b_op_add true x d.
(** int/checked.rs 123-144 [checked_next_multiple_of] *)
Definition b_s_checked_next_multiple_of (x n : list Z) : res (option (list Z)) :=
  let* o := from_i8 (-1) in
  let* b := eq_const n o in
  if b then Ok (Some x)
  else
    let* zero := from_u8 0 in
    let* o := checked_rem true x n in
    match o with
    | None => Ok None
    | Some r =>
        let* rp := is_positive r in
        let* nn := is_negative n in
        let* rn := is_negative r in
        let* np := is_positive n in
        let* m := (if (rp && nn) || (rn && np) then b_op_add true r n else Ok r) in
        let* e := eq_const m zero in
        if e then Ok (Some x)
        else let* d := b_op_sub true n m in checked_add true x d
    end.
(** uint/checked.rs 79-82, the loop; [n += 1] is the crate's own *)
Fixpoint b_ilog_loop (fuel : nat) (x base : list Z) (n : Z) (r : list Z) : res Z :=
  match fuel with
  | O => OutOfFuel
  | S fuel =>
      let* q := b_op_div false x base in
      let* b := le_const false r q in
      if b then
        let* n := uadd 32 n 1 in
        let* r := b_op_mul false r base in
        b_ilog_loop fuel x base n r
      else Ok n
  end.
(** uint/checked.rs 55-84 [checked_ilog] *)
Definition b_u_checked_ilog (x base : list Z) : res (option Z) :=
  let* zero := from_u8 0 in
  let* bz := le_const false base zero in
  let* xb := lt_const false x base in
  if derived_eq x zero || bz || xb then Ok None
  else
    let* (n, r) :=
      (if 2 * W <=? tbits then
         let* lx := ilog2 false x in
         let* lb := ilog2 false base in
         let* d := uadd 32 lb 1 in
         let* n := udiv lx d in
         let* r := b_pow false base n in
         Ok (n, r)
       else Ok (1, base)) in
    let* n := b_ilog_loop (S (Z.to_nat tbits)) x base n r in
    Ok (Some n).
(** uint/ops.rs 117-123 [ilog]; int/checked.rs 86-91, int/ops.rs 231-241 *)
Definition b_u_ilog (x base : list Z) : res Z := unwrap (b_u_checked_ilog x base).
Definition b_s_checked_ilog (x base : list Z) : res (option Z) :=
  let* zero := from_u8 0 in
  let* a := le_const true x zero in
  let* one := from_u8 1 in
  let* b := le_const true base one in
  if a || b then Ok None
  else
    let* ux := as_unsigned x in
    let* ub := as_unsigned base in
    let* r := b_u_ilog ux ub in
    Ok (Some r).
Definition b_s_ilog (x base : list Z) : res Z :=
  let* two := from_u8 2 in
  let* g := ge_const true base two in
  let* _ := assert_ g in
  unwrap (b_s_checked_ilog x base).
(** int/limb.rs 539-555, 677-689, 1126-1146: the subtraction of one from the
    quotient is the operator, [n - rem] is the crate's own *)
Definition b_s_div_rem_u (d : droute) (x : list Z) (n : Z) : res (list Z * Z) :=
  let* ux := unsigned_abs x in
  let* (q, rem) := div_by d ux n in
  let* q := mk q in
  let* neg := is_negative x in
  let* q := (if neg then s_wrapping_neg q else Ok q) in
  if neg && negb (rem =? 0) then
    let* one := from_u8 1 in
    let* q := b_op_sub true q one in
    let* rem := usub (dbits d) n rem in
    Ok (q, rem)
  else Ok (q, rem).
(** uint/limb.rs 224-227, 276-286, 362-375; int/limb.rs 812-815, 932-942, 1126-1146 *)
Definition b_wrapping_div_rem_us (k : skind) (sg : bool) (x : list Z) (n : Z) : res (list Z * Z) :=
  let d := route k in
  let* (q, r) := (if sg then b_s_div_rem_u d x (ucast (dbits d) n) else u_div_rem d x (ucast (dbits d) n)) in
  Ok (q, ucast (kbits k) r).
(** shared/limb.rs 602-757, 836-842, … *)
Definition b_overflowing_div_rem_us (k : skind) (sg : bool) (x : list Z) (n : Z) : res (list Z * Z * bool) :=
  let* qr := b_wrapping_div_rem_us k sg x n in Ok (qr, false).
Definition b_checked_div_rem_us (k : skind) (sg : bool) (x : list Z) (n : Z) : res (option (list Z * Z)) :=
  if n =? 0 then Ok None
  else let* qr := b_wrapping_div_rem_us k sg x n in Ok (Some qr).
(** shared/limb.rs 65-74, 154-163, 250-259, 345-354, 440-449 *)
Definition b_div_rem_us (k : skind) (sg : bool) (x : list Z) (n : Z) : res (list Z * Z) :=
  if negb h then b_wrapping_div_rem_us k sg x n else unwrap (b_checked_div_rem_us k sg x n).
(** write.rs 50-54, the loop *)
Fixpoint b_write_loop (fuel : nat) (sg : bool) (limit : list Z) (start : nat) (radix : Z)
    (self : list Z) (index : nat) (buffer : list Z) : res (list Z * nat * list Z) :=
  let* b := ge_const sg self limit in
  if b && (start <? index)%nat then
    match fuel with
    | O => OutOfFuel
    | S f =>
        let* index := idx_pred index in
        let* (self, rem) := b_div_rem_us KLimb sg self (ucast W radix) in
        let* ch := digit_to_char (ucast 32 rem) radix in
        let* buffer := set buffer index ch in
        b_write_loop f sg limit start radix self index buffer
    end
  else Ok (self, index, buffer).
(** write.rs 30-70 [to_str_radix] *)
Definition b_to_str_radix (sg : bool) (x buffer : list Z) (radix : Z) : res (list Z * nat) :=
  if (radix <? 2) || (36 <? radix) then Panic
  else if Z.of_nat (length buffer) <? BITS + b2z sg then Panic
  else
    let* is_negative := (if sg then let* z := from_u8 0 in lt_const true x z else Ok false) in
    let start := if is_negative then 2%nat else 1%nat in
    let* limit := from_u32 radix in
    let* (self, index, buffer) := b_write_loop (length buffer) sg limit start radix x (length buffer) buffer in
    let* b := lt_const sg self limit in
    let* _ := assert_ b in
    let* index := idx_pred index in
    let* l := get_limb self 0 in
    let* ch := digit_to_char (ucast 32 l) radix in
    let* buffer := set buffer index ch in
    if is_negative then
      let* index := idx_pred index in
      let* buffer := set buffer index 45 in
      Ok (buffer, index)
    else Ok (buffer, index).

(** shared/num_traits_impls.rs 157-164; int/traits.rs 150-157, 159-168 *)
Definition b_nt_mul_add (sg : bool) (x a b : list Z) : res (list Z) :=
  let* m := b_op_mul sg x a in b_op_add sg m b.
Definition b_nt_abs_sub (x y : list Z) : res (list Z) :=
  let* b := lt_const true x y in
  if b then nt_zero else b_op_sub true x y.
Definition b_nt_signum (x : list Z) : res (list Z) :=
  let* z := nt_zero in
  if derived_eq x z then nt_zero
  else
    let* p := gt_const true x z in
    if p then nt_one else let* o := nt_one in b_op_neg o.
(** uint/traits.rs 437-455, int/traits.rs 455-473 *)
Definition b_nt_signed_shl (sg : bool) (x : list Z) (n : Z) : res (list Z) :=
  if sg then b_op_shl false 32 x n
  else let* s := cast_signed x in let* r := b_op_shl false 32 s n in cast_unsigned r.
Definition b_nt_signed_shr (sg : bool) (x : list Z) (n : Z) : res (list Z) :=
  if sg then b_op_shr true false 32 x n
  else let* s := cast_signed x in let* r := b_op_shr true false 32 s n in cast_unsigned r.
Definition b_nt_unsigned_shl (sg : bool) (x : list Z) (n : Z) : res (list Z) :=
  if sg then let* s := cast_unsigned x in let* r := b_op_shl false 32 s n in cast_signed r
  else b_op_shl false 32 x n.
Definition b_nt_unsigned_shr (sg : bool) (x : list Z) (n : Z) : res (list Z) :=
  if sg then let* s := cast_unsigned x in let* r := b_op_shr false false 32 s n in cast_signed r
  else b_op_shr false false 32 x n.

End M.
