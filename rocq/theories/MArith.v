(** * Model: full-width arithmetic of the unsigned and signed types

    [src/uint/{wrapping,overflowing,checked,saturating,strict,ops,extensions}.rs],
    [src/int/…], [src/shared/{checked,ops,strict,bigint,overflowing,wrapping,
    unchecked}.rs], without the division family (MApi.v).

    [sg] selects the type whose method is modelled: [false] for the unsigned
    type, [true] for the signed one.  [to_ne_limbs] is the identity in this
    representation and [from_ne_limbs] is [mk].  Both branches of
    [cfg!(have_overflow_checks)] are modelled through [chk]. *)

Require Import ZArith List Bool.
From Verif Require Import Prim Spec MAdd MMul MCore.
Import ListNotations.
Local Open Scope Z_scope.

Section M.
Context {c : Cfg}.

(** Several methods call [from_ne_limbs] on the value part of a pair. *)
Definition mk_flag (m : res (list Z * bool)) : res (list Z * bool) :=
  let* (l, f) := m in let* r := mk l in Ok (r, f).

(** The pattern [let (value, overflowed) = m; if !overflowed { Some(value) }
    else { None }], for instance shared/checked.rs 16-23. *)
Definition opt {A} (m : res (A * bool)) : res (option A) :=
  let* (v, f) := m in Ok (if negb f then Some v else None).

(** ** Wrapping and overflowing addition, subtraction, multiplication *)

(** uint/wrapping.rs 22-25, int/wrapping.rs 22-25 [wrapping_add] *)
Definition wrapping_add (sg : bool) (x y : list Z) : res (list Z) :=
  let* l := (if sg then sadd_wrapping_full x y else add_wrapping_full x y) in mk l.
(** uint/wrapping.rs 43-48, int/wrapping.rs 33-36 [wrapping_sub] *)
Definition wrapping_sub (sg : bool) (x y : list Z) : res (list Z) :=
  let* l := (if sg then ssub_wrapping_full x y else sub_wrapping_full x y) in mk l.
(** uint/wrapping.rs 83-217, int/wrapping.rs 61-64 [wrapping_mul] *)
Definition wrapping_mul (sg : bool) (x y : list Z) : res (list Z) :=
  let* l := (if sg then smul_wrapping_full x y else mul_wrapping_full x y) in mk l.
(** uint/overflowing.rs 26-31, int/overflowing.rs 24-29 [overflowing_add] *)
Definition overflowing_add (sg : bool) (x y : list Z) : res (list Z * bool) :=
  mk_flag (if sg then sadd_overflowing_full x y else add_overflowing_full x y).
(** uint/overflowing.rs 57-62, int/overflowing.rs 39-44 [overflowing_sub] *)
Definition overflowing_sub (sg : bool) (x y : list Z) : res (list Z * bool) :=
  mk_flag (if sg then ssub_overflowing_full x y else sub_overflowing_full x y).
(** uint/overflowing.rs 103-108, int/overflowing.rs 85-90 [overflowing_mul] *)
Definition overflowing_mul (sg : bool) (x y : list Z) : res (list Z * bool) :=
  mk_flag (if sg then smul_overflowing_full x y else mul_overflowing_full x y).

(** ** Addition and subtraction of one unsigned limb *)

(** uint/limb.rs 23-26, int/limb.rs 465-468 [wrapping_add_ulimb] *)
Definition wrapping_add_ulimb (sg : bool) (x : list Z) (n : Z) : res (list Z) :=
  let* l := (if sg then sadd_wrapping_ulimb x n else add_wrapping_limb x n) in mk l.
(** uint/limb.rs 34-37, int/limb.rs 486-489 [wrapping_sub_ulimb] *)
Definition wrapping_sub_ulimb (sg : bool) (x : list Z) (n : Z) : res (list Z) :=
  let* l := (if sg then ssub_wrapping_ulimb x n else sub_wrapping_limb x n) in mk l.
(** uint/limb.rs 389-392, int/limb.rs 1214-1217 [overflowing_add_ulimb] *)
Definition overflowing_add_ulimb (sg : bool) (x : list Z) (n : Z) : res (list Z * bool) :=
  mk_flag (if sg then sadd_overflowing_ulimb x n else add_overflowing_limb x n).
(** uint/limb.rs 401-404, int/limb.rs 1236-1239 [overflowing_sub_ulimb] *)
Definition overflowing_sub_ulimb (sg : bool) (x : list Z) (n : Z) : res (list Z * bool) :=
  mk_flag (if sg then ssub_overflowing_ulimb x n else sub_overflowing_limb x n).

(** ** Checked, strict, unchecked, operators *)

(** shared/checked.rs 16-23 and 31-38 *)
Definition checked_add (sg : bool) (x y : list Z) : res (option (list Z)) := opt (overflowing_add sg x y).
Definition checked_sub (sg : bool) (x y : list Z) : res (option (list Z)) := opt (overflowing_sub sg x y).
(** shared/checked.rs 187-192 [checked_ilog2]; the two [u32] subtractions are
    checked when [chk]. *)
Definition checked_ilog2 (sg : bool) (x : list Z) : res (option Z) :=
  let* zero := from_u8 0 in
  let* b := le_const sg x zero in
  if b then Ok None
  else
    let* lz := leading_zeros x in
    let* t := usub 32 tbits 1 in
    let* r := usub 32 t lz in
    Ok (Some r).
(** shared/checked.rs 46-63 [checked_mul]; the match has three arms, the second
    of which is reached when either logarithm is [None]. *)
Definition checked_mul (sg : bool) (x y : list Z) : res (option (list Z)) :=
  if negb sg then
    let* l := checked_ilog2 sg x in
    let* r := checked_ilog2 sg y in
    match l, r with
    | Some l, Some r =>
        let* s := uadd 32 l r in
        let* t := usub 32 tbits 1 in
        if t <? s then Ok None else opt (overflowing_mul sg x y)
    | _, _ => let* z := from_u8 0 in Ok (Some z)
    end
  else opt (overflowing_mul sg x y).
(** shared/strict.rs 19-24, 35-40, 51-56 *)
Definition strict_add (sg : bool) (x y : list Z) : res (list Z) := unwrap (checked_add sg x y).
Definition strict_sub (sg : bool) (x y : list Z) : res (list Z) := unwrap (checked_sub sg x y).
Definition strict_mul (sg : bool) (x y : list Z) : res (list Z) := unwrap (checked_mul sg x y).
(** shared/ops.rs 53-131: the operators [+], [-] and [*]; the assigning
    operators and the reference forms (shared/traits.rs) delegate to these. *)
Definition op_add (sg : bool) (x y : list Z) : res (list Z) :=
  if negb chk then wrapping_add sg x y else unwrap (checked_add sg x y).
Definition op_sub (sg : bool) (x y : list Z) : res (list Z) :=
  if negb chk then wrapping_sub sg x y else unwrap (checked_sub sg x y).
Definition op_mul (sg : bool) (x y : list Z) : res (list Z) :=
  if negb chk then wrapping_mul sg x y else unwrap (checked_mul sg x y).
(** shared/unchecked.rs 32-138: the [None] arm is undefined behaviour; the
    model stops with [Panic] there and claims nothing about it. *)
Definition unchecked_add (sg : bool) (x y : list Z) : res (list Z) := unwrap (checked_add sg x y).
Definition unchecked_sub (sg : bool) (x y : list Z) : res (list Z) := unwrap (checked_sub sg x y).
Definition unchecked_mul (sg : bool) (x y : list Z) : res (list Z) := unwrap (checked_mul sg x y).
Definition unchecked_shl (x : list Z) (n : Z) : res (list Z) := unwrap (checked_shl x n).
Definition unchecked_shr (sg : bool) (x : list Z) (n : Z) : res (list Z) := unwrap (checked_shr sg x n).

(** shared/limb.rs 794-815 and 12-37, the one-limb forms used below *)
Definition checked_add_ulimb (sg : bool) (x : list Z) (n : Z) : res (option (list Z)) :=
  opt (overflowing_add_ulimb sg x n).
Definition checked_sub_ulimb (sg : bool) (x : list Z) (n : Z) : res (option (list Z)) :=
  opt (overflowing_sub_ulimb sg x n).
Definition add_ulimb (sg : bool) (x : list Z) (n : Z) : res (list Z) :=
  if negb chk then wrapping_add_ulimb sg x n else unwrap (checked_add_ulimb sg x n).
Definition sub_ulimb (sg : bool) (x : list Z) (n : Z) : res (list Z) :=
  if negb chk then wrapping_sub_ulimb sg x n else unwrap (checked_sub_ulimb sg x n).

(** shared/bigint.rs 23-27 [carrying_add] *)
Definition big_carrying_add (sg : bool) (x y : list Z) (carry : bool) : res (list Z * bool) :=
  let* (a, b) := overflowing_add sg x y in
  let* (r, d) := overflowing_add_ulimb sg a (b2z carry) in
  Ok (r, b || d).
(** shared/bigint.rs 42-46 [borrowing_sub] *)
Definition big_borrowing_sub (sg : bool) (x y : list Z) (borrow : bool) : res (list Z * bool) :=
  let* (a, b) := overflowing_sub sg x y in
  let* (r, d) := overflowing_sub_ulimb sg a (b2z borrow) in
  Ok (r, b || d).

(** ** Negation and absolute value *)

(** uint/wrapping.rs 319-321 [wrapping_neg] *)
Definition u_wrapping_neg (x : list Z) : res (list Z) :=
  let* m := u_min_value in wrapping_sub false m x.
(** uint/checked.rs 37-43 [checked_neg] *)
Definition u_checked_neg (x : list Z) : res (option (list Z)) :=
  let* m := u_min_value in
  let* b := eq_const x m in
  Ok (if b then Some x else None).
(** uint/strict.rs 125-130 [strict_neg] *)
Definition u_strict_neg (x : list Z) : res (list Z) := unwrap (u_checked_neg x).
(** int/wrapping.rs 205-211 [wrapping_neg] *)
Definition s_wrapping_neg (x : list Z) : res (list Z) :=
  let* nx := not_const x in
  let* twos_neg := wrapping_add_ulimb true nx 1 in
  let* z := from_u8 0 in
  let* from_zero := wrapping_sub true z x in
  let* e := eq_const from_zero twos_neg in
  let* _ := dassert e in
  Ok from_zero.
(** int/overflowing.rs 174-180 [overflowing_neg] *)
Definition s_overflowing_neg (x : list Z) : res (list Z * bool) :=
  let* m := s_min_value in
  let* b := eq_const x m in
  if b then Ok (m, true) else let* r := s_wrapping_neg x in Ok (r, false).
(** int/overflowing.rs 217-222 [overflowing_abs] *)
Definition s_overflowing_abs (x : list Z) : res (list Z * bool) :=
  let* n := is_negative x in
  if n then s_overflowing_neg x else Ok (x, false).
(** int/wrapping.rs 224-226 [wrapping_abs] *)
Definition s_wrapping_abs (x : list Z) : res (list Z) :=
  let* (r, _) := s_overflowing_abs x in Ok r.
(** int/checked.rs 51-58 [checked_neg], 66-71 [checked_abs] *)
Definition s_checked_neg (x : list Z) : res (option (list Z)) := opt (s_overflowing_neg x).
Definition s_checked_abs (x : list Z) : res (option (list Z)) := opt (s_overflowing_abs x).
(** int/strict.rs 137-142, 153-158; int/unchecked.rs 27-33 [unchecked_neg] *)
Definition s_strict_neg (x : list Z) : res (list Z) := unwrap (s_checked_neg x).
Definition s_strict_abs (x : list Z) : res (list Z) := unwrap (s_checked_abs x).
Definition s_unchecked_neg (x : list Z) : res (list Z) := unwrap (s_checked_neg x).
(** int/traits.rs 12-26, the unary [-] operator *)
Definition op_neg (x : list Z) : res (list Z) :=
  if negb chk then s_wrapping_neg x else unwrap (s_checked_neg x).
(** int/ops.rs 68-70 [unsigned_abs], 279-284 [abs] *)
Definition unsigned_abs (x : list Z) : res (list Z) :=
  let* a := s_wrapping_abs x in as_unsigned a.
Definition s_abs (x : list Z) : res (list Z) := unwrap (s_checked_abs x).
(** uint/ops.rs 166-172, int/ops.rs 294-300 [abs_diff]; the signed version
    subtracts as unsigned. *)
Definition abs_diff (sg : bool) (x y : list Z) : res (list Z) :=
  let* b := lt_const sg x y in
  if sg then
    let* ux := as_unsigned x in
    let* uy := as_unsigned y in
    if b then wrapping_sub false uy ux else wrapping_sub false ux uy
  else if b then wrapping_sub false y x else wrapping_sub false x y.
(** int/ops.rs 310-316 [signum] *)
Definition signum (x : list Z) : res (list Z) :=
  let* z := from_u8 0 in
  let* o := cmp_const true x z in
  match o with
  | Lt => from_i8 (-1)
  | Eq => from_u8 0
  | Gt => from_u8 1
  end.

(** ** Mixed-sign addition and subtraction *)

(** uint/wrapping.rs 33-35 [wrapping_add_signed] *)
Definition u_wrapping_add_signed (x y : list Z) : res (list Z) :=
  let* uy := as_unsigned y in wrapping_add false x uy.
(** uint/overflowing.rs 42-46 [overflowing_add_signed] *)
Definition u_overflowing_add_signed (x y : list Z) : res (list Z * bool) :=
  let* n := is_negative y in
  let* uy := from_signed y in
  let* (r, f) := overflowing_add false x uy in
  Ok (r, xorb f n).
(** uint/overflowing.rs 71-74 [overflowing_sub_signed] *)
Definition u_overflowing_sub_signed (x y : list Z) : res (list Z * bool) :=
  let* uy := as_unsigned y in
  let* (r, f) := overflowing_sub false x uy in
  let* n := is_negative y in
  Ok (r, xorb f n).
(** uint/checked.rs 21-28, uint/strict.rs 25-30 *)
Definition u_checked_add_signed (x y : list Z) : res (option (list Z)) := opt (u_overflowing_add_signed x y).
Definition u_strict_add_signed (x y : list Z) : res (list Z) := unwrap (u_checked_add_signed x y).
(** uint/saturating.rs 35-45 [saturating_add_signed] *)
Definition u_saturating_add_signed (x y : list Z) : res (list Z) :=
  let* n := is_negative y in
  let* uy := from_signed y in
  let* (r, f) := overflowing_add false x uy in
  if eqb f n then Ok r else if f then u_max_value else u_min_value.
(** uint/checked.rs 132-141 [checked_signed_diff] *)
Definition u_checked_signed_diff (x y : list Z) : res (option (list Z)) :=
  let* d := wrapping_sub false x y in
  let* r := as_signed d in
  let* g := ge_const false x y in
  let* z := from_u8 0 in
  let* l := lt_const true r z in
  let overflow := eqb g l in
  Ok (if negb overflow then Some r else None).
(** int/wrapping.rs 44-46 [wrapping_sub_unsigned] *)
Definition s_wrapping_sub_unsigned (x y : list Z) : res (list Z) :=
  let* sy := from_unsigned y in wrapping_sub true x sy.
(** int/overflowing.rs 54-58 [overflowing_add_unsigned], 68-72
    [overflowing_sub_unsigned] *)
Definition s_overflowing_add_unsigned (x y : list Z) : res (list Z * bool) :=
  let* sy := as_signed y in
  let* (r, f) := overflowing_add true x sy in
  let* n := is_negative sy in
  Ok (r, xorb f n).
Definition s_overflowing_sub_unsigned (x y : list Z) : res (list Z * bool) :=
  let* sy := as_signed y in
  let* (r, f) := overflowing_sub true x sy in
  let* n := is_negative sy in
  Ok (r, xorb f n).
(** int/checked.rs 22-29, 37-44; int/strict.rs 25-30, 41-46 *)
Definition s_checked_add_unsigned (x y : list Z) : res (option (list Z)) := opt (s_overflowing_add_unsigned x y).
Definition s_checked_sub_unsigned (x y : list Z) : res (option (list Z)) := opt (s_overflowing_sub_unsigned x y).
Definition s_strict_add_unsigned (x y : list Z) : res (list Z) := unwrap (s_checked_add_unsigned x y).
Definition s_strict_sub_unsigned (x y : list Z) : res (list Z) := unwrap (s_checked_sub_unsigned x y).

(** ** Exponentiation *)

(** shared/wrapping.rs 16-36 [wrapping_pow].  [exp] is a [u32], so the loop
    body runs at most 32 times; [pow_fuel] is that bound. *)
Definition pow_fuel : nat := 32.
Fixpoint wrapping_pow_loop (sg : bool) (fuel : nat) (exp : Z) (base acc : list Z) : res (list Z) :=
  match fuel with
  | O => OutOfFuel
  | S fuel =>
      let next (acc : list Z) :=
        let exp := exp / 2 in
        let* base := wrapping_mul sg base base in
        let* _ := dassert (negb (exp =? 0)) in
        wrapping_pow_loop sg fuel exp base acc in
      if Z.land exp 1 =? 1 then
        let* acc := wrapping_mul sg acc base in
        if exp =? 1 then Ok acc else next acc
      else next acc
  end.
Definition wrapping_pow (sg : bool) (x : list Z) (exp : Z) : res (list Z) :=
  if exp =? 0 then from_u8 1
  else let* one := from_u8 1 in wrapping_pow_loop sg pow_fuel exp x one.
(** shared/overflowing.rs 19-46 [overflowing_pow] *)
Fixpoint overflowing_pow_loop (sg : bool) (fuel : nat) (exp : Z) (base acc : list Z) (overflowed : bool)
    : res (list Z * bool) :=
  match fuel with
  | O => OutOfFuel
  | S fuel =>
      let next (acc : list Z) (overflowed : bool) :=
        let exp := exp / 2 in
        let* (base, f) := overflowing_mul sg base base in
        let* _ := dassert (negb (exp =? 0)) in
        overflowing_pow_loop sg fuel exp base acc (overflowed || f) in
      if Z.land exp 1 =? 1 then
        let* (r, f) := overflowing_mul sg acc base in
        if exp =? 1 then Ok (r, f || overflowed) else next r (overflowed || f)
      else next acc overflowed
  end.
Definition overflowing_pow (sg : bool) (x : list Z) (exp : Z) : res (list Z * bool) :=
  if exp =? 0 then let* one := from_u8 1 in Ok (one, false)
  else let* one := from_u8 1 in overflowing_pow_loop sg pow_fuel exp x one false.
(** shared/checked.rs 71-76, shared/strict.rs 67-72, shared/ops.rs 20-26 *)
Definition checked_pow (sg : bool) (x : list Z) (exp : Z) : res (option (list Z)) := opt (overflowing_pow sg x exp).
Definition strict_pow (sg : bool) (x : list Z) (exp : Z) : res (list Z) := unwrap (checked_pow sg x exp).
Definition pow (sg : bool) (x : list Z) (exp : Z) : res (list Z) :=
  if negb chk then wrapping_pow sg x exp else strict_pow sg x exp.

(** ** Saturating operations *)

(** [None => Self::MAX] etc.: take the value or fall back *)
Definition or_else (m : res (option (list Z))) (d : res (list Z)) : res (list Z) :=
  let* o := m in match o with Some v => Ok v | None => d end.
(** uint/saturating.rs 22-27, 53-58, 66-71, 92-97 *)
Definition u_saturating_add (x y : list Z) : res (list Z) := or_else (checked_add false x y) u_max_value.
Definition u_saturating_sub (x y : list Z) : res (list Z) := or_else (checked_sub false x y) u_min_value.
Definition u_saturating_mul (x y : list Z) : res (list Z) := or_else (checked_mul false x y) u_max_value.
Definition u_saturating_pow (x : list Z) (exp : Z) : res (list Z) := or_else (checked_pow false x exp) u_max_value.
(** int/saturating.rs 22-28, 51-57 *)
Definition s_sat_by_sign (x : list Z) : res (list Z) :=
  let* n := is_negative x in if n then s_min_value else s_max_value.
Definition s_saturating_add (x y : list Z) : res (list Z) := or_else (checked_add true x y) (s_sat_by_sign x).
Definition s_saturating_sub (x y : list Z) : res (list Z) := or_else (checked_sub true x y) (s_sat_by_sign x).
(** int/saturating.rs 36-43, 65-72 *)
Definition s_saturating_add_unsigned (x y : list Z) : res (list Z) :=
  or_else (s_checked_add_unsigned x y) s_max_value.
Definition s_saturating_sub_unsigned (x y : list Z) : res (list Z) :=
  or_else (s_checked_sub_unsigned x y) s_min_value.
(** int/saturating.rs 80-82, 90-95 *)
Definition s_saturating_neg (x : list Z) : res (list Z) := let* z := from_u8 0 in s_saturating_sub z x.
Definition s_saturating_abs (x : list Z) : res (list Z) := or_else (s_checked_abs x) s_max_value.
(** int/saturating.rs 103-114 *)
Definition s_saturating_mul (x y : list Z) : res (list Z) :=
  or_else (checked_mul true x y)
    (let* nx := is_negative x in
     let* ny := is_negative y in
     if eqb nx ny then s_max_value else s_min_value).
(** int/saturating.rs 137-143; [&&] only evaluates [exp % 2 == 1] when needed,
    which has no effect. *)
Definition s_saturating_pow (x : list Z) (exp : Z) : res (list Z) :=
  or_else (checked_pow true x exp)
    (let* z := from_u8 0 in
     let* l := lt_const true x z in
     if l && (exp mod 2 =? 1) then s_min_value else s_max_value).

(** ** Powers of two, midpoint *)

(** uint/ops.rs 210-212 [is_power_of_two] *)
Definition is_power_of_two (x : list Z) : res bool := let* n := count_ones x in Ok (n =? 1).
(** uint/ops.rs 215-222 [one_less_than_next_power_of_two] *)
Definition one_less_than_next_power_of_two (x : list Z) : res (list Z) :=
  let* one := from_u8 1 in
  let* b := le_const false x one in
  if b then u_min_value
  else
    let* one := from_u8 1 in
    let* p := wrapping_sub false x one in
    let* z := leading_zeros p in
    let* m := u_max_value in
    wrapping_shr false m z.
(** uint/wrapping.rs 329-331, uint/checked.rs 149-151, uint/ops.rs 233-242 *)
Definition wrapping_next_power_of_two (x : list Z) : res (list Z) :=
  let* p := one_less_than_next_power_of_two x in
  let* one := from_u8 1 in wrapping_add false p one.
Definition checked_next_power_of_two (x : list Z) : res (option (list Z)) :=
  let* p := one_less_than_next_power_of_two x in
  let* one := from_u8 1 in checked_add false p one.
Definition next_power_of_two (x : list Z) : res (list Z) :=
  if negb chk then wrapping_next_power_of_two x else unwrap (checked_next_power_of_two x).
(** uint/ops.rs 131-137, int/ops.rs 251-257 [ilog2] *)
Definition ilog2 (sg : bool) (x : list Z) : res Z := unwrap (checked_ilog2 sg x).
(** uint/ops.rs 253-258 [midpoint] *)
Definition u_midpoint (x y : list Z) : res (list Z) :=
  let* xor := bitxor_const x y in
  let* h := wrapping_shr false xor 1 in
  let* a := bitand_const x y in
  wrapping_add false h a.
(** int/ops.rs 328-337 [midpoint] *)
Definition s_midpoint (x y : list Z) : res (list Z) :=
  let* xor := bitxor_const x y in
  let* h := wrapping_shr true xor 1 in
  let* a := bitand_const x y in
  let* t := wrapping_add true h a in
  let* n := is_negative t in
  let* ng := from_u8 (b2z n) in
  let* adj := bitand_const ng xor in
  wrapping_add true t adj.

(** ** Products of twice the width *)

(** uint/ops.rs 285-290 [widening_mul] *)
Definition widening_mul (x y : list Z) : res (list Z * list Z) :=
  let* (lo, hi) := mul_widening x y in
  let* lo := mk lo in
  let* hi := mk hi in
  Ok (lo, hi).
(** uint/ops.rs 308-316 [carrying_mul] *)
Definition carrying_mul (x y carry : list Z) : res (list Z * list Z) :=
  let* (lo, hi) := mul_widening x y in
  let* lo := mk lo in
  let* (lo, overflowed) := overflowing_add false lo carry in
  let* hi := mk hi in
  let* hi := add_ulimb false hi (b2z overflowed) in
  Ok (lo, hi).
(** uint/extensions.rs 11-21 [low], 26-36 [high] *)
Definition low (x : list Z) : res (list Z) :=
  let half := Nat.div N 2 in
  let* r := for_range 0 half (fun i r => let* v := get x i in set r i v) (repeat 0 N) in
  mk r.
Definition high (x : list Z) : res (list Z) :=
  let half := Nat.div N 2 in
  let* r := for_range 0 half (fun i r => let* v := get x (i + half) in set r i v) (repeat 0 N) in
  mk r.
(** uint/extensions.rs 44-59 [high_mul] *)
Definition high_mul (x y : list Z) : res (list Z) :=
  let* x1 := high x in
  let* x0 := low x in
  let* y1 := high y in
  let* y0 := low y in
  let* w0 := wrapping_mul false x0 y0 in
  let* t := wrapping_mul false x0 y1 in
  let* w0h := high w0 in
  let* m := wrapping_add false t w0h in
  let* w1 := low m in
  let* w2 := high m in
  let* t := wrapping_mul false x1 y0 in
  let* t := wrapping_add false t w1 in
  let* w3 := high t in
  let* t := wrapping_mul false x1 y1 in
  let* t := wrapping_add false t w2 in
  wrapping_add false t w3.

End M.
