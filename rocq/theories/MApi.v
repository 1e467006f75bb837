(** * Model: the division family of the unsigned and signed types

    [src/uint/{wrapping,overflowing,checked,saturating,strict,ops}.rs],
    [src/int/…] and [src/shared/{checked,overflowing,ops}.rs] on top of
    [math::div::full] (MDiv.v).  Conventions as in MArith.v: [sg] selects the
    signed type.  [to_le_limbs]/[from_le_limbs] are the identity and [mk] in
    logical limb order (MLayout.v). *)

Require Import ZArith List Bool.
From Verif Require Import Prim Spec MAdd MMul MCore MArith MDiv.
Import ListNotations.
Local Open Scope Z_scope.

Section M.
Context {c : Cfg}.

(** ** Wrapping *)

(** uint/wrapping.rs 228-238 [wrapping_div_rem] *)
Definition u_wrapping_div_rem (x n : list Z) : res (list Z * list Z) :=
  let* (div, rem) := div_full x n in
  let* div := mk div in
  let* rem := mk rem in
  Ok (div, rem).
(** int/wrapping.rs 74-99 [wrapping_div_rem] *)
Definition s_wrapping_div_rem (x n : list Z) : res (list Z * list Z) :=
  let* ux := unsigned_abs x in
  let* un := unsigned_abs n in
  let* (div, rem) := div_full ux un in
  let* div := mk div in
  let* div := as_signed div in
  let* rem := mk rem in
  let* rem := as_signed rem in
  let* sx := is_negative x in
  let* sn := is_negative n in
  let* div := (if negb (eqb sx sn) then s_wrapping_neg div else Ok div) in
  let* rem := (if sx then s_wrapping_neg rem else Ok rem) in
  Ok (div, rem).
Definition wrapping_div_rem (sg : bool) (x n : list Z) : res (list Z * list Z) :=
  if sg then s_wrapping_div_rem x n else u_wrapping_div_rem x n.
(** uint/wrapping.rs 251-253, int/wrapping.rs 117-119 [wrapping_div] *)
Definition wrapping_div (sg : bool) (x n : list Z) : res (list Z) :=
  let* (q, _) := wrapping_div_rem sg x n in Ok q.
(** uint/wrapping.rs 284-286, int/wrapping.rs 163-165 [wrapping_rem] *)
Definition wrapping_rem (sg : bool) (x n : list Z) : res (list Z) :=
  let* (_, r) := wrapping_div_rem sg x n in Ok r.
(** int/wrapping.rs 136-146 [wrapping_div_euclid] *)
Definition s_wrapping_div_euclid (x n : list Z) : res (list Z) :=
  let* (q, r) := wrapping_div_rem true x n in
  let* rn := is_negative r in
  if rn then
    let* np := is_positive n in
    if np then wrapping_sub_ulimb true q 1 else wrapping_add_ulimb true q 1
  else Ok q.
(** int/wrapping.rs 177-192 [wrapping_rem_euclid] *)
Definition s_wrapping_rem_euclid (x n : list Z) : res (list Z) :=
  let* r := wrapping_rem true x n in
  let* rn := is_negative r in
  if rn then let* a := s_wrapping_abs n in wrapping_add true r a else Ok r.
(** uint/wrapping.rs 268-270 [wrapping_div_euclid], 302-304
    [wrapping_rem_euclid] *)
Definition wrapping_div_euclid (sg : bool) (x n : list Z) : res (list Z) :=
  if sg then s_wrapping_div_euclid x n else wrapping_div false x n.
Definition wrapping_rem_euclid (sg : bool) (x n : list Z) : res (list Z) :=
  if sg then s_wrapping_rem_euclid x n else wrapping_rem false x n.

(** ** Checked, overflowing, strict, saturating *)

(** uint/ops.rs 11-14, int/ops.rs 11-13 [is_div_overflow] *)
Definition is_div_overflow (sg : bool) (x n : list Z) : res bool :=
  if sg then
    let* m := s_min_value in
    let* a := eq_const x m in
    let* o := from_i8 (-1) in
    let* b := eq_const n o in
    Ok (a && b)
  else Ok false.
(** uint/ops.rs 18-20, int/ops.rs 17-19 [is_div_none] *)
Definition is_div_none (sg : bool) (x n : list Z) : res bool :=
  let* z := from_u8 0 in
  let* a := eq_const n z in
  if sg then (if a then Ok true else is_div_overflow true x n) else Ok a.
(** shared/checked.rs 85-149: [if self.is_div_none(n) { None } else { Some(m) }] *)
Definition checked_by {A} (sg : bool) (x n : list Z) (m : res A) : res (option A) :=
  let* b := is_div_none sg x n in
  if b then Ok None else let* v := m in Ok (Some v).
Definition checked_div_rem (sg : bool) (x n : list Z) : res (option (list Z * list Z)) :=
  checked_by sg x n (wrapping_div_rem sg x n).
Definition checked_div (sg : bool) (x n : list Z) : res (option (list Z)) :=
  checked_by sg x n (wrapping_div sg x n).
Definition checked_rem (sg : bool) (x n : list Z) : res (option (list Z)) :=
  checked_by sg x n (wrapping_rem sg x n).
Definition checked_div_euclid (sg : bool) (x n : list Z) : res (option (list Z)) :=
  checked_by sg x n (wrapping_div_euclid sg x n).
Definition checked_rem_euclid (sg : bool) (x n : list Z) : res (option (list Z)) :=
  checked_by sg x n (wrapping_rem_euclid sg x n).
(** shared/overflowing.rs 57-63 [overflowing_div_rem] *)
Definition overflowing_div_rem (sg : bool) (x n : list Z) : res (list Z * list Z * bool) :=
  let* o := is_div_overflow sg x n in
  if o then let* z := from_u8 0 in Ok (x, z, true)
  else let* qr := wrapping_div_rem sg x n in Ok (qr, false).
(** uint/overflowing.rs 122-124 and 141-143, int/overflowing.rs 102-108 and
    120-126; the unsigned [is_div_overflow] is constantly false, so the two
    shapes agree. *)
Definition overflowing_div (sg : bool) (x n : list Z) : res (list Z * bool) :=
  let* o := is_div_overflow sg x n in
  if o then Ok (x, true) else let* q := wrapping_div sg x n in Ok (q, false).
Definition overflowing_div_euclid (sg : bool) (x n : list Z) : res (list Z * bool) :=
  let* o := is_div_overflow sg x n in
  if o then Ok (x, true) else let* q := wrapping_div_euclid sg x n in Ok (q, false).
(** uint/overflowing.rs 157-159 and 177-179, int/overflowing.rs 138-144 and
    156-162 *)
Definition overflowing_rem (sg : bool) (x n : list Z) : res (list Z * bool) :=
  let* o := is_div_overflow sg x n in
  if o then
    let* z := from_u8 0 in
    let* m := s_min_value in
    let* b := eq_const x m in
    Ok (z, b)
  else let* r := wrapping_rem sg x n in Ok (r, false).
Definition overflowing_rem_euclid (sg : bool) (x n : list Z) : res (list Z * bool) :=
  let* o := is_div_overflow sg x n in
  if o then
    let* z := from_u8 0 in
    let* m := s_min_value in
    let* b := eq_const x m in
    Ok (z, b)
  else let* r := wrapping_rem_euclid sg x n in Ok (r, false).
(** uint/strict.rs 44-112, int/strict.rs 61-127 *)
Definition strict_div (sg : bool) (x n : list Z) : res (list Z) := unwrap (checked_div sg x n).
Definition strict_rem (sg : bool) (x n : list Z) : res (list Z) := unwrap (checked_rem sg x n).
Definition strict_div_euclid (sg : bool) (x n : list Z) : res (list Z) := unwrap (checked_div_euclid sg x n).
Definition strict_rem_euclid (sg : bool) (x n : list Z) : res (list Z) := unwrap (checked_rem_euclid sg x n).
(** uint/saturating.rs 81-84, int/saturating.rs 124-129 [saturating_div] *)
Definition saturating_div (sg : bool) (x n : list Z) : res (list Z) :=
  if sg then
    let* (r, f) := overflowing_div true x n in
    if f then s_max_value else Ok r
  else wrapping_div false x n.

(** ** Operators and inherent operations *)

(** shared/ops.rs 36-45 [div_rem], 69-83 [Div], 101-115 [Rem] *)
Definition div_rem (sg : bool) (x n : list Z) : res (list Z * list Z) :=
  if negb chk then wrapping_div_rem sg x n else unwrap (checked_div_rem sg x n).
Definition op_div (sg : bool) (x n : list Z) : res (list Z) :=
  if negb chk then wrapping_div sg x n else unwrap (checked_div sg x n).
Definition op_rem (sg : bool) (x n : list Z) : res (list Z) :=
  if negb chk then wrapping_rem sg x n else unwrap (checked_rem sg x n).
(** uint/ops.rs 39-48, int/ops.rs 90-99 [div_euclid] *)
Definition div_euclid (sg : bool) (x n : list Z) : res (list Z) :=
  if negb chk then wrapping_div_euclid sg x n else unwrap (checked_div_euclid sg x n).
(** uint/ops.rs 61-70 (which calls [wrapping_rem]), int/ops.rs 112-121
    [rem_euclid] *)
Definition rem_euclid (sg : bool) (x n : list Z) : res (list Z) :=
  if negb chk then (if sg then wrapping_rem_euclid true x n else wrapping_rem false x n)
  else unwrap (checked_rem_euclid sg x n).
(** uint/ops.rs 82-84 [div_floor] *)
Definition u_div_floor (x n : list Z) : res (list Z) := wrapping_div false x n.
(** uint/ops.rs 94-102 [div_ceil] *)
Definition u_div_ceil (x n : list Z) : res (list Z) :=
  let* (d, r) := wrapping_div_rem false x n in
  let* z := from_u8 0 in
  let* e := eq_const r z in
  if negb e then wrapping_add_ulimb false d 1 else Ok d.
(** int/ops.rs 131-146 [div_floor] *)
Definition s_div_floor (x n : list Z) : res (list Z) :=
  let* (d, r) := wrapping_div_rem true x n in
  let* sx := is_negative x in
  let* sn := is_negative n in
  let correction := xorb sx sn in
  let* z := from_u8 0 in
  let* e := eq_const r z in
  if negb e then wrapping_sub_ulimb true d (b2z correction) else Ok d.
(** int/ops.rs 156-167 [div_ceil] *)
Definition s_div_ceil (x n : list Z) : res (list Z) :=
  let* (d, r) := wrapping_div_rem true x n in
  let* one := from_u8 1 in
  let* xor := bitxor_const x n in
  let* s := usub 32 tbits 1 in
  let* mask := op_shr true false 32 xor s in
  let* correction := op_add true one mask in
  let* z := from_u8 0 in
  let* e := eq_const r z in
  if negb e then wrapping_add true d correction else Ok d.

(** uint/ops.rs 183-190 [next_multiple_of]; the constant pattern [Self::MIN]
    compares the limb arrays. *)
Definition u_next_multiple_of (x n : list Z) : res (list Z) :=
  let* r := op_rem false x n in
  let* m := u_min_value in
  if derived_eq r m then Ok x
  else let* d := op_sub false n r in op_add false x d.
(** uint/checked.rs 119-126 [checked_next_multiple_of] *)
Definition u_checked_next_multiple_of (x n : list Z) : res (option (list Z)) :=
  let* o := checked_rem false x n in
  match o with
  | None => Ok None
  | Some r =>
      let* m := u_min_value in
      if derived_eq r m then Ok (Some x)
      else let* d := wrapping_sub false n r in checked_add false x d
  end.
(** uint/ops.rs 199-204 [is_multiple_of] *)
Definition u_is_multiple_of (x n : list Z) : res bool :=
  let* m := u_min_value in
  if derived_eq n m then eq_const x m
  else let* r := wrapping_rem false x n in eq_const r m.
(** int/ops.rs 181-201 [next_multiple_of]; the comparisons have no effects, so
    evaluating all four instead of short-circuiting changes nothing. *)
Definition s_next_multiple_of (x n : list Z) : res (list Z) :=
  let* o := from_i8 (-1) in
  let* b := eq_const n o in
  if b then Ok x
  else
    let* zero := from_u8 0 in
    let* r := op_rem true x n in
    let* rp := gt_const true r zero in
    let* nn := lt_const true n zero in
    let* rn := lt_const true r zero in
    let* np := gt_const true n zero in
    let* m := (if (rp && nn) || (rn && np) then op_add true r n else Ok r) in
    let* e := eq_const m zero in
    if e then Ok x
    else let* d := op_sub true n m in op_add true x d.
(** int/checked.rs 123-144 [checked_next_multiple_of] *)
Definition s_checked_next_multiple_of (x n : list Z) : res (option (list Z)) :=
  let* o := from_i8 (-1) in
  let* b := eq_const n o in
  if b then Ok (Some x)
  else
    let* zero := from_u8 0 in
    let* o := checked_rem true x n in
    match o with
    | None => Ok None
    | Some r =>
        let* rp := is_positive r in
        let* nn := is_negative n in
        let* rn := is_negative r in
        let* np := is_positive n in
        let* m := (if (rp && nn) || (rn && np) then op_add true r n else Ok r) in
        let* e := eq_const m zero in
        if e then Ok (Some x)
        else let* d := op_sub true n m in checked_add true x d
    end.

(** ** Logarithm to an arbitrary base *)

(** uint/checked.rs 79-82, the loop [while r <= self / base { n += 1; r *= base; }] *)
Fixpoint ilog_loop (fuel : nat) (x base : list Z) (n : Z) (r : list Z) : res Z :=
  match fuel with
  | O => OutOfFuel
  | S fuel =>
      let* q := op_div false x base in
      let* b := le_const false r q in
      if b then
        let* n := uadd 32 n 1 in
        let* r := op_mul false r base in
        ilog_loop fuel x base n r
      else Ok n
  end.
(** uint/checked.rs 55-84 [checked_ilog].  [Self::BITS >= UWide::BITS] is true
    for every type of the crate; both branches are modelled.  The number of
    loop iterations is bounded by a parameter, see [u_checked_ilog]. *)
Definition u_checked_ilog_fuel (fuel : nat) (x base : list Z) : res (option Z) :=
  let* zero := from_u8 0 in
  let* bz := le_const false base zero in
  let* xb := lt_const false x base in
  if derived_eq x zero || bz || xb then Ok None
  else
    let* (n, r) :=
      (if 2 * W <=? tbits then
         let* lx := ilog2 false x in
         let* lb := ilog2 false base in
         let* d := uadd 32 lb 1 in
         let* n := udiv lx d in
         let* r := pow false base n in
         Ok (n, r)
       else Ok (1, base)) in
    let* n := ilog_loop fuel x base n r in
    Ok (Some n).
(** Enough iterations for every base of at least two (proved in PIlog.v). *)
Definition u_checked_ilog (x base : list Z) : res (option Z) :=
  u_checked_ilog_fuel (S (Z.to_nat tbits)) x base.
(** uint/ops.rs 117-123 [ilog] *)
Definition u_ilog (x base : list Z) : res Z := unwrap (u_checked_ilog x base).
(** int/checked.rs 86-91 [checked_ilog] *)
Definition s_checked_ilog (x base : list Z) : res (option Z) :=
  let* zero := from_u8 0 in
  let* a := le_const true x zero in
  let* one := from_u8 1 in
  let* b := le_const true base one in
  if a || b then Ok None
  else
    let* ux := as_unsigned x in
    let* ub := as_unsigned base in
    let* r := u_ilog ux ub in
    Ok (Some r).
(** int/ops.rs 231-241 [ilog] *)
Definition s_ilog (x base : list Z) : res Z :=
  let* two := from_u8 2 in
  let* g := ge_const true base two in
  let* _ := assert_ g in
  unwrap (s_checked_ilog x base).

End M.
