(** * Model: fallible conversions and the num-traits implementations

    Covers the [TryFrom] impls (shared/traits.rs, uint/traits.rs, int/traits.rs)
    and the parts of the num-traits impls (uint/traits.rs 174-490, int/traits.rs
    143-510, shared/num_traits_impls.rs) that are not one-line calls of an
    inherent method of the same name already modelled.

    [Result<T, TryFromIntError>] is modelled as [option]: the error type has a
    single value.  A primitive integer type is a pair ([ps], [b]): signedness and
    width; [isize]/[usize] additionally carry the pointer width. *)

Require Import ZArith List Bool.
From Verif Require Import Prim MCore MArith.
Import ListNotations.
Local Open Scope Z_scope.

Section M.
Context {c : Cfg}.

(** The twelve primitive integer types. *)
Inductive prim := P8 | P16 | P32 | P64 | P128 | Psize (pw : Z).
Definition pbits (p : prim) : Z :=
  match p with P8 => 8 | P16 => 16 | P32 => 32 | P64 => 64 | P128 => 128 | Psize pw => pw end.
(** [$prim::MAX], [$prim::MIN] *)
Definition pmax (ps : bool) (p : prim) : Z := if ps then 2 ^ (pbits p - 1) - 1 else 2 ^ pbits p - 1.
Definition pmin (ps : bool) (p : prim) : Z := if ps then - 2 ^ (pbits p - 1) else 0.

(** The constructor used for each primitive source: [from_u8] ... [from_i128];
    [usize]/[isize] are widened to 128 bits first (shared/num_traits_impls.rs
    281-297; uint/traits.rs 235-237; int/traits.rs 209-211, 239-241). *)
Definition from_prim (ps : bool) (p : prim) (v : Z) : res (list Z) :=
  match p, ps with
  | P8, false => from_u8 v | P16, false => from_u16 v | P32, false => from_u32 v
  | P64, false => from_u64 v | P128, false => from_u128 v | Psize _, false => from_u128 v
  | P8, true => from_i8 v | P16, true => from_i16 v | P32, true => from_i32 v
  | P64, true => from_i64 v | P128, true => from_i128 v | Psize _, true => from_i128 v
  end.
(** [AsPrimitive], outbound (shared/num_traits_impls.rs 265-279): [as_u8] ...
    [as_i128]; [usize]/[isize] go through the 128-bit cast and a primitive [as]. *)
Definition as_prim (ps : bool) (p : prim) (x : list Z) : res Z :=
  match p, ps with
  | P8, false => as_u8 x | P16, false => as_u16 x | P32, false => as_u32 x
  | P64, false => as_u64 x | P128, false => as_u128 x
  | Psize pw, false => let* v := as_u128 x in Ok (ucast pw v)
  | P8, true => as_i8 x | P16, true => as_i16 x | P32, true => as_i32 x
  | P64, true => as_i64 x | P128, true => as_i128 x
  | Psize pw, true => let* v := as_i128 x in Ok (scast pw v)
  end.

(** ** TryFrom *)

(** shared/traits.rs 90-107, uint/traits.rs 153-159: a signed primitive into the
    unsigned type (no impl for [isize]). *)
Definition u_try_from_prim (p : prim) (v : Z) : res (option (list Z)) :=
  if 0 <=? v then let* r := from_prim true p v in Ok (Some r) else Ok None.
(** uint/traits.rs 161-172: the signed type into the unsigned one *)
Definition u_try_from_signed (x : list Z) : res (option (list Z)) :=
  let* n := is_negative x in
  if negb n then let* r := as_unsigned x in Ok (Some r) else Ok None.
(** int/traits.rs 130-141: the unsigned type into the signed one *)
Definition s_try_from_unsigned (x : list Z) : res (option (list Z)) :=
  let* m := s_max_value in
  let* mu := as_unsigned m in
  let* b := lt_const false x mu in
  if b then let* r := as_signed x in Ok (Some r) else Ok None.

(** ** num_traits::FromPrimitive, ToPrimitive, NumCast *)

(** uint/traits.rs 177-237: [n.try_into().ok().map(Self::from_uN)] for a signed
    source, [Some(Self::from_uN(n))] for an unsigned one.  The primitive
    [try_into] to the unsigned type of the same width (or [u128] for [isize])
    succeeds exactly on non-negative values. *)
Definition u_from_primitive (ps : bool) (p : prim) (v : Z) : res (option (list Z)) :=
  if ps && (v <? 0) then Ok None else let* r := from_prim false p v in Ok (Some r).
(** int/traits.rs 181-241 *)
Definition s_from_primitive (ps : bool) (p : prim) (v : Z) : res (option (list Z)) :=
  let* r := from_prim ps p v in Ok (Some r).
Definition from_primitive (sg ps : bool) (p : prim) (v : Z) : res (option (list Z)) :=
  if sg then s_from_primitive ps p v else u_from_primitive ps p v.
(** uint/traits.rs 250-369 *)
Definition u_to_primitive (ps : bool) (p : prim) (x : list Z) : res (option Z) :=
  let* above := from_prim ps p (pmax ps p) in
  let* b := le_const false x above in
  if b then let* r := as_prim ps p x in Ok (Some r) else Ok None.
(** int/traits.rs 254-385 ([&&] is lazy, both sides are total) *)
Definition s_to_primitive (ps : bool) (p : prim) (x : list Z) : res (option Z) :=
  let* above := from_prim ps p (pmax ps p) in
  let* below := from_prim ps p (pmin ps p) in
  let* b := le_const true x above in
  let* b := (if b then ge_const true x below else Ok false) in
  if b then let* r := as_prim ps p x in Ok (Some r) else Ok None.
Definition to_primitive (sg ps : bool) (p : prim) (x : list Z) : res (option Z) :=
  if sg then s_to_primitive ps p x else u_to_primitive ps p x.
(** uint/traits.rs 383-393, int/traits.rs 399-411: [n.to_i128()] and
    [n.to_u128()] are passed as [i128] and [u128]. *)
Definition num_cast (sg : bool) (i128 u128 : res (option Z)) : res (option (list Z)) :=
  if sg then
    let* i := i128 in
    match i with
    | Some v => s_from_primitive true P128 v
    | None =>
        let* u := u128 in
        match u with Some v => s_from_primitive false P128 v | None => Ok None end
    end
  else
    let* u := u128 in
    match u with Some v => u_from_primitive false P128 v | None => Ok None end.
(** [NumCast::from] applied to a big integer of the same width. *)
Definition num_cast_big (sg sg' : bool) (x : list Z) : res (option (list Z)) :=
  num_cast sg (to_primitive sg' true P128 x) (to_primitive sg' false P128 x).
(** [NumCast::from] applied to a primitive: num-traits' own [to_i128]/[to_u128]
    for primitive integers are range checks. *)
Definition num_cast_prim (sg : bool) (v : Z) : res (option (list Z)) :=
  num_cast sg (Ok (if in_s 128 v then Some v else None)) (Ok (if in_u 128 v then Some v else None)).

(** ** num_traits::Zero, One, Bounded, MulAdd (shared/num_traits_impls.rs) *)

(** num_traits_impls.rs 125-129 and 137-139, 141-145 and 153-155 *)
Definition nt_zero : res (list Z) := from_u8 0.
Definition nt_one : res (list Z) := from_u8 1.
(** num_traits_impls.rs 131-134, 147-150: [==] is the derived array comparison *)
Definition nt_is_zero (x : list Z) : res bool := let* z := nt_zero in Ok (derived_eq x z).
Definition nt_is_one (x : list Z) : res bool := let* z := nt_one in Ok (derived_eq x z).
(** num_traits_impls.rs 157-164 *)
Definition nt_mul_add (sg : bool) (x a b : list Z) : res (list Z) :=
  let* m := op_mul sg x a in op_add sg m b.

(** ** num_traits::Signed (int/traits.rs 143-179) *)

(** int/traits.rs 145-148 *)
Definition nt_abs (x : list Z) : res (list Z) := s_abs x.
(** int/traits.rs 150-157 *)
Definition nt_abs_sub (x y : list Z) : res (list Z) :=
  let* b := lt_const true x y in
  if b then nt_zero else op_sub true x y.
(** int/traits.rs 159-168 *)
Definition nt_signum (x : list Z) : res (list Z) :=
  let* z := nt_zero in
  if derived_eq x z then nt_zero
  else
    let* p := gt_const true x z in
    if p then nt_one else let* o := nt_one in op_neg o.
(** int/traits.rs 170-173, 175-178 *)
Definition nt_is_positive (x : list Z) : res bool := let* z := nt_zero in ge_const true x z.
Definition nt_is_negative (x : list Z) : res bool := let* z := nt_zero in lt_const true x z.

(** ** num_traits::PrimInt shifts (uint/traits.rs 437-455, int/traits.rs 455-473)
    [n : u32] *)
Definition nt_signed_shl (sg : bool) (x : list Z) (n : Z) : res (list Z) :=
  if sg then op_shl false 32 x n
  else let* s := cast_signed x in let* r := op_shl false 32 s n in cast_unsigned r.
Definition nt_signed_shr (sg : bool) (x : list Z) (n : Z) : res (list Z) :=
  if sg then op_shr true false 32 x n
  else let* s := cast_signed x in let* r := op_shr true false 32 s n in cast_unsigned r.
Definition nt_unsigned_shl (sg : bool) (x : list Z) (n : Z) : res (list Z) :=
  if sg then let* s := cast_unsigned x in let* r := op_shl false 32 s n in cast_signed r
  else op_shl false 32 x n.
Definition nt_unsigned_shr (sg : bool) (x : list Z) (n : Z) : res (list Z) :=
  if sg then let* s := cast_unsigned x in let* r := op_shr false false 32 s n in cast_signed r
  else op_shr false false 32 x n.

End M.
