(** * Model: the unsafe parts

    MArith.v stops the [unchecked_*] methods with [Panic] where the code runs
    into [unreachable_unchecked].  Here undefined behaviour is an outcome of its
    own.  The other unsafe blocks of the crate are [transmute]s between arrays,
    for which the sizes are what matters, and the [div] instruction (MAsm.v). *)

Require Import ZArith List Bool.
From Verif Require Import Prim Spec MAdd MMul MShift MCore MArith.
Import ListNotations.
Local Open Scope Z_scope.

(** What a call does: it returns, panics, does not finish, or is undefined. *)
Inductive outcome (A : Type) : Type := Returns (a : A) | Panics | Unfinished | Undefined.
Arguments Returns {A}. Arguments Panics {A}. Arguments Unfinished {A}. Arguments Undefined {A}.

(** [match o { Some(value) => value, None => unreachable_unchecked() }] *)
Definition unwrap_unchecked {A} (m : res (option A)) : outcome A :=
  match m with
  | Ok (Some v) => Returns v
  | Ok None => Undefined
  | Panic => Panics
  | OutOfFuel => Unfinished
  end.

Section M.
Context {c : Cfg}.

(** shared/unchecked.rs 32-38, 59-65, 86-92 *)
Definition unsafe_add (sg : bool) (x y : list Z) : outcome (list Z) := unwrap_unchecked (checked_add sg x y).
Definition unsafe_sub (sg : bool) (x y : list Z) : outcome (list Z) := unwrap_unchecked (checked_sub sg x y).
Definition unsafe_mul (sg : bool) (x y : list Z) : outcome (list Z) := unwrap_unchecked (checked_mul sg x y).
(** shared/unchecked.rs 109-115, 132-138 *)
Definition unsafe_shl (x : list Z) (n : Z) : outcome (list Z) := unwrap_unchecked (checked_shl x n).
Definition unsafe_shr (sg : bool) (x : list Z) (n : Z) : outcome (list Z) := unwrap_unchecked (checked_shr sg x n).
(** int/unchecked.rs 27-33 *)
Definition unsafe_neg (x : list Z) : outcome (list Z) := unwrap_unchecked (s_checked_neg x).

End M.

(** ** Transmutes

    A [transmute] between two arrays of integers: size and number of elements on
    either side.  All bit patterns are values, so equal sizes are all it needs. *)
Definition side := (Z * Z)%type.
Definition same_size (s : side * side) : bool :=
  let '((a, m), (b, n)) := s in a * m =? b * n.

(** A type of [bits] bits over limbs of [limb] bytes: shared/endian.rs 11-13
    [BYTES], [U32_LEN], [U64_LEN]; shared/constants.rs 40, 43 [LIMBS], [WIDE] *)
Definition t_bytes (bits : Z) : Z := bits / 8.
Definition t_limbs (bits limb : Z) : Z := bits / 8 / limb.
Definition t_wide (bits limb : Z) : Z := bits / 8 / (2 * limb).
Definition t_u32_len (bits : Z) : Z := t_bytes bits / 4.
Definition t_u64_len (bits : Z) : Z := t_bytes bits / 8.

(** shared/endian.rs 156, 196, 331, 373, 416, 458, 501, 543 *)
Definition endian_transmutes (bits limb : Z) : list (side * side) :=
  let bytes := (1, t_bytes bits) in
  let limbs := (limb, t_limbs bits limb) in
  let wide := (2 * limb, t_wide bits limb) in
  let u32s := (4, t_u32_len bits) in
  let u64s := (8, t_u64_len bits) in
  [(limbs, bytes); (bytes, limbs); (bytes, wide); (wide, bytes);
   (bytes, u32s); (u32s, bytes); (bytes, u64s); (u64s, bytes)].
(** shared/extensions.rs 47, with [LIMB] and [WIDE] the sizes of the limb and
    the wide type (29-31); the wide type has twice the bits of the limb
    (types.rs) *)
Definition wide_transmute (limb : Z) : side * side := ((limb, 2), (1, 2 * limb)).
(** util.rs 106, compiled for 32-bit limbs only *)
Definition u128_transmute : side * side := ((1, 16), (4, 4)).
