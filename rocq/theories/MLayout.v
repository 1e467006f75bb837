(** * Model of the memory layout: src/shared/endian.rs, the index helpers of
    src/util.rs and the accessors of src/shared/extensions.rs

    The other model files keep a value as the list of its limbs, least
    significant first.  Here a value is the [limbs] array itself, in memory
    order, on a target of either byte order ([be = true] for big endian), and
    [core::mem::transmute] between arrays of unsigned integers goes through
    the bytes. *)

Require Import ZArith List Bool.
From Verif Require Import Prim.
Import ListNotations.
Local Open Scope Z_scope.

(** ** Primitive integers in memory *)

(** The [k] bytes of a primitive, least significant first. *)
Fixpoint le_bytes (k : nat) (v : Z) : list Z :=
  match k with O => [] | S k => v mod 256 :: le_bytes k (v / 256) end.
Fixpoint le_value (l : list Z) : Z :=
  match l with [] => 0 | b :: t => b + 256 * le_value t end.
(** [uN::to_ne_bytes], [uN::from_ne_bytes] of a primitive of [k] bytes *)
Definition p_to_ne_bytes (be : bool) (k : nat) (v : Z) : list Z :=
  if be then rev (le_bytes k v) else le_bytes k v.
Definition p_from_ne_bytes (be : bool) (b : list Z) : Z :=
  le_value (if be then rev b else b).
(** [uN::swap_bytes] *)
Definition p_swap_bytes (k : nat) (v : Z) : Z := le_value (rev (le_bytes k v)).
(** [uN::reverse_bits] of a [n]-bit primitive *)
Fixpoint p_reverse_bits (n : nat) (v : Z) : Z :=
  match n with O => 0 | S n => v mod 2 * 2 ^ Z.of_nat n + p_reverse_bits n (v / 2) end.

(** Cut [n] pieces of [k] elements. *)
Fixpoint chunks (n k : nat) (l : list Z) : list (list Z) :=
  match n with O => [] | S n => firstn k l :: chunks n k (skipn k l) end.

(** [transmute::<[uA; m], [u8; m * ka]>] with [ka] bytes per element *)
Definition transmute_to_bytes (be : bool) (ka : nat) (l : list Z) : list Z :=
  concat (map (p_to_ne_bytes be ka) l).
(** [transmute::<[u8; n * kb], [uB; n]>] *)
Definition transmute_from_bytes (be : bool) (kb n : nat) (b : list Z) : list Z :=
  map (p_from_ne_bytes be) (chunks n kb b).

(** ** src/util.rs *)

(** util.rs 9-15 [to_ne_index].  [n - 1 - index] on [usize] panics, or wraps
    to an index no array has, when [index >= n]; both end in a panic at the
    array access. *)
Definition to_ne_index (be : bool) (index n : nat) : res nat :=
  if be then (if (index <? n)%nat then Ok (n - 1 - index)%nat else Panic) else Ok index.
(** util.rs 20-28 [ne_index!], reading and writing *)
Definition ne_get (be : bool) (a : list Z) (i : nat) : res Z :=
  let* j := to_ne_index be i (length a) in get a j.
Definition ne_set (be : bool) (a : list Z) (i : nat) (v : Z) : res (list Z) :=
  let* j := to_ne_index be i (length a) in set a j v.
(** util.rs 33-44 [swap_array!] *)
Definition swap_array (value : list Z) : res (list Z) :=
  for_range 0 (length value)
    (fun i res => let* v := get value (length value - i - 1) in set res i v) value.

(** ** src/shared/endian.rs *)
Section Layout.
Context {c : Cfg}.
(** [cfg!(target_endian = "big")] *)
Variable be : bool.

(** [size_of::<ULimb>()] *)
Definition limb_bytes : nat := Z.to_nat (W / 8).
(** endian.rs 11 [BYTES = Self::BITS as usize / 8], where types.rs defines [BITS] as
    the limb width times the number of limbs *)
Definition BYTES : nat := Z.to_nat (W * Z.of_nat N / 8).
(** endian.rs 12-13 [U32_LEN], [U64_LEN]; constants.rs 43 [WIDE] *)
Definition U32_LEN : nat := (BYTES / 4)%nat.
Definition U64_LEN : nat := (BYTES / 8)%nat.
Definition WIDE_LEN : nat := (BYTES / (2 * limb_bytes))%nat.

(** endian.rs 25-35 [swap_bytes] *)
Definition mem_swap_bytes (x : list Z) : res (list Z) :=
  for_range 0 N
    (fun i r => let* v := get x (N - 1 - i) in set r i (p_swap_bytes limb_bytes v))
    (repeat 0 N).
(** endian.rs 44-54 [reverse_bits] *)
Definition mem_reverse_bits (x : list Z) : res (list Z) :=
  for_range 0 N
    (fun i r => let* v := get x (N - 1 - i) in set r i (p_reverse_bits (Z.to_nat W) v))
    (repeat 0 N).
(** endian.rs 64-70 [from_be], 80-86 [from_le], 96-102 [to_be], 112-118 [to_le] *)
Definition from_be (x : list Z) : res (list Z) := if be then Ok x else mem_swap_bytes x.
Definition from_le (x : list Z) : res (list Z) := if negb be then Ok x else mem_swap_bytes x.
Definition to_be (x : list Z) : res (list Z) := if be then Ok x else mem_swap_bytes x.
Definition to_le (x : list Z) : res (list Z) := if negb be then Ok x else mem_swap_bytes x.

(** endian.rs 286-291 [from_ne_limbs], 241-243 [to_ne_limbs] *)
Definition from_ne_limbs (l : list Z) : res (list Z) :=
  let* _ := assert_ (W * Z.of_nat N mod 128 =? 0) in Ok l.
Definition to_ne_limbs (x : list Z) : res (list Z) := Ok x.
(** endian.rs 208-214 [to_be_limbs], 223-229 [to_le_limbs] *)
Definition to_be_limbs (x : list Z) : res (list Z) :=
  let* l := to_ne_limbs x in if negb be then swap_array l else Ok l.
Definition to_le_limbs (x : list Z) : res (list Z) :=
  let* l := to_ne_limbs x in if negb be then Ok l else swap_array l.
(** endian.rs 252-258 [from_be_limbs], 267-273 [from_le_limbs] *)
Definition from_be_limbs (l : list Z) : res (list Z) :=
  if be then from_ne_limbs l else let* l := swap_array l in from_ne_limbs l.
Definition from_le_limbs (l : list Z) : res (list Z) :=
  if be then (let* l := swap_array l in from_ne_limbs l) else from_ne_limbs l.

(** endian.rs 153-158 [to_ne_bytes], 126-128 [to_be_bytes], 136-138 [to_le_bytes] *)
Definition to_ne_bytes (x : list Z) : res (list Z) :=
  Ok (transmute_to_bytes be limb_bytes x).
Definition to_be_bytes (x : list Z) : res (list Z) :=
  let* x := to_be x in to_ne_bytes x.
Definition to_le_bytes (x : list Z) : res (list Z) :=
  let* x := to_le x in to_ne_bytes x.
(** endian.rs 193-199 [from_ne_bytes], 166-168 [from_be_bytes], 176-178 [from_le_bytes] *)
Definition from_ne_bytes (b : list Z) : res (list Z) :=
  from_ne_limbs (transmute_from_bytes be limb_bytes N b).
Definition from_be_bytes (b : list Z) : res (list Z) :=
  let* x := from_ne_bytes b in to_be x.
Definition from_le_bytes (b : list Z) : res (list Z) :=
  let* x := from_ne_bytes b in to_le x.

(** The three families of word arrays, endian.rs 297-376 ([UWide]), 382-461 ([u32]) and
    467-546 ([u64]), have the same text up to the element type: [k] is its
    size in bytes and [n] the number of elements. *)
Section Words.
Variables (k n : nat).
(** endian.rs 327-333, 412-418, 497-503 [to_ne_*] *)
Definition to_ne_words (x : list Z) : res (list Z) :=
  let* bytes := to_ne_bytes x in Ok (transmute_from_bytes be k n bytes).
(** endian.rs 297-303, 382-388, 467-473 [to_be_*] *)
Definition to_be_words (x : list Z) : res (list Z) :=
  let* l := to_ne_words x in if negb be then swap_array l else Ok l.
(** endian.rs 309-315, 394-400, 479-485 [to_le_*] *)
Definition to_le_words (x : list Z) : res (list Z) :=
  let* l := to_ne_words x in if negb be then Ok l else swap_array l.
(** endian.rs 370-376, 455-461, 540-546 [from_ne_*] *)
Definition from_ne_words (l : list Z) : res (list Z) :=
  from_ne_bytes (transmute_to_bytes be k l).
(** endian.rs 339-345, 424-430, 509-515 [from_be_*] *)
Definition from_be_words (l : list Z) : res (list Z) :=
  if be then from_ne_words l else let* l := swap_array l in from_ne_words l.
(** endian.rs 351-357, 436-442, 521-527 [from_le_*] *)
Definition from_le_words (l : list Z) : res (list Z) :=
  if be then (let* l := swap_array l in from_ne_words l) else from_ne_words l.
End Words.

Definition to_ne_wide := to_ne_words (2 * limb_bytes) WIDE_LEN.
Definition to_be_wide := to_be_words (2 * limb_bytes) WIDE_LEN.
Definition to_le_wide := to_le_words (2 * limb_bytes) WIDE_LEN.
Definition from_ne_wide := from_ne_words (2 * limb_bytes).
Definition from_be_wide := from_be_words (2 * limb_bytes).
Definition from_le_wide := from_le_words (2 * limb_bytes).
Definition to_ne_u32 := to_ne_words 4 U32_LEN.
Definition to_be_u32 := to_be_words 4 U32_LEN.
Definition to_le_u32 := to_le_words 4 U32_LEN.
Definition from_ne_u32 := from_ne_words 4.
Definition from_be_u32 := from_be_words 4.
Definition from_le_u32 := from_le_words 4.
Definition to_ne_u64 := to_ne_words 8 U64_LEN.
Definition to_be_u64 := to_be_words 8 U64_LEN.
Definition to_le_u64 := to_le_words 8 U64_LEN.
Definition from_ne_u64 := from_ne_words 8.
Definition from_be_u64 := from_be_words 8.
Definition from_le_u64 := from_le_words 8.

(** ** src/shared/extensions.rs *)

(** extensions.rs 19-21 [get_limb] *)
Definition mem_get_limb (x : list Z) (index : nat) : res Z := ne_get be x index.
(** extensions.rs 28-49 [get_wide].  [Self::LIMBS - 2 * (index + 1)] cannot
    underflow after the second assertion. *)
Definition mem_get_wide (x : list Z) (index : nat) : res Z :=
  let* _ := assert_ (2 * limb_bytes / limb_bytes =? 2)%nat in
  let* _ := assert_ (index <? WIDE_LEN)%nat in
  let offset := if be then (N - 2 * (index + 1))%nat else (2 * index)%nat in
  let* lo := get x offset in
  let* hi := get x (offset + 1) in
  Ok (p_from_ne_bytes be (p_to_ne_bytes be limb_bytes lo ++ p_to_ne_bytes be limb_bytes hi)).

(** util.rs 101-107 [u128_to_limb] *)
Definition mem_u128_to_limb (v : Z) : res (list Z) :=
  let* _ := assert_ (W =? 32) in
  Ok (transmute_from_bytes be 4 4 (p_to_ne_bytes be 16 v)).
End Layout.
