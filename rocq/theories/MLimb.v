(** * Model: the remaining one-limb helpers, hashing and num-traits forwards *)

Require Import ZArith List Bool.
From Verif Require Import Prim MAdd MCore MArith MLayout.
Import ListNotations.
Local Open Scope Z_scope.

Section M.
Context {c : Cfg}.

(** ** src/math/bigint.rs *)

(** math/bigint.rs 40-43 [carrying_mul_u*]: plain arithmetic in the double-width type *)
Definition carrying_mul_limb (lhs rhs carry : Z) : res (Z * Z) :=
  let* p := umul (2 * W) lhs rhs in
  let* value := uadd (2 * W) p carry in
  let* hi := ushr (2 * W) value W in
  Ok (ucast W value, ucast W hi).
(** math/bigint.rs 58-62 [carrying_add_i*] *)
Definition carrying_add_signed (lhs rhs : Z) (carry : bool) : Z * bool :=
  let '(v, c0) := p_soverflowing_add W lhs rhs in
  let '(v, c1) := p_soverflowing_add W v (b2z carry) in
  (v, xorb c0 c1).
(** math/bigint.rs 68-72 [borrowing_sub_i*] *)
Definition borrowing_sub_signed (lhs rhs : Z) (borrow : bool) : Z * bool :=
  let '(v, b0) := p_soverflowing_sub W lhs rhs in
  let '(v, b1) := p_soverflowing_sub W v (b2z borrow) in
  (v, xorb b0 b1).

(** ** [derive(PartialEq, Eq, Hash)], shared/mod.rs 63: on the stored array *)

(** What [Hash for [ULimb; N]] (std) feeds to the hasher: the length, then the
    memory of the array. *)
Inductive hash_write := WriteLength (n : nat) | WriteBytes (b : list Z).
Definition derived_hash (be : bool) (m : list Z) : list hash_write :=
  [WriteLength (length m); WriteBytes (transmute_to_bytes be limb_bytes m)].

(** ** shared/num_traits_impls.rs *)

(** num_traits_impls.rs 84-96 [FromBytes], 99-111 [ToBytes] *)
Definition nt_from_be_bytes (be : bool) (b : list Z) : res (list Z) := from_be_bytes be b.
Definition nt_from_le_bytes (be : bool) (b : list Z) : res (list Z) := from_le_bytes be b.
Definition nt_to_be_bytes (be : bool) (m : list Z) : res (list Z) := to_be_bytes be m.
Definition nt_to_le_bytes (be : bool) (m : list Z) : res (list Z) := to_le_bytes be m.
(** num_traits_impls.rs 224-234 [Saturating] *)
Definition nt_saturating_add (sg : bool) (x y : list Z) : res (list Z) := if sg then s_saturating_add x y else u_saturating_add x y.
Definition nt_saturating_sub (sg : bool) (x y : list Z) : res (list Z) := if sg then s_saturating_sub x y else u_saturating_sub x y.
(** num_traits_impls.rs 295 [AsPrimitive] for [char]: [as u32] is the code point *)
Definition as_from_char (code : Z) : res (list Z) := from_u32 code.
(** num_traits_impls.rs 296 [AsPrimitive] for [bool] *)
Definition as_from_bool (b : bool) : res (list Z) := from_u8 (b2z b).

End M.
