(** * The code with its defects corrected: shifts, conversions, writing

    Continues MFix.v and MFix2.v, under the same rules: not the code of /repo, but
    its definitions with one place changed.  Each comment names the definition
    of the code and the change. *)

Require Import ZArith List Bool.
From Verif Require Import Prim Spec MCore MArith MScalar MApi MTraits MWrite MFix.
Import ListNotations.
Local Open Scope Z_scope.

Section M.
Context {c : Cfg}.

(** ** Shifts *)

(** shift.rs 11-16, 25-30 ([op_shl], [op_shr]): the test is
    [other >= 0 && (other as u128) < Self::BITS as u128], where the code
    truncates [BITS] to the amount's type *)
Definition fix_amount (other : Z) : res unit :=
  if chk then assert_ ((0 <=? other) && (ucast 128 other <? ucast 128 tbits)) else Ok tt.
Definition fix_op_shl (x : list Z) (other : Z) : res (list Z) :=
  let* _ := fix_amount other in wrapping_shl x (ucast 32 other).
Definition fix_op_shr (sg : bool) (x : list Z) (other : Z) : res (list Z) :=
  let* _ := fix_amount other in wrapping_shr sg x (ucast 32 other).
(** shared/ops.rs 150-170 ([op_shl_self], [op_shr_self]): with the code of
    shift.rs 40-48 and 56-64, which serves the amounts of the other signedness *)
Definition fix_op_shl_self (sg : bool) (x other : list Z) : res (list Z) := op_shl_big sg x other.
Definition fix_op_shr_self (sg : bool) (x other : list Z) : res (list Z) := op_shr_big sg sg x other.
(** shared/unbounded.rs 35-41 ([unbounded_shr]): a negative number leaves -1 *)
Definition fix_unbounded_shr (sg : bool) (x : list Z) (rhs : Z) : res (list Z) :=
  if rhs <? tbits then wrapping_shr sg x rhs
  else
    let* n := (if sg then is_negative x else Ok false) in
    if n then let* z := from_u8 0 in not_const z else from_u8 0.

(** ** Arithmetic *)

(** shared/bigint.rs 23-27, 42-46 ([big_carrying_add], [big_borrowing_sub]): in
    the signed type two overflows cancel *)
Definition fix_carrying_add (sg : bool) (x y : list Z) (carry : bool) : res (list Z * bool) :=
  let* (a, b) := overflowing_add sg x y in
  let* (r, d) := overflowing_add_ulimb sg a (b2z carry) in
  Ok (r, if sg then xorb b d else b || d).
Definition fix_borrowing_sub (sg : bool) (x y : list Z) (borrow : bool) : res (list Z * bool) :=
  let* (a, b) := overflowing_sub sg x y in
  let* (r, d) := overflowing_sub_ulimb sg a (b2z borrow) in
  Ok (r, if sg then xorb b d else b || d).
(** int/ops.rs 328-337 ([s_midpoint]): without the adjustment *)
Definition fix_s_midpoint (x y : list Z) : res (list Z) :=
  let* xor := bitxor_const x y in
  let* h := wrapping_shr true xor 1 in
  let* a := bitand_const x y in
  wrapping_add true h a.
(** int/ops.rs 279-284 ([s_abs]): as the operators do *)
Definition fix_s_abs (x : list Z) : res (list Z) := if negb chk then s_wrapping_abs x else unwrap (s_checked_abs x).
(** int/ops.rs 78-167 ([div_euclid], [rem_euclid], [s_div_floor], [s_div_ceil]):
    refused where documented, over the division corrected in MFix.v *)
Definition refuse {A} (x n : list Z) (m : res A) : res A :=
  let* b := is_div_none true x n in if b then Panic else m.
Definition fix_s_div_euclid (x n : list Z) : res (list Z) := refuse x n (d_wrapping_div_euclid fix_wrapping_div_rem true x n).
Definition fix_s_rem_euclid (x n : list Z) : res (list Z) := refuse x n (d_wrapping_rem_euclid fix_wrapping_div_rem true x n).
Definition fix_s_div_floor (x n : list Z) : res (list Z) := refuse x n (d_s_div_floor fix_wrapping_div_rem x n).
Definition fix_s_div_ceil (x n : list Z) : res (list Z) := refuse x n (d_s_div_ceil fix_wrapping_div_rem x n).

(** ** Traits *)

(** int/traits.rs 130-141 ([s_try_from_unsigned]): [<=] for [<] *)
Definition fix_s_try_from_unsigned (x : list Z) : res (option (list Z)) :=
  let* m := s_max_value in
  let* mu := as_unsigned m in
  let* b := le_const false x mu in
  if b then let* r := as_signed x in Ok (Some r) else Ok None.
(** int/traits.rs 170-173 ([nt_is_positive]): [>] for [>=] *)
Definition fix_nt_is_positive (x : list Z) : res bool := let* z := nt_zero in gt_const true x z.

(** ** Writing *)

(** write.rs 30-70 ([to_str_radix]): a negative number is written as the minus
    sign and its magnitude in the unsigned type *)
Definition fix_to_str_radix (sg : bool) (x buffer : list Z) (radix : Z) : res (list Z * nat) :=
  if (radix <? 2) || (36 <? radix) then Panic
  else if Z.of_nat (length buffer) <? BITS + b2z sg then Panic
  else
    let* n := (if sg then is_negative x else Ok false) in
    if n then
      let* a := unsigned_abs x in
      let* (buffer, index) := to_str_radix false a buffer radix in
      let* index := idx_pred index in
      let* buffer := set buffer index 45 in
      Ok (buffer, index)
    else to_str_radix sg x buffer radix.
(** what the formatting traits hand to the formatter: the padding first, counted
    over all that follows *)
Definition fix_pad (f : fmt) (body : list Z) : list Z := padding f (Z.of_nat (length body)) ++ body.
(** uint/traits.rs 32-41, int/traits.rs 62-72 [Display]: with the width *)
Definition fix_u_display (x : list Z) (f : fmt) : res (option (list Z)) :=
  let* r := u_display x in Ok (option_map (fun s => fix_pad f ((if sign_plus f then [43] else []) ++ s)) r).
Definition fix_s_display (x : list Z) (f : fmt) : res (option (list Z)) :=
  let* r := s_display x f in Ok (option_map (fix_pad f) r).
(** uint/traits.rs 12-30, 109-127 ([u_binary_octal]): the padding before the prefix *)
Definition fix_u_binary_octal (radix tag : Z) (x : list Z) (f : fmt) : res (option (list Z)) :=
  let* r := to_str_radix false x BUF radix in
  Ok (option_map (fun s => fix_pad f ((if alternate f then [48; tag] else []) ++ s)) (from_utf8 (slice r))).
Definition fix_u_binary := fix_u_binary_octal 2 98.
Definition fix_u_octal := fix_u_binary_octal 8 111.
(** uint/traits.rs 43-63, 65-85 ([u_hex]): likewise *)
Definition fix_u_hex (case : Z -> Z) (x : list Z) (f : fmt) : res (option (list Z)) :=
  let* r := to_str_radix false x BUF 16 in
  let count := length (slice r) in
  let bytes := skipn (length (fst r) - count) (map case (fst r)) in
  Ok (option_map (fun s => fix_pad f ((if alternate f then [48; 120] else []) ++ s)) (from_utf8 bytes)).
Definition fix_u_lower_hex := fix_u_hex to_lower.
Definition fix_u_upper_hex := fix_u_hex to_upper.
(** uint/traits.rs 87-96, 98-107 ([u_exp]): the point only before digits *)
Definition fix_u_exp (tag : Z) (x : list Z) : res (option (list Z)) :=
  let* r := to_str_radix false x BUF 10 in
  let bytes := slice r in
  match bytes with
  | [] => Panic
  | b :: t => match from_utf8 t with
              | None => Ok None
              | Some s => Ok (Some (b :: (match s with [] => [] | _ => 46 :: s end) ++ tag :: std_display (Z.of_nat (length bytes) - 1)))
              end
  end.
(** int/traits.rs 74-84, 102-112 ([s_exp]), 54-60, 86-92, 94-100, 114-120
    ([s_wrapping]): over the above *)
Definition fix_s_exp (tag : Z) := s_signed (fix_u_exp tag).
Definition fix_s_binary := s_wrapping fix_u_binary.
Definition fix_s_octal := s_wrapping fix_u_octal.
Definition fix_s_lower_hex := s_wrapping fix_u_lower_hex.
Definition fix_s_upper_hex := s_wrapping fix_u_upper_hex.

End M.
