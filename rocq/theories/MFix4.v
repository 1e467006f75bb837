(** * The formatting traits, corrected for all flags (for C101)

    The bodies of uint/traits.rs 12-127 and int/traits.rs 54-120 with the digits handed
    to [core::fmt::Formatter::pad_integral], as the primitive types do, and the zeros at
    the end of the digits moved into the exponent. *)

Require Import ZArith List Bool.
From Verif Require Import Prim Spec MCore MArith MScalar MWrite LangText FlagSpec.
Import ListNotations.
Local Open Scope Z_scope.

Section M.
Context {c : Cfg}.

(** *not the code*: [core::fmt::Formatter::pad_integral].  [padding] with an alignment:
    the characters before and after. *)
Definition std_padding (g : flags) (n : nat) : nat * nat :=
  match align g with
  | Some ALeft => (0, n)
  | Some ACenter => (n / 2, (n + 1) / 2)
  | Some ARight | None => (n, 0)
  end%nat.
Definition pad_integral (g : flags) (is_nonnegative : bool) (prefix buf : list Z) : list Z :=
  let sign := if is_nonnegative then (if sign_plus (base g) then [43] else []) else [45] in
  let prefix := if alternate (base g) then prefix else [] in
  let len := Z.of_nat (length buf + length sign + length prefix) in
  match width (base g) with
  | None => sign ++ prefix ++ buf
  | Some min =>
      if min <=? len then sign ++ prefix ++ buf
      else if zero g then sign ++ prefix ++ repeat 48 (Z.to_nat (min - len)) ++ buf
      else let (pre, post) := std_padding g (Z.to_nat (min - len)) in
           concat (repeat (fill (base g)) pre) ++ sign ++ prefix ++ buf ++ concat (repeat (fill (base g)) post)
  end.

(** the digits of an unsigned number in a radix *)
Definition digits_of (x : list Z) (radix : Z) : res (list Z) := let* r := to_str_radix false x BUF radix in Ok (slice r).
(** uint/traits.rs 12-30, 43-85, 109-127 *)
Definition flag_radix (g : flags) (radix tag : Z) (case : Z -> Z) (x : list Z) : res (option (list Z)) :=
  let* d := digits_of x radix in Ok (option_map (pad_integral g true [48; tag]) (from_utf8 (map case d))).
(** uint/traits.rs 32-41 *)
Definition flag_decimal (g : flags) (nonneg : bool) (x : list Z) : res (option (list Z)) :=
  let* d := digits_of x 10 in Ok (option_map (pad_integral g nonneg []) (from_utf8 d)).
(** uint/traits.rs 87-107: the zeros at the end left out; [drop_zeros] works on the
    reversed digits *)
Fixpoint drop_zeros (r : list Z) : list Z :=
  match r with
  | b :: t => if b =? 48 then drop_zeros t else r
  | [] => []
  end.
Definition flag_exp (g : flags) (nonneg : bool) (tag : Z) (x : list Z) : res (option (list Z)) :=
  let* bytes := digits_of x 10 in
  match bytes with
  | [] => Panic
  | b :: t =>
      let s := rev (drop_zeros (rev t)) in
      Ok (option_map (fun s => pad_integral g nonneg [] (b :: match s with [] => [] | _ => 46 :: s end ++ tag :: std_display (Z.of_nat (length bytes) - 1))) (from_utf8 s))
  end.
(** int/traits.rs 54-120: the sign goes to the formatter *)
Definition with_sign (sg : bool) (inner : bool -> list Z -> res (option (list Z))) (x : list Z) : res (option (list Z)) :=
  if sg then
    let* n := is_negative x in
    let* a := unsigned_abs x in
    inner (negb n) a
  else inner true x.
Definition flag_fmt (sg : bool) (o : form) (x : list Z) (g : flags) : res (option (list Z)) :=
  let radix r tag case := let* u := (if sg then as_unsigned x else Ok x) in flag_radix g r tag case u in
  match o with
  | FDecimal => with_sign sg (flag_decimal g) x
  | FBinary => radix 2 98 (fun b => b)
  | FOctal => radix 8 111 (fun b => b)
  | FLowerHex => radix 16 120 to_lower
  | FUpperHex => radix 16 120 to_upper
  | FLowerExp => with_sign sg (fun nonneg => flag_exp g nonneg 101) x
  | FUpperExp => with_sign sg (fun nonneg => flag_exp g nonneg 69) x
  end.

(** The code: uint/traits.rs 12-127, int/traits.rs 54-120 (MWrite.v).  It reads no other
    flag than those of [base]. *)
Definition code_fmt (sg : bool) (o : form) (x : list Z) (g : flags) : res (option (list Z)) :=
  let f := base g in
  match o with
  | FDecimal => if sg then s_display x f else u_display x
  | FBinary => if sg then s_binary x f else u_binary x f
  | FOctal => if sg then s_octal x f else u_octal x f
  | FLowerHex => if sg then s_lower_hex x f else u_lower_hex x f
  | FUpperHex => if sg then s_upper_hex x f else u_upper_hex x f
  | FLowerExp => if sg then s_exp 101 x f else u_exp 101 x
  | FUpperExp => if sg then s_exp 69 x f else u_exp 69 x
  end.
End M.
