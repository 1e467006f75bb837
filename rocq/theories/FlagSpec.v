(** * Specification: how Rust prints its own integers (for C101)

    Not the code: what the documentation of [std::fmt] says about the integer types
    that the crate imitates, for every formatter flag except the precision.  Texts are
    lists of byte values, written with LangText.v. *)

Require Import ZArith List Bool.
From Verif Require Import MWrite LangText.
Import ListNotations.
Local Open Scope Z_scope.

(** [{}], [{:b}], [{:o}], [{:x}], [{:X}], [{:e}] and [{:E}] *)
Inductive form := FDecimal | FBinary | FOctal | FLowerHex | FUpperHex | FLowerExp | FUpperExp.
Definition in_radix (o : form) : bool :=
  match o with FBinary | FOctal | FLowerHex | FUpperHex => true | _ => false end.

(** The flags: those of MWrite.v, the alignment ([<], [^], [>]) and [0]. *)
Inductive alignment := ALeft | ACenter | ARight.
Record flags := { base : fmt; align : option alignment; zero : bool }.

(** A fill character, in UTF-8: one byte below 128, or several above. *)
Definition is_char (s : list Z) : Prop := (exists b, s = [b] /\ 0 <= b < 128) \/ (s <> [] /\ Forall (fun b => 128 <= b < 256) s).
(** ... that could not be taken for part of a number *)
Definition no_digit (s : list Z) : Prop :=
  Forall (fun b => ~ (48 <= b <= 57 \/ 65 <= b <= 90 \/ 97 <= b <= 122 \/ b = 43)) s.

(** sign, prefix and digits in a field: with [0] the zeros come after the prefix and
    the alignment is ignored, otherwise numbers are at the right unless told otherwise *)
Definition missing (g : flags) (length : nat) : nat :=
  match width (base g) with Some w => Z.to_nat (w - Z.of_nat length) | None => 0 end.
Definition fills (g : flags) (k : nat) : list Z := concat (repeat (fill (base g)) k).
Definition laid_out (g : flags) (sign prefix digits : list Z) : list Z :=
  let k := missing g (length sign + length prefix + length digits) in
  if zero g then sign ++ prefix ++ repeat 48 k ++ digits
  else let before := match align g with Some ALeft => 0 | Some ACenter => k / 2 | _ => k end%nat in
       fills g before ++ sign ++ prefix ++ digits ++ fills g (k - before).

Definition sign_text (g : flags) (v : Z) : list Z := if v <? 0 then [45] else if sign_plus (base g) then [43] else [].
(** the exponent form of a number: as few digits as possible, a point only between digits *)
Fixpoint tens (fuel : nat) (v : Z) : nat :=
  match fuel with
  | O => O
  | S fuel => if (10 <=? v) && (v mod 10 =? 0) then S (tens fuel (v / 10)) else O
  end.
Definition shortest (tag v : Z) : list Z :=
  let k := tens (Z.to_nat (Z.log2 v)) v in
  match number_text 10 (v / 10 ^ Z.of_nat k) with
  | d :: t => d :: match t with [] => [] | _ => 46 :: t end ++ tag :: number_text 10 (Z.of_nat (length t + k))
  | [] => []
  end.
(** [v] printed by the primitive type of that width and sign; negative numbers in
    two's complement in the radix forms *)
Definition primitive (bits : Z) (o : form) (v : Z) (g : flags) : list Z :=
  let radix tag := laid_out g (if sign_plus (base g) then [43] else []) (if alternate (base g) then [48; tag] else []) in
  match o with
  | FDecimal => laid_out g (sign_text g v) [] (number_text 10 (Z.abs v))
  | FBinary => radix 98 (number_text 2 (v mod 2 ^ bits))
  | FOctal => radix 111 (number_text 8 (v mod 2 ^ bits))
  | FLowerHex => radix 120 (map lower_case (number_text 16 (v mod 2 ^ bits)))
  | FUpperHex => radix 120 (number_text 16 (v mod 2 ^ bits))
  | FLowerExp => laid_out g (sign_text g v) [] (shortest 101 (Z.abs v))
  | FUpperExp => laid_out g (sign_text g v) [] (shortest 69 (Z.abs v))
  end.
