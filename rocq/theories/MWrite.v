(** * Model of writing numbers (src/write.rs, the formatting traits of
    src/uint/traits.rs and src/int/traits.rs)

    Strings are lists of byte values.  A formatter is its flags; formatting
    returns the bytes written, or [None] for [Err(core::fmt::Error)]. *)

Require Import ZArith List Bool.
From Verif Require Import Prim Spec MShift MCore MArith MScalar.
Import ListNotations.
Local Open Scope Z_scope.

Section M.
Context {c : Cfg}.

(** ** src/write.rs *)

(** write.rs 5-12 [digit_to_char] *)
Definition digit_to_char (digit radix : Z) : res Z :=
  if (radix <=? 10) || (digit <? 10) then uadd 8 (ucast 8 digit) 48
  else let* a := uadd 8 (ucast 8 digit) 65 in usub 8 a 10.

(** [index -= 1]; without overflow checks the wrapped index makes the access
    that follows it panic *)
Definition idx_pred (i : nat) : res nat := match i with O => Panic | S j => Ok j end.

(** write.rs 50-54, the loop; [start] is [start_index] *)
Fixpoint write_loop (fuel : nat) (sg : bool) (limit : list Z) (start : nat) (radix : Z)
    (self : list Z) (index : nat) (buffer : list Z) : res (list Z * nat * list Z) :=
  let* b := ge_const sg self limit in
  if b && (start <? index)%nat then
    match fuel with
    | O => OutOfFuel
    | S f =>
        let* index := idx_pred index in
        let* (self, rem) := div_rem_us KLimb sg self (ucast W radix) in
        let* ch := digit_to_char (ucast 32 rem) radix in
        let* buffer := set buffer index ch in
        write_loop f sg limit start radix self index buffer
    end
  else Ok (self, index, buffer).
(** write.rs 30-70 [to_str_radix].  Returns the buffer and the index at which
    the returned slice starts.  The loop runs at most once per byte. *)
Definition to_str_radix (sg : bool) (x buffer : list Z) (radix : Z) : res (list Z * nat) :=
  if (radix <? 2) || (36 <? radix) then Panic
  else if Z.of_nat (length buffer) <? BITS + b2z sg then Panic
  else
    let* is_negative := (if sg then let* z := from_u8 0 in lt_const true x z else Ok false) in
    let start := if is_negative then 2%nat else 1%nat in
    let* limit := from_u32 radix in
    let* (self, index, buffer) := write_loop (length buffer) sg limit start radix x (length buffer) buffer in
    let* b := lt_const sg self limit in
    let* _ := assert_ b in
    let* index := idx_pred index in
    let* l := get_limb self 0 in
    let* ch := digit_to_char (ucast 32 l) radix in
    let* buffer := set buffer index ch in
    if is_negative then
      let* index := idx_pred index in
      let* buffer := set buffer index 45 in
      Ok (buffer, index)
    else Ok (buffer, index).
(** [&buffer[index..]] *)
Definition slice (r : list Z * nat) : list Z := skipn (snd r) (fst r).

(** ** Formatting *)

(** [core::fmt::Formatter]: the flags the code looks at; the fill character is
    given as its UTF-8 bytes. *)
Record fmt := { alternate : bool; sign_plus : bool; width : option Z; fill : list Z }.

(** [core::str::from_utf8], on bytes below 128 (the only ones the code
    produces, see PWrite.v); other bytes count as an error. *)
Definition from_utf8 (bytes : list Z) : option (list Z) :=
  if forallb (fun b => (0 <=? b) && (b <? 128)) bytes then Some bytes else None.
(** [u8::to_ascii_lowercase], [u8::to_ascii_uppercase] *)
Definition to_lower (b : Z) : Z := if (65 <=? b) && (b <=? 90) then b + 32 else b.
Definition to_upper (b : Z) : Z := if (97 <=? b) && (b <=? 122) then b - 32 else b.
(** The standard library's decimal [Display] of a [usize]. *)
Fixpoint std_digits (fuel : nat) (v : Z) (acc : list Z) : list Z :=
  match fuel with
  | O => acc
  | S f => if v <? 10 then 48 + v :: acc else std_digits f (v / 10) (48 + v mod 10 :: acc)
  end.
Definition std_display (v : Z) : list Z := std_digits (Z.to_nat v + 1) v [].

Definition BUF : list Z := repeat 0 (Z.to_nat BITS).
(** the padding: [for _ in 0..width.saturating_sub(len) { write!(f, "{c}") }] *)
Definition padding (f : fmt) (len : Z) : list Z :=
  match width f with
  | Some w => concat (repeat (fill f) (Z.to_nat (w - len)))
  | None => []
  end.
(** uint/traits.rs 32-41 [Display] *)
Definition u_display (x : list Z) : res (option (list Z)) :=
  let* r := to_str_radix false x BUF 10 in Ok (from_utf8 (slice r)).
(** uint/traits.rs 12-30 [Binary], 109-127 [Octal]; [tag] is the second byte
    of the prefix *)
Definition u_binary_octal (radix tag : Z) (x : list Z) (f : fmt) : res (option (list Z)) :=
  let* r := to_str_radix false x BUF radix in
  match from_utf8 (slice r) with
  | None => Ok None
  | Some s => Ok (Some ((if alternate f then [48; tag] else []) ++
                        padding f (Z.of_nat (length (slice r))) ++ s))
  end.
Definition u_binary := u_binary_octal 2 98.
Definition u_octal := u_binary_octal 8 111.
(** uint/traits.rs 43-63 [LowerHex], 65-85 [UpperHex]: the whole buffer is
    mapped, then cut at [buffer.len() - count] *)
Definition u_hex (case : Z -> Z) (x : list Z) (f : fmt) : res (option (list Z)) :=
  let* r := to_str_radix false x BUF 16 in
  let count := length (slice r) in
  let bytes := skipn (length (fst r) - count) (map case (fst r)) in
  match from_utf8 bytes with
  | None => Ok None
  | Some s => Ok (Some ((if alternate f then [48; 120] else []) ++
                        padding f (Z.of_nat count) ++ s))
  end.
Definition u_lower_hex := u_hex to_lower.
Definition u_upper_hex := u_hex to_upper.
(** uint/traits.rs 87-96 [LowerExp], 98-107 [UpperExp]; [tag] is ['e'] or ['E'] *)
Definition u_exp (tag : Z) (x : list Z) : res (option (list Z)) :=
  let* r := to_str_radix false x BUF 10 in
  let bytes := slice r in
  match bytes with
  | [] => Panic
  | b :: t => match from_utf8 t with
              | None => Ok None
              | Some s => Ok (Some (b :: 46 :: s ++ tag :: std_display (Z.of_nat (length bytes) - 1)))
              end
  end.

(** int/traits.rs 62-72 [Display], 74-84 [LowerExp], 102-112 [UpperExp]: the
    sign, then the magnitude *)
Definition s_signed (inner : list Z -> res (option (list Z))) (x : list Z) (f : fmt) : res (option (list Z)) :=
  let* neg := is_negative x in
  let* a := unsigned_abs x in
  let* r := inner a in
  match r with
  | None => Ok None
  | Some s => Ok (Some ((if neg then [45] else if sign_plus f then [43] else []) ++ s))
  end.
Definition s_display := s_signed u_display.
Definition s_exp (tag : Z) := s_signed (u_exp tag).
(** int/traits.rs 54-60 [Binary], 86-92 [LowerHex], 94-100 [Octal], 114-120
    [UpperHex] *)
Definition s_wrapping (inner : list Z -> fmt -> res (option (list Z))) (x : list Z) (f : fmt) : res (option (list Z)) :=
  let* u := as_unsigned x in inner u f.
Definition s_binary := s_wrapping u_binary.
Definition s_octal := s_wrapping u_octal.
Definition s_lower_hex := s_wrapping u_lower_hex.
Definition s_upper_hex := s_wrapping u_upper_hex.

End M.
