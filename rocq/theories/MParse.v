(** * Model: parsing

    [src/parse.rs] (the macro [define!] instantiated for the unsigned and the
    signed types) and the [FromStr] implementations.  A [&str] is its list of
    bytes; the loops over an index are recursions over the remaining bytes. *)

Require Import ZArith List Bool.
From Verif Require Import Prim Spec MAdd MMul MCore MArith MScalar MApi.
Import ListNotations.
Local Open Scope Z_scope.

(** src/error.rs 25-43 [IntErrorKind] (the kinds parsing produces) *)
Inductive perr := EEmpty | EInvalidDigit | EPosOverflow | ENegOverflow.
(** [Result<Self, ParseIntError>] *)
Inductive parsed := POk (v : list Z) | PErr (e : perr).

Section M.
Context {c : Cfg}.

(** parse.rs 8-17 [overflow_digits]; [size_of::<T>()] is [BITS / 8] *)
Definition overflow_digits (radix : Z) (sg : bool) : Z :=
  if radix <=? 16 then BITS / 8 * 2 - b2z sg else BITS / 8.

(** parse.rs 21-40 [char_to_digit] *)
Definition char_to_digit (ch radix : Z) : res (option Z) :=
  let* digit :=
    (if radix <=? 10 then Ok (p_wrapping_sub 8 ch 48)
     else if (48 <=? ch) && (ch <=? 57) then usub 8 ch 48
     else if (65 <=? ch) && (ch <=? 90) then let* d := usub 8 ch 65 in uadd 8 d 10
     else if (97 <=? ch) && (ch <=? 122) then let* d := usub 8 ch 97 in uadd 8 d 10
     else Ok 255) in
  Ok (if digit <? radix then Some digit else None).

(** parse.rs 43-64 [unchecked_loop!]; [neg] selects [wrapping_sub_ulimb] *)
Fixpoint unchecked_loop (sg neg : bool) (radix : Z) (digits : list Z) (r : list Z) : res parsed :=
  match digits with
  | [] => Ok (POk r)
  | ch :: t =>
      let* d := char_to_digit ch radix in
      match d with
      | None => Ok (PErr EInvalidDigit)
      | Some digit =>
          let* r := wrapping_ulimb SMul sg r (ucast W radix) in
          let* r := wrapping_ulimb (if neg then SSub else SAdd) sg r (ucast W digit) in
          unchecked_loop sg neg radix t r
      end
  end.
(** parse.rs 67-95 [checked_loop!] *)
Fixpoint checked_loop (sg neg : bool) (radix : Z) (digits : list Z) (r : list Z) : res parsed :=
  match digits with
  | [] => Ok (POk r)
  | ch :: t =>
      let* d := char_to_digit ch radix in
      match d with
      | None => Ok (PErr EInvalidDigit)
      | Some digit =>
          let* v := checked_us SMul KLimb sg r (ucast W radix) in
          match v with
          | None => Ok (PErr (if neg then ENegOverflow else EPosOverflow))
          | Some v =>
              let* s := checked_us (if neg then SSub else SAdd) KLimb sg v (ucast W digit) in
              match s with
              | None => Ok (PErr (if neg then ENegOverflow else EPosOverflow))
              | Some r => checked_loop sg neg radix t r
              end
          end
      end
  end.
(** parse.rs 143-157: the choice of loop *)
Definition parse_digits (sg neg : bool) (radix : Z) (digits : list Z) : res parsed :=
  let* zero := from_u8 0 in
  if Z.of_nat (length digits) <=? overflow_digits radix sg
  then unchecked_loop sg neg radix digits zero
  else checked_loop sg neg radix digits zero.
(** parse.rs 117-158 [from_str_radix]; bytes 43 and 45 are ['+'] and ['-'] *)
Definition from_str_radix (sg : bool) (src : list Z) (radix : Z) : res parsed :=
  if (radix <? 2) || (36 <? radix) then Panic
  else match src with
       | [] => Ok (PErr EEmpty)
       | b :: t =>
           if b =? 43 then parse_digits sg false radix t
           else if b =? 45 then
             if sg then parse_digits sg true radix t else Ok (PErr ENegOverflow)
           else parse_digits sg false radix src
       end.

(** ** FromStr *)

(** The standard library's [u64/i64/u128/i128::from_str] (not part of /repo;
    its documented behaviour is trusted): radix 10, a lone sign is an invalid
    digit, a minus is a sign for signed types only, overflow is reported when
    the digit read is valid.  Numbers are integers here. *)
Definition std_error (neg : bool) : perr := if neg then ENegOverflow else EPosOverflow.
Fixpoint std_loop (lo hi : Z) (neg : bool) (digits : list Z) (acc : Z) : Z + perr :=
  match digits with
  | [] => inl acc
  | ch :: t =>
      if (48 <=? ch) && (ch <=? 57) then
        let m := acc * 10 in
        let v := if neg then m - (ch - 48) else m + (ch - 48) in
        if (lo <=? m) && (m <=? hi) && (lo <=? v) && (v <=? hi) then std_loop lo hi neg t v
        else inr (std_error neg)
      else inr EInvalidDigit
  end.
Definition std_from_str (sg : bool) (bits : Z) (src : list Z) : Z + perr :=
  let lo := if sg then - 2 ^ (bits - 1) else 0 in
  let hi := if sg then 2 ^ (bits - 1) - 1 else 2 ^ bits - 1 in
  match src with
  | [] => inr EEmpty
  | b :: t =>
      if (b =? 43) || (sg && (b =? 45)) then
        match t with [] => inr EInvalidDigit | _ => std_loop lo hi (b =? 45) t 0 end
      else std_loop lo hi false src 0
  end.
(** [Ok(Self::from_X(X::from_str(src)?))] *)
Definition via_std (from : Z -> res (list Z)) (r : Z + perr) : res parsed :=
  match r with
  | inl v => let* x := from v in Ok (POk x)
  | inr e => Ok (PErr e)
  end.
(** uint/traits.rs 129-151, int/traits.rs 30-52 [from_str]; [small_ptr] says
    whether the target's pointers have 16 or 32 bits. *)
Definition from_str (small_ptr sg : bool) (src : list Z) : res parsed :=
  let len := Z.of_nat (length src) in
  if small_ptr && (len <? (if sg then 19 else 20)) then
    if sg then via_std from_i64 (std_from_str true 64 src) else via_std from_u64 (std_from_str false 64 src)
  else if len <? 39 then
    if sg then via_std from_i128 (std_from_str true 128 src) else via_std from_u128 (std_from_str false 128 src)
  else from_str_radix sg src 10.

End M.
