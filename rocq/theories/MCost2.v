(** * The limb products and divisions of reading and writing numbers

    As MCost.v: the functions of src/write.rs and src/parse.rs with the list of the
    limb products and limb divisions they have performed.  PropsCost2.v proves that
    leaving the list out gives back the functions of MWrite.v and MParse.v. *)

Require Import ZArith List Bool.
From Verif Require Import Prim Spec MAdd MMul MCore MArith MScalar MDiv MApi MParse MWrite MCost.
Import ListNotations.
Local Open Scope Z_scope.

Section M.
Context {c : Cfg}.

(** ** Writing *)

(** uint/limb.rs 103-107, int/limb.rs 539-555 [wrapping_div_rem_ulimb] *)
Definition c_wrapping_div_rem_ulimb (sg : bool) (x : list Z) (n : Z) : co (list Z * Z) :=
  let$ ux := free (if sg then unsigned_abs x else Ok x) in
  let$ (q, rem) := c_div_limb ux (ucast W n) in
  let$ q := free (mk q) in
  let$ (q, rem) := free
    (if sg then
       let* neg := is_negative x in
       let* q := (if neg then s_wrapping_neg q else Ok q) in
       if neg && negb (rem =? 0) then
         let* one := from_u8 1 in
         let* q := op_sub true q one in
         let* rem := usub W (ucast W n) rem in
         Ok (q, rem)
       else Ok (q, rem)
     else Ok (q, rem)) in
  free (Ok (q, ucast W rem)).
(** shared/limb.rs 65-74 [div_rem_ulimb] *)
Definition c_div_rem_ulimb (sg : bool) (x : list Z) (n : Z) : co (list Z * Z) :=
  if negb chk then c_wrapping_div_rem_ulimb sg x n
  else if n =? 0 then free Panic else c_wrapping_div_rem_ulimb sg x n.
(** write.rs 50-54, the loop *)
Fixpoint c_write_loop (fuel : nat) (sg : bool) (limit : list Z) (start : nat) (radix : Z)
    (self : list Z) (index : nat) (buffer : list Z) : co (list Z * nat * list Z) :=
  let$ b := free (ge_const sg self limit) in
  if b && (start <? index)%nat then
    match fuel with
    | O => free OutOfFuel
    | S f =>
        let$ index := free (idx_pred index) in
        let$ (self, rem) := c_div_rem_ulimb sg self (ucast W radix) in
        let$ ch := free (digit_to_char (ucast 32 rem) radix) in
        let$ buffer := free (set buffer index ch) in
        c_write_loop f sg limit start radix self index buffer
    end
  else free (Ok (self, index, buffer)).
(** write.rs 30-70 [to_str_radix] *)
Definition c_to_str_radix (sg : bool) (x buffer : list Z) (radix : Z) : co (list Z * nat) :=
  if (radix <? 2) || (36 <? radix) then free Panic
  else if Z.of_nat (length buffer) <? BITS + b2z sg then free Panic
  else
    let$ is_negative := free (if sg then let* z := from_u8 0 in lt_const true x z else Ok false) in
    let start := if is_negative : bool then 2%nat else 1%nat in
    let$ limit := free (from_u32 radix) in
    let$ (self, index, buffer) := c_write_loop (length buffer) sg limit start radix x (length buffer) buffer in
    free (let* b := lt_const sg self limit in
          let* _ := assert_ b in
          let* index := idx_pred index in
          let* l := get_limb self 0 in
          let* ch := digit_to_char (ucast 32 l) radix in
          let* buffer := set buffer index ch in
          if is_negative then
            let* index := idx_pred index in
            let* buffer := set buffer index 45 in
            Ok (buffer, index)
          else Ok (buffer, index)).
(** uint/traits.rs 32-41 [Display] *)
Definition c_u_display (x : list Z) : co (option (list Z)) :=
  let$ r := c_to_str_radix false x BUF 10 in free (Ok (from_utf8 (slice r))).

(** ** Reading *)

(** parse.rs 43-64 [unchecked_loop!] *)
Fixpoint c_unchecked_loop (sg neg : bool) (radix : Z) (digits : list Z) (r : list Z) : co parsed :=
  match digits with
  | [] => free (Ok (POk r))
  | ch :: t =>
      let$ d := free (char_to_digit ch radix) in
      match d with
      | None => free (Ok (PErr EInvalidDigit))
      | Some digit =>
          let$ r := c_wrapping_mul_ulimb r (ucast W radix) in
          let$ r := free (wrapping_ulimb (if neg then SSub else SAdd) sg r (ucast W digit)) in
          c_unchecked_loop sg neg radix t r
      end
  end.
(** parse.rs 67-95 [checked_loop!] *)
Fixpoint c_checked_loop (sg neg : bool) (radix : Z) (digits : list Z) (r : list Z) : co parsed :=
  match digits with
  | [] => free (Ok (POk r))
  | ch :: t =>
      let$ d := free (char_to_digit ch radix) in
      match d with
      | None => free (Ok (PErr EInvalidDigit))
      | Some digit =>
          let$ v := c_opt (c_overflowing_mul_ulimb sg r (ucast W radix)) in
          match v with
          | None => free (Ok (PErr (if neg then ENegOverflow else EPosOverflow)))
          | Some v =>
              let$ s := free (checked_us (if neg then SSub else SAdd) KLimb sg v (ucast W digit)) in
              match s with
              | None => free (Ok (PErr (if neg then ENegOverflow else EPosOverflow)))
              | Some r => c_checked_loop sg neg radix t r
              end
          end
      end
  end.
(** parse.rs 143-157 *)
Definition c_parse_digits (sg neg : bool) (radix : Z) (digits : list Z) : co parsed :=
  let$ zero := free (from_u8 0) in
  if Z.of_nat (length digits) <=? overflow_digits radix sg
  then c_unchecked_loop sg neg radix digits zero
  else c_checked_loop sg neg radix digits zero.
(** parse.rs 117-158 [from_str_radix] *)
Definition c_from_str_radix (sg : bool) (src : list Z) (radix : Z) : co parsed :=
  if (radix <? 2) || (36 <? radix) then free Panic
  else match src with
       | [] => free (Ok (PErr EEmpty))
       | b :: t =>
           if b =? 43 then c_parse_digits sg false radix t
           else if b =? 45 then
             if sg then c_parse_digits sg true radix t else free (Ok (PErr ENegOverflow))
           else c_parse_digits sg false radix src
       end.
(** uint/traits.rs 129-151, int/traits.rs 30-52 [from_str] *)
Definition c_from_str (small_ptr sg : bool) (src : list Z) : co parsed :=
  let len := Z.of_nat (length src) in
  if small_ptr && (len <? (if sg then 19 else 20)) then
    free (if sg then via_std from_i64 (std_from_str true 64 src) else via_std from_u64 (std_from_str false 64 src))
  else if len <? 39 then
    free (if sg then via_std from_i128 (std_from_str true 128 src) else via_std from_u128 (std_from_str false 128 src))
  else c_from_str_radix sg src 10.
End M.
