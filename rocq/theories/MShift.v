(** * Model of src/math/shift.rs and src/math/rotate.rs, and of the wide view

    The shift and rotate routines work on arrays of [UWide] (two limbs per
    element).  They are macros instantiated for u32, u64 and u128; the model
    takes the element width [w] as a parameter.  Arrays are in logical
    (least significant first) order; the code indexes through [ne_index!]
    throughout. *)

Require Import ZArith List Bool.
From Verif Require Import Prim.
Import ListNotations.
Local Open Scope Z_scope.

(** ** The wide view of a limb array

    shared/endian.rs 297-376 [from_ne_wide]/[to_ne_wide] reinterpret the
    limb array's bytes as [UWide] elements.  In logical order this joins
    limbs [2i] and [2i+1]; MLayout.v models the byte reinterpretation itself
    on both byte orders and proves it equal to these two functions. *)
Section Wide.
Context {c : Cfg}.

Fixpoint to_wide (l : list Z) : list Z :=
  match l with
  | lo :: hi :: t => (lo + 2 ^ W * hi) :: to_wide t
  | _ => []
  end.

Fixpoint from_wide (l : list Z) : list Z :=
  match l with
  | [] => []
  | x :: t => x mod 2 ^ W :: x / 2 ^ W :: from_wide t
  end.
End Wide.

Section M.
Context {c : Cfg}.
(** Element width of the array ([<$u>::BITS]). *)
Variable w : Z.

(** [shift as usize >> BITS.trailing_zeros()] and [shift & (BITS - 1)]; BITS
    is a power of two, so [trailing_zeros] is its logarithm. *)
Definition limb_amount (s : Z) : nat := Z.to_nat (Z.shiftr s (Z.log2 w)).
Definition bits_amount (s : Z) : Z := Z.land s (w - 1).

(** shift.rs 87-140 [left].  [SIGNED] is unused by the code. *)
Definition shl_array (x : list Z) (shift : Z) : res (list Z) :=
  let n := length x in
  let* _ := assert_ (2 <=? n)%nat in
  let* _ := dassert (shift <? Z.of_nat n * w) in
  let limb_n := limb_amount shift in
  let bits_n := bits_amount shift in
  let* inv_n := usub 32 w bits_n in
  let result := repeat 0 n in
  if (n =? 2)%nat then
    let* x0 := get x 0 in
    let* x1 := get x 1 in
    let* (r0, r1) :=
      (if negb (limb_n =? 0)%nat then
         let* hi := ushl w x0 bits_n in Ok (0, hi)
       else if shift =? 0 then Ok (x0, x1)
       else
         let* hi := ushl w x1 bits_n in
         let* lo := ushl w x0 bits_n in
         let* carry := ushr w x0 inv_n in
         Ok (lo, Z.lor hi carry)) in
    let* result := set result 0 r0 in
    set result 1 r1
  else if negb (bits_n =? 0) then
    let* (result, _) :=
      for_range limb_n n (fun index '(result, carry) =>
        let* xi := get x (index - limb_n) in
        let* v := ushl w xi bits_n in
        let* result := set result index (Z.lor v carry) in
        let* carry := ushr w xi inv_n in
        Ok (result, carry)) (result, 0) in
    Ok result
  else
    for_range limb_n n (fun index result =>
      let* xi := get x (index - limb_n) in
      set result index xi) result.

(** shift.rs 212-287 [right].  The downward loop
    [index = N; while index > limb_n { index -= 1; ... }] runs over
    [k = 0 .. N - limb_n - 1] with [index = N - 1 - k]. *)
Definition shr_array (sg : bool) (x : list Z) (shift : Z) : res (list Z) :=
  let n := length x in
  let* _ := assert_ (2 <=? n)%nat in
  let* _ := dassert (shift <? Z.of_nat n * w) in
  let limb_n := limb_amount shift in
  let bits_n := bits_amount shift in
  let* inv_n := usub 32 w bits_n in
  let* top := get x (n - 1) in
  let result := if sg && (scast w top <? 0) then repeat (2 ^ w - 1) n else repeat 0 n in
  if (n =? 2)%nat then
    let* x0 := get x 0 in
    let* x1 := get x 1 in
    let* (r0, r1) :=
      (if negb (limb_n =? 0)%nat then
         if sg then
           let* lo := sshr w (scast w x1) bits_n in
           let* hi := sshr w (scast w x1) (w - 1) in
           Ok (ucast w lo, ucast w hi)
         else
           let* lo := ushr w x1 bits_n in Ok (lo, 0)
       else if bits_n =? 0 then Ok (x0, x1)
       else
         let* hi := (if sg then let* h := sshr w (scast w x1) bits_n in Ok (ucast w h)
                     else ushr w x1 bits_n) in
         let* lo := ushr w x0 bits_n in
         let* carry := ushl w x1 inv_n in
         Ok (Z.lor lo carry, hi)) in
    let* result := set result 0 r0 in
    set result 1 r1
  else if negb (bits_n =? 0) then
    let* (result, _) :=
      for_range 0 (n - limb_n) (fun k '(result, carry) =>
        let index := (n - 1 - k)%nat in
        let* xi := get x index in
        let* ri := (if sg && (index =? n - 1)%nat
                    then let* h := sshr w (scast w xi) bits_n in Ok (ucast w h)
                    else ushr w xi bits_n) in
        let* result := set result (index - limb_n) (Z.lor ri carry) in
        let* carry := ushl w xi inv_n in
        Ok (result, carry)) (result, 0) in
    Ok result
  else
    for_range 0 (n - limb_n) (fun k result =>
      let index := (n - 1 - k)%nat in
      let* xi := get x index in
      set result (index - limb_n) xi) result.

(** rotate.rs 60-119 [left] *)
Definition rotl_array (x : list Z) (n : Z) : res (list Z) :=
  let len := length x in
  let* _ := assert_ (2 <=? len)%nat in
  let* total := umul 32 (Z.of_nat len) w in
  let* n := urem n total in
  let limb_n := limb_amount n in
  let bits_n := bits_amount n in
  let* inv_n := usub 32 w bits_n in
  let result := repeat 0 len in
  if (len =? 2)%nat then
    let* (x0, x1) :=
      (if negb (limb_n =? 0)%nat
       then let* a := get x 1 in let* b := get x 0 in Ok (a, b)
       else let* a := get x 0 in let* b := get x 1 in Ok (a, b)) in
    let* (r0, r1) :=
      (if bits_n =? 0 then Ok (x0, x1)
       else
         let* h1 := ushl w x1 bits_n in
         let* h2 := ushr w x0 inv_n in
         let* l1 := ushl w x0 bits_n in
         let* l2 := ushr w x1 inv_n in
         Ok (Z.lor l1 l2, Z.lor h1 h2)) in
    let* result := set result 0 r0 in
    set result 1 r1
  else if negb (bits_n =? 0) then
    let* (result, carry) :=
      for_range 0 len (fun index '(result, carry) =>
        let rot_n := ((index + limb_n) mod len)%nat in
        let* xi := get x index in
        let* v := ushl w xi bits_n in
        let ri := Z.lor v carry in
        let* carry := ushr w xi inv_n in
        let* result := set result rot_n ri in
        Ok (result, carry)) (result, 0) in
    let* rl := get result limb_n in
    set result limb_n (Z.lor rl carry)
  else
    for_range 0 len (fun index result =>
      let rot_n := ((index + limb_n) mod len)%nat in
      let* xi := get x index in
      set result rot_n xi) result.

(** rotate.rs 135-141 [right] *)
Definition rotr_array (x : list Z) (n : Z) : res (list Z) :=
  let* _ := assert_ (2 <=? length x)%nat in
  let* total := umul 32 w (Z.of_nat (length x)) in
  let* n := urem n total in
  let* k := usub 32 total n in
  rotl_array x k.

End M.
