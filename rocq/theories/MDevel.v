(** * Model: the alternative algorithms of devel/benches

    The benchmark programs compare several implementations of one operation.
    The functions below are those implementations; the benchmark drivers
    around them (random data, timing) are not modelled.  [w] is the width of
    the macro parameter [$t] (64 or 128) and [h] that of [$h] ([w = 2 h]). *)

Require Import ZArith List Bool.
From Verif Require Import Prim MCore MArith.
Import ListNotations.
Local Open Scope Z_scope.

(** ** Shifts on primitives (std): the amount is reduced modulo the width by the
    wrapping forms and refused by the checked forms. *)
Definition p_wrapping_shl (w x s : Z) : Z := ucast w (x * 2 ^ (s mod w)).
Definition p_wrapping_shr (w x s : Z) : Z := x / 2 ^ (s mod w).
Definition p_checked_shl (w x s : Z) : option Z := if s <? w then Some (p_wrapping_shl w x s) else None.
Definition p_checked_shr (w x s : Z) : option Z := if s <? w then Some (p_wrapping_shr w x s) else None.

Section M.
Context {c : Cfg}.

(** ** devel/benches/shift_algos.rs: [shift] is a [u32] *)

(** 15-29 [$v1] of [shl!] *)
Definition shl_v1 (w x0 x1 shift : Z) : res (Z * Z) :=
  let* _ := dassert (shift <? 2 * w) in
  let shift := shift mod (2 * w) in
  if w <=? shift then
    let* s := usub 32 shift w in
    Ok (0, p_wrapping_shl w x0 s)
  else if shift =? 0 then Ok (x0, x1)
  else
    let hi := p_wrapping_shl w x1 shift in
    let lo := p_wrapping_shl w x0 shift in
    let* s := usub 32 w shift in
    let carry := p_wrapping_shr w x0 s in
    Ok (lo, Z.lor hi carry).
(** 32-46 [$v2] of [shl!] *)
Definition shl_v2 (w x0 x1 shift : Z) : res (Z * Z) :=
  let* _ := dassert (shift <? 2 * w) in
  let shift := shift mod (2 * w) in
  if w <=? shift then
    let* s := usub 32 shift w in
    Ok (0, p_wrapping_shl w x0 s)
  else
    let hi := p_wrapping_shl w x1 shift in
    let lo := p_wrapping_shl w x0 shift in
    let* s := usub 32 w shift in
    match p_checked_shr w x0 s with
    | Some carry => Ok (lo, Z.lor hi carry)
    | None => Ok (lo, hi)
    end.
(** 49-64 [$v3] of [shl!] *)
Definition shl_v3 (w x0 x1 shift : Z) : res (Z * Z) :=
  let* _ := dassert (shift <? 2 * w) in
  let shift := shift mod (2 * w) in
  if w <=? shift then
    let* s := usub 32 shift w in
    Ok (0, p_wrapping_shl w x0 s)
  else
    let hi := p_wrapping_shl w x1 shift in
    let lo := p_wrapping_shl w x0 shift in
    let* s := usub 32 w shift in
    let carry := match p_checked_shr w x0 s with Some carry => carry | None => 0 end in
    Ok (lo, Z.lor hi carry).

(** 74-88 [$v1] of [shr!] *)
Definition shr_v1 (w x0 x1 shift : Z) : res (Z * Z) :=
  let* _ := dassert (shift <? 2 * w) in
  let shift := shift mod (2 * w) in
  if w <=? shift then
    let* s := usub 32 shift w in
    Ok (0, p_wrapping_shr w x0 s)
  else if shift =? 0 then Ok (x0, x1)
  else
    let hi := p_wrapping_shr w x1 shift in
    let lo := p_wrapping_shr w x0 shift in
    let* s := usub 32 w shift in
    let carry := p_wrapping_shl w x0 s in
    Ok (lo, Z.lor hi carry).
(** 91-105 [$v2] of [shr!] *)
Definition shr_v2 (w x0 x1 shift : Z) : res (Z * Z) :=
  let* _ := dassert (shift <? 2 * w) in
  let shift := shift mod (2 * w) in
  if w <=? shift then
    let* s := usub 32 shift w in
    Ok (0, p_wrapping_shr w x0 s)
  else
    let hi := p_wrapping_shr w x1 shift in
    let lo := p_wrapping_shr w x0 shift in
    let* s := usub 32 w shift in
    match p_checked_shl w x0 s with
    | Some carry => Ok (lo, Z.lor hi carry)
    | None => Ok (lo, hi)
    end.
(** 108-123 [$v3] of [shr!] *)
Definition shr_v3 (w x0 x1 shift : Z) : res (Z * Z) :=
  let* _ := dassert (shift <? 2 * w) in
  let shift := shift mod (2 * w) in
  if w <=? shift then
    let* s := usub 32 shift w in
    Ok (0, p_wrapping_shr w x0 s)
  else
    let hi := p_wrapping_shr w x1 shift in
    let lo := p_wrapping_shr w x0 shift in
    let* s := usub 32 w shift in
    let carry := match p_checked_shl w x0 s with Some carry => carry | None => 0 end in
    Ok (lo, Z.lor hi carry).

(** ** devel/benches/mul_algos.rs *)

(** 26-52 [$narrow] *)
Definition mul_narrow (w h x y : Z) : res (Z * Z) :=
  let* LO := ushr w (2 ^ w - 1) h in
  let '(x0, x1) := (Z.land x LO, p_wrapping_shr w x h) in
  let '(y0, y1) := (Z.land y LO, p_wrapping_shr w y h) in
  let* x0_y0 := umul w x0 y0 in
  let* x0_y1 := umul w x0 y1 in
  let* x1_y0 := umul w x1 y0 in
  let* x1_y1 := umul w x1 y1 in
  let '(lo, cy) := (Z.land x0_y0 LO, p_wrapping_shr w x0_y0 h) in
  let* cy := uadd w cy x1_y0 in
  let* lo := uadd w lo (p_wrapping_shl w cy h) in
  let hi := p_wrapping_shr w cy h in
  let cy := p_wrapping_shr w lo h in
  let lo := Z.land lo LO in
  let* cy := uadd w cy x0_y1 in
  let* lo := uadd w lo (p_wrapping_shl w cy h) in
  let* hi := uadd w hi (p_wrapping_shr w cy h) in
  let* hi := uadd w hi x1_y1 in
  Ok (lo, hi).
(** 16-23 [$v1] *)
Definition mul_v1 (w h x0 x1 y0 y1 : Z) : res (Z * Z) :=
  let* (lo, hi) := mul_narrow w h x0 y0 in
  let x0_y1 := p_wrapping_mul w x0 y1 in
  let x1_y0 := p_wrapping_mul w x1 y0 in
  let hi := p_wrapping_add w hi x0_y1 in
  let hi := p_wrapping_add w hi x1_y0 in
  Ok (lo, hi).

(** 55-108 [$v2].  The loops 63-73 fill the table [r[3 - i][j] = hi[i] * lo[j]];
    here row [k] is the list of the products of [hi[3 - k]], each formed by a
    checked multiplication, as in the source. *)
Definition mul_v2 (w h x0 x1 y0 y1 : Z) : res (Z * Z) :=
  let mask v := Z.land v (2 ^ h - 1) in
  let* x1h := ushr w x1 h in
  let* x0h := ushr w x0 h in
  let* y1h := ushr w y1 h in
  let* y0h := ushr w y0 h in
  let hi := [x1h; mask x1; x0h; mask x0] in
  let lo := [y1h; mask y1; y0h; mask y0] in
  let* r := for_range 0 4 (fun y r =>
    for_range 0 4 (fun x r =>
      let* a := get hi (3 - x) in
      let* b := get lo (3 - y) in
      let* p := umul w a b in
      let* row := get r x in
      let* row := set row (3 - y) p in
      set r x row) r) (repeat (repeat 0 4) 4) in
  let at_ i j := let* row := get r i in get row j in
  let low i j := let* v := at_ i j in Ok (mask v) in
  let high i j := let* v := at_ i j in ushr w v h in
  let plus a b := let* a := a in let* b := b in uadd w a b in
  (* first row *)
  let* r_y0 := low 0%nat 3%nat in
  let* r_y1 := plus (low 0 2)%nat (high 0 3)%nat in
  let* x_y0 := plus (low 0 1)%nat (high 0 2)%nat in
  let* x_y1 := plus (low 0 0)%nat (high 0 1)%nat in
  (* second row *)
  let* r_y1 := plus (Ok r_y1) (low 1 3)%nat in
  let* x_y0 := plus (Ok x_y0) (plus (low 1 2)%nat (high 1 3)%nat) in
  let* x_y1 := plus (Ok x_y1) (plus (low 1 1)%nat (high 1 2)%nat) in
  (* third row *)
  let* x_y0 := plus (Ok x_y0) (low 2 3)%nat in
  let* x_y1 := plus (Ok x_y1) (plus (low 2 2)%nat (high 2 3)%nat) in
  (* fourth row *)
  let* x_y1 := plus (Ok x_y1) (low 3 3)%nat in
  (* move carry to next digit *)
  let* r_y1 := plus (Ok r_y1) (ushr w r_y0 h) in
  let* x_y0 := plus (Ok x_y0) (ushr w r_y1 h) in
  let* x_y1 := plus (Ok x_y1) (ushr w x_y0 h) in
  (* remove carry from current digit *)
  let r_y0 := mask r_y0 in
  let r_y1 := mask r_y1 in
  let x_y0 := mask x_y0 in
  let x_y1 := mask x_y1 in
  (* combine components *)
  let* a := ushl w x_y1 h in
  let* b := ushl w r_y1 h in
  Ok (Z.lor b r_y0, Z.lor a x_y0).

(** 111-147 [$v3].  [brk] records that the inner loop was left by [break] (138);
    the remaining iterations then do nothing. *)
Definition mul_v3 (w h x0 x1 y0 y1 : Z) : res (Z * Z) :=
  let mask v := ucast h (Z.land v (2 ^ h - 1)) in
  let half v := let* v := ushr w v h in Ok (ucast h v) in
  let* x0h := half x0 in
  let* x1h := half x1 in
  let x := [mask x0; x0h; mask x1; x1h] in
  let* y0h := half y0 in
  let* y1h := half y1 in
  let y := [mask y0; y0h; mask y1; y1h] in
  let* r := for_range 0 4 (fun i r =>
    let* xi := get x i in
    let* (r, _, _) := for_range 0 4 (fun j '(r, carry, brk) =>
      if brk : bool then Ok (r, carry, brk) else
      let* yj := get y j in
      if (i + j <? 4)%nat then
        let* full := umul w xi yj in
        let* rij := get r (i + j) in
        let* s := uadd w carry rij in
        let* prod := uadd w s full in
        let* r := set r (i + j) (ucast h prod) in
        let* carry := ushr w prod h in
        Ok (r, ucast h carry, false)
      else Ok (r, carry, negb (xi =? 0) && negb (yj =? 0))) (r, 0, false) in
    Ok r) (repeat 0 4) in
  let* r0 := get r 0 in
  let* r1 := get r 1 in
  let* r2 := get r 2 in
  let* r3 := get r 3 in
  let* a := ushl w r1 h in
  let* b := ushl w r3 h in
  Ok (Z.lor a r0, Z.lor b r2).

(** ** devel/benches/bit_algos.rs *)

(** 15-17 *)
Definition count_ones_u128 (x y : Z) : res Z := uadd 32 (p_count_ones 128 y) (p_count_ones 128 x).
(** 20-28, for any number of words *)
Definition count_ones_u64 (x : list Z) : res Z :=
  for_range 0 (length x) (fun i count =>
    let* l := get x i in
    uadd 32 count (p_count_ones 64 l)) 0.
(** 31-37 *)
Definition leading_zeros_u128 (x y : Z) : res Z :=
  let leading := p_leading_zeros 128 y in
  if leading =? 128 then uadd 32 leading (p_leading_zeros 128 x) else Ok leading.
(** 40-48, for any number of words *)
Definition leading_zeros_u64 (x : list Z) : res Z :=
  let n := length x in
  let* (count, _) := while_m n
    (fun s => let '(count, i) := s in (i <? n)%nat && (count =? Z.of_nat i * 64))
    (fun s => let '(count, i) := s in
       let* l := get x (n - i - 1) in
       let* count := uadd 32 count (p_leading_zeros 64 l) in
       Ok (count, S i)) (0, 0%nat) in
  Ok count.

(** ** devel/benches/div_by_mul.rs: [u256] on 64-bit limbs (on 32-bit limbs
    [get_wide] has another type and the file does not compile) *)

(** 9-10 *)
Definition ADD_MARKER : Z := 0x4000.
Definition UNIVERSAL : Z := 0x3FFF.
(** 13-15 [hi], 18-20 [lo] *)
Definition bench_hi (x : list Z) : res (list Z) := let* v := get_wide x 1 in from_u128 v.
Definition bench_lo (x : list Z) : res (list Z) := let* v := get_wide x 0 in from_u128 v.
(** 23-38 [mulhi] *)
Definition bench_mulhi (x y : list Z) : res (list Z) :=
  let* x1 := bench_hi x in
  let* x0 := bench_lo x in
  let* y1 := bench_hi y in
  let* y0 := bench_lo y in
  let* w0 := wrapping_mul false x0 y0 in
  let* a := wrapping_mul false x0 y1 in
  let* b := bench_hi w0 in
  let* m := wrapping_add false a b in
  let* w1 := bench_lo m in
  let* w2 := bench_hi m in
  let* a := wrapping_mul false x1 y0 in
  let* a := wrapping_add false a w1 in
  let* w3 := bench_lo a in
  let* a := wrapping_mul false x1 y1 in
  let* a := wrapping_add false a w2 in
  wrapping_add false a w3.
(** 43-57 [divide_by_num] *)
Definition divide_by_num (num den : list Z) (more : Z) : res (list Z) :=
  let* zero := from_u8 0 in
  let* e := eq_const den zero in
  if e then wrapping_shr false num more
  else
    let* mask := max_value false in
    let* q := bench_mulhi den num in
    if negb (Z.land more ADD_MARKER =? 0) then
      let* t := wrapping_sub_ulimb false num 1 in
      let* t := bitand_const t mask in
      let* t := wrapping_shr false t 1 in
      let* t := wrapping_add false t q in
      let* t := bitand_const t mask in
      wrapping_shr false t (Z.land more UNIVERSAL)
    else wrapping_shr false q more.
(** 60-64 [div_rem_by_num] *)
Definition div_rem_by_num (num den : list Z) (more : Z) : res (list Z * list Z) :=
  let* quo := divide_by_num num den more in
  let* p := wrapping_mul false quo den in
  let* rem := wrapping_sub false num p in
  Ok (quo, rem).
(** 79-85, 87-93 the divisors prepared for the benchmark: magic number (least
    word first) and shift *)
Definition div10_magic : list Z := [0xcccccccccccccccd; 0xcccccccccccccccc; 0xcccccccccccccccc; 0xcccccccccccccccc].
Definition div10_more : Z := 3.
Definition div1234_magic : list Z := [0x112efe24120f7033; 0xf2109855898d0ed7; 0x8040021bc22011eb; 0xe10000077880003f].
Definition div1234_more : Z := 28.
End M.
