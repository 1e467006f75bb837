(** * The multiplications and divisions a call performs

    The documentation counts limb products (src/lib.rs 50-55, README.md 25,
    src/uint/limb.rs 55-58, src/uint/wrapping.rs 66-76, src/int/limb.rs
    505-520, 1256-1269, 1367-1380, src/int/wrapping.rs 51, src/int/overflowing.rs
    80, src/math/mul.rs 303-304, 340-341, 382-383) and calls the algorithms
    variable-time (src/lib.rs 11, 70).  This file repeats the multiplication and
    division routines of MMul.v, MArith.v, MScalar.v and MDiv.v with one
    difference: each run also carries the list of the limb products and limb
    divisions it has performed, in order.  PropsCost.v proves that leaving the
    list out gives back the functions of those files, for all inputs.

    Counted: one [Mul] for each [mac] (src/math/bigint.rs 48-51) and for each
    double-width product in src/math/div.rs (347-377 and 510-522); one [Div] for
    each [div_rem_word] (437-506) and for each wide [/] with its [%]
    (146-147).  The counts are of operations the source asks for: a compiler may
    merge a quotient with its remainder, or drop a product by a known zero.
    Additions and shifts are not counted. *)

Require Import ZArith List Bool.
From Verif Require Import Prim Spec MAdd MMul MCore MArith MScalar MDiv MApi.
Import ListNotations.
Local Open Scope Z_scope.

Inductive cop := Mul | Div.

(** A run: the operations performed, then the outcome. *)
Definition co (A : Type) : Type := (list cop * res A)%type.
(** a computation without products or divisions *)
Definition free {A} (r : res A) : co A := ([], r).
(** one operation *)
Definition paid {A} (o : cop) (r : res A) : co A := ([o], r).
Definition cbind {A B} (m : co A) (k : A -> co B) : co B :=
  match m with
  | (t, Ok a) => let (u, r) := k a in (t ++ u, r)
  | (t, Panic) => (t, Panic)
  | (t, OutOfFuel) => (t, OutOfFuel)
  end.
Notation "'let$' p := m 'in' k" :=
  (cbind m (fun x => match x with p => k end))
  (at level 200, p pattern, m at level 200, k at level 200, right associativity).

Fixpoint for_c {St} (k i : nat) (body : nat -> St -> co St) (s : St) : co St :=
  match k with
  | O => free (Ok s)
  | S k' => let$ s' := body i s in for_c k' (S i) body s'
  end.
Definition for_rangec {St} (lo hi : nat) (body : nat -> St -> co St) (s : St) : co St :=
  for_c (hi - lo) lo body s.

Section M.
Context {c : Cfg}.

(** ** Products *)

(** mul.rs 80-120 [wrapping_full] *)
Definition c_mul_wrapping_full (x y : list Z) : co (list Z) :=
  let m := length x in
  let n := length y in
  let$ _ := free (assert_ (n <=? m)%nat) in
  for_rangec 0 m (fun i r =>
    let$ xi := free (get x i) in
    let$ (r, carry) :=
      for_rangec 0 (Nat.min n (m - i)) (fun j '(r, carry) =>
        let$ yj := free (get y j) in
        let$ rij := free (get r (i + j)) in
        let$ (vij, carry) := paid Mul (mac rij xi yj carry) in
        let$ r := free (set r (i + j) vij) in
        free (Ok (r, carry))) (r, 0) in
    free (if (n <? m)%nat && (i + n <? m)%nat then set r (i + n) carry else Ok r)) (repeat 0 m).

(** mul.rs 154-207 [overflowing_full] *)
Definition c_mul_overflowing_full (x y : list Z) : co (list Z * bool) :=
  let m := length x in
  let n := length y in
  let$ _ := free (assert_ (n <=? m)%nat) in
  for_rangec 0 m (fun i '(r, overflowed) =>
    let$ xi := free (get x i) in
    let$ (r, carry, overflowed, _) :=
      for_rangec 0 n (fun j '(r, carry, overflowed, brk) =>
        if brk : bool then free (Ok (r, carry, overflowed, brk)) else
        let$ yj := free (get y j) in
        if (i + j <? m)%nat then
          let$ rij := free (get r (i + j)) in
          let$ (vij, carry) := paid Mul (mac rij xi yj carry) in
          let$ r := free (set r (i + j) vij) in
          free (Ok (r, carry, overflowed, false))
        else if negb (xi =? 0) && negb (yj =? 0) then
          free (Ok (r, carry, true, true))
        else free (Ok (r, carry, overflowed, false))) (r, 0, overflowed, false) in
    free (if (n <? m)%nat && (i + n <? m)%nat then
            let* r := set r (i + n) carry in Ok (r, overflowed)
          else if negb (carry =? 0) then Ok (r, true)
          else Ok (r, overflowed))) (repeat 0 m, false).

(** mul.rs 433-471 [overflowing_full] of the signed type *)
Definition c_smul_overflowing_full (x y : list Z) : co (list Z * bool) :=
  let m := length x in
  let$ x_is_negative := free (limbs_negative x) in
  let$ y_is_negative := free (limbs_negative y) in
  let should_be_negative := xorb x_is_negative y_is_negative in
  let$ x := free (if x_is_negative : bool then negate x else Ok x) in
  let$ y := free (if y_is_negative : bool then negate y else Ok y) in
  let$ (r, overflowed) := c_mul_overflowing_full x y in
  let$ top := free (get r (m - 1)) in
  let msl := scast W top in
  let r_is_negative := msl <? 0 in
  if negb should_be_negative then
    free (Ok (r, overflowed || r_is_negative))
  else
    let is_min := msl =? - 2 ^ (W - 1) in
    let$ r := free (negate r) in
    free (Ok (r, overflowed || xorb r_is_negative is_min)).

(** mul.rs 624-659 [widening] *)
Definition c_mul_widening (x y : list Z) : co (list Z * list Z) :=
  let m := length x in
  for_rangec 0 m (fun i '(lo, hi) =>
    let$ xi := free (get x i) in
    let$ (lo, hi, carry) :=
      for_rangec 0 m (fun j '(lo, hi, carry) =>
        let$ yj := free (get y j) in
        if (i + j <? m)%nat then
          let$ a := free (get lo (i + j)) in
          let$ (vij, carry) := paid Mul (mac a xi yj carry) in
          let$ lo := free (set lo (i + j) vij) in
          free (Ok (lo, hi, carry))
        else
          let$ a := free (get hi (i + j - m)) in
          let$ (vij, carry) := paid Mul (mac a xi yj carry) in
          let$ hi := free (set hi (i + j - m) vij) in
          free (Ok (lo, hi, carry))) (lo, hi, 0) in
    free (if (i + m <? m)%nat then
            let* lo := set lo (i + m) carry in Ok (lo, hi)
          else
            let* hi := set hi (i + m - m) carry in Ok (lo, hi))) (repeat 0 m, repeat 0 m).

(** the wrapper around a flagged result, [from_ne_limbs] *)
Definition c_mk_flag (m : co (list Z * bool)) : co (list Z * bool) :=
  let$ (l, f) := m in free (let* l := mk l in Ok (l, f)).

(** uint/wrapping.rs 85-90 and int/wrapping.rs 61-66 [wrapping_mul] *)
Definition c_wrapping_mul (x y : list Z) : co (list Z) :=
  let$ l := c_mul_wrapping_full x y in free (mk l).
(** uint/overflowing.rs and int/overflowing.rs 90-95 [overflowing_mul] *)
Definition c_overflowing_mul (sg : bool) (x y : list Z) : co (list Z * bool) :=
  c_mk_flag (if sg then c_smul_overflowing_full x y else c_mul_overflowing_full x y).
(** shared/checked.rs 46-63 [checked_mul] *)
Definition c_opt (m : co (list Z * bool)) : co (option (list Z)) :=
  let$ (v, f) := m in free (Ok (if f : bool then None else Some v)).
Definition c_checked_mul (sg : bool) (x y : list Z) : co (option (list Z)) :=
  if negb sg then
    let$ l := free (checked_ilog2 sg x) in
    let$ r := free (checked_ilog2 sg y) in
    match l, r with
    | Some l, Some r =>
        let$ s := free (uadd 32 l r) in
        let$ t := free (usub 32 tbits 1) in
        if t <? s then free (Ok None) else c_opt (c_overflowing_mul sg x y)
    | _, _ => free (let* z := from_u8 0 in Ok (Some z))
    end
  else c_opt (c_overflowing_mul sg x y).

(** The right operand as the scalar forms lay it out (mul.rs 125-137, 347-359,
    389-410, 498-512, 539-556): one limb, two limbs, or padded to the width of
    the left operand. *)
Inductive mform := FLimb | FWide | FULimb | FUWide | FILimb | FIWide.
Definition lay (f : mform) (n : nat) (y : Z) : res (list Z) :=
  match f with
  | FLimb => Ok [y]
  | FWide => wide_limbs y
  | FULimb => set (repeat 0 n) 0 y
  | FUWide => uwide_limbs n y
  | FILimb => ilimb_limbs n y
  | FIWide => iwide_limbs n y
  end.
(** [wrapping_mul_{ulimb,uwide,ilimb,iwide}]: uint/limb.rs 79-82, 157-160 and
    int/limb.rs 512-528, 653-666 *)
Definition c_wrapping_mul_ulimb (x : list Z) (y : Z) : co (list Z) :=
  let$ rhs := free (lay FLimb (length x) y) in c_wrapping_mul x rhs.
Definition c_wrapping_mul_uwide (x : list Z) (y : Z) : co (list Z) :=
  let$ rhs := free (lay FWide (length x) y) in c_wrapping_mul x rhs.
Definition c_wrapping_mul_ilimb (x : list Z) (y : Z) : co (list Z) :=
  let$ rhs := free (lay FILimb (length x) y) in c_wrapping_mul x rhs.
Definition c_wrapping_mul_iwide (x : list Z) (y : Z) : co (list Z) :=
  let$ rhs := free (lay FIWide (length x) y) in c_wrapping_mul x rhs.
(** [overflowing_mul_{ulimb,uwide,ilimb,iwide}]: uint/limb.rs 432-435, 489-492
    and int/limb.rs 1260-1276, 1371-1387 *)
Definition c_overflowing_mul_ulimb (sg : bool) (x : list Z) (y : Z) : co (list Z * bool) :=
  let$ rhs := free (lay (if sg then FULimb else FLimb) (length x) y) in c_overflowing_mul sg x rhs.
Definition c_overflowing_mul_uwide (sg : bool) (x : list Z) (y : Z) : co (list Z * bool) :=
  let$ rhs := free (lay (if sg then FUWide else FWide) (length x) y) in c_overflowing_mul sg x rhs.
Definition c_overflowing_mul_ilimb (x : list Z) (y : Z) : co (list Z * bool) :=
  let$ rhs := free (lay FILimb (length x) y) in c_overflowing_mul true x rhs.
Definition c_overflowing_mul_iwide (x : list Z) (y : Z) : co (list Z * bool) :=
  let$ rhs := free (lay FIWide (length x) y) in c_overflowing_mul true x rhs.

(** shared/wrapping.rs 16-36 [wrapping_pow] *)
Fixpoint c_pow_loop (fuel : nat) (exp : Z) (base acc : list Z) : co (list Z) :=
  match fuel with
  | O => free OutOfFuel
  | S fuel =>
      let next (acc : list Z) :=
        let exp := exp / 2 in
        let$ base := c_wrapping_mul base base in
        let$ _ := free (dassert (negb (exp =? 0))) in
        c_pow_loop fuel exp base acc in
      if Z.land exp 1 =? 1 then
        let$ acc := c_wrapping_mul acc base in
        if exp =? 1 then free (Ok acc) else next acc
      else next acc
  end.
Definition c_wrapping_pow (x : list Z) (exp : Z) : co (list Z) :=
  if exp =? 0 then free (from_u8 1)
  else let$ one := free (from_u8 1) in c_pow_loop pow_fuel exp x one.

(** ** Divisions *)

(** div.rs 134-157 [limb] *)
Definition c_div_limb (numerator : list Z) (divisor : Z) : co (list Z * Z) :=
  let m := length numerator in
  let$ z := free (if (2 <=? m)%nat then is_zero numerator 2 else Ok false) in
  if z : bool then
    let$ lo := free (get numerator 0) in
    let$ hi := free (get numerator 1) in
    let$ x := free (join_limbs lo hi) in
    let$ quo := paid Div (udiv x divisor) in
    let$ rem := free (urem x divisor) in
    let$ q := free (scalar2 m quo) in
    free (Ok (q, ucast W rem))
  else
    for_rangec 0 m (fun k s => let '(num, r) := s in
      let i := (m - 1 - k)%nat in
      let$ d := free (get num i) in
      let$ (q, ri) := paid Div (div_rem_word r d divisor) in
      let$ num := free (set num i q) in
      free (Ok (num, ri))) (numerator, 0).
(** div.rs 285-291 [limb_padded] *)
Definition c_limb_padded (numerator : list Z) (n : nat) (divisor : Z) : co (list Z * list Z) :=
  let$ (q, rem) := c_div_limb numerator divisor in
  let$ r := free (scalar1 n rem) in
  free (Ok (q, r)).

(** div.rs 510-522 [full_mul_u64] *)
Definition c_full_mul_u64 (a : list Z) (b : Z) : co (list Z * Z) :=
  for_rangec 0 (length a) (fun i s => let '(out, carry) := s in
    let$ v := free (get a i) in
    let$ p := paid Mul (umul (2 * W) v b) in
    let$ r := free (uadd (2 * W) p carry) in
    let$ out := free (set out i (ucast W r)) in
    let$ h := free (ushr (2 * W) r W) in
    free (Ok (out, ucast W h))) (repeat 0 (length a), 0).

(** div.rs 347-377, the estimate of one quotient digit *)
Definition c_estimate (a0 a1 : Z) (a2 : res Z) (b0 b1 : Z) : co Z :=
  if a0 <? b0 then
    let$ (q_hat, r_hat) := paid Div (div_rem_word a0 a1 b0) in
    let$ a2 := free a2 in
    let$ r := paid Mul (umul (2 * W) q_hat b1) in
    let$ gt := free (pair_gt r r_hat a2) in
    if gt : bool then
      let$ q_hat := free (usub W q_hat 1) in
      let '(r_hat, overflow) := p_overflowing_add W r_hat b0 in
      if negb overflow then
        let$ r := paid Mul (umul (2 * W) q_hat b1) in
        let$ gt := free (pair_gt r r_hat a2) in
        if gt : bool then free (usub W q_hat 1) else free (Ok q_hat)
      else free (Ok q_hat)
    else free (Ok q_hat)
  else free (Ok (2 ^ W - 1)).

(** div.rs 341-419, one iteration of the main loop *)
Definition c_knuth_step (divisor : list Z) (n : nat) (b0 b1 : Z) (j : nat) (s : list Z * Z * list Z)
    : co (list Z * Z * list Z) :=
  let '(numerator, q) := s in
  let$ a0 := free (apo_get numerator (j + n)) in
  let$ a1 := free (get (fst numerator) (j + n - 1)) in
  let$ q_hat := c_estimate a0 a1 (get (fst numerator) (j + n - 2)) b0 b1 in
  let$ q_hat_v := c_full_mul_u64 divisor q_hat in
  let$ (numerator, cy) := free (sub_mul numerator q_hat_v n j) in
  let$ (numerator, q_hat) := free
    (if (cy : bool) then
       let* q_hat := usub W q_hat 1 in
       let* numerator := add_back numerator divisor n j in
       Ok (numerator, q_hat)
     else Ok (numerator, q_hat)) in
  let$ q := free (set q j q_hat) in
  free (Ok (numerator, q)).

(** div.rs 302-425 [div_rem_knuth] *)
Definition c_div_rem_knuth (numerator divisor : list Z) (n m : nat) : co (list Z * list Z) :=
  let$ _ := free (assert_ (n + m <=? length numerator)%nat) in
  let$ top := free (get divisor (n - 1)) in
  let shift := p_leading_zeros W top in
  let nlimbs := length divisor in
  let$ divisor := free (shl_word divisor shift) in
  let$ num := free (full_shl numerator shift) in
  let$ b0 := free (get divisor (n - 1)) in
  let$ b1 := free (get divisor (n - 2)) in
  let$ (num, q) := for_rangec 0 (m + 1)
    (fun k s => c_knuth_step divisor n b0 b1 (m - k) s) (num, repeat 0 (length numerator)) in
  let$ r := free (full_shr num shift) in
  let$ rem := free (truncate nlimbs r) in
  free (Ok (q, rem)).

(** div.rs 162-173 [full_gt] *)
Definition c_full_gt (numerator divisor : list Z) : co (list Z * list Z) :=
  let$ n := free (last_index divisor) in
  if (n =? 0)%nat then
    let$ d := free (get divisor 0) in c_limb_padded numerator (length divisor) d
  else
    let$ l := free (last_index numerator) in
    let$ _ := free (assert_ (n <=? l)%nat) in
    c_div_rem_knuth numerator divisor (n + 1) (l - n).

(** div.rs 45-64 [full] *)
Definition c_div_full (numerator divisor : list Z) : co (list Z * list Z) :=
  let m := length numerator in
  let n := length divisor in
  if (n =? 1)%nat then
    let$ d := free (get divisor 0) in c_limb_padded numerator n d
  else
    let$ o := free (div_cmp numerator divisor) in
    match o with
    | Lt => free (let* r := truncate n numerator in Ok (repeat 0 m, r))
    | Eq => free (let* q := scalar1 m 1 in let* r := scalar1 n 0 in Ok (q, r))
    | Gt =>
        let$ z := free (is_zero numerator 0) in
        if z : bool then free (let* q := scalar1 m 0 in let* r := scalar1 n 0 in Ok (q, r))
        else c_full_gt numerator divisor
    end.

(** uint/wrapping.rs 228-238 and int/wrapping.rs 74-99 [wrapping_div_rem]: the
    division is the only part that multiplies or divides limbs *)
Definition c_wrapping_div_rem (sg : bool) (x n : list Z) : co (list Z * list Z) :=
  if sg then
    let$ ux := free (unsigned_abs x) in
    let$ un := free (unsigned_abs n) in
    let$ (div, rem) := c_div_full ux un in
    free (let* div := mk div in
          let* div := as_signed div in
          let* rem := mk rem in
          let* rem := as_signed rem in
          let* sx := is_negative x in
          let* sn := is_negative n in
          let* div := (if negb (eqb sx sn) then s_wrapping_neg div else Ok div) in
          let* rem := (if sx then s_wrapping_neg rem else Ok rem) in
          Ok (div, rem))
  else
    let$ (div, rem) := c_div_full x n in
    free (let* div := mk div in
          let* rem := mk rem in
          Ok (div, rem)).

End M.
