(** * Model of src/math/mul.rs

    Conventions as in MAdd.v: logical limb order, const generics are list
    lengths, one model for the u32 and u64 instantiations. *)

Require Import ZArith List Bool.
From Verif Require Import Prim MAdd.
Import ListNotations.
Local Open Scope Z_scope.

Section M.
Context {c : Cfg}.

(** mul.rs 17-22 [is_negative!] *)
Definition limbs_negative (x : list Z) : res bool :=
  let* msl := get x (length x - 1) in
  Ok (scast W msl <? 0).

(** mul.rs 27-50 [negate!] *)
Definition negate (x : list Z) : res (list Z) :=
  let n := length x in
  let* x0 := get x 0 in
  let '(v, cy) := p_overflowing_add W (p_not W x0) 1 in
  let* result := set (repeat 0 n) 0 v in
  let* (result, cy) :=
    for_range 1 (n - 1) (fun i '(result, cy) =>
      let* xi := get x i in
      let '(v, cy) := p_overflowing_add W (p_not W xi) (b2z cy) in
      let* result := set result i v in
      Ok (result, cy)) (result, cy) in
  if (1 <? n)%nat then
    let* xn := get x (n - 1) in
    set result (n - 1) (p_wrapping_add W (p_not W xn) (b2z cy))
  else Ok result.

(** mul.rs 80-120 [wrapping_full].  The inner loop condition
    [j < N && i + j < M] is the bound [min N (M - i)]. *)
Definition mul_wrapping_full (x y : list Z) : res (list Z) :=
  let m := length x in
  let n := length y in
  let* _ := assert_ (n <=? m)%nat in
  for_range 0 m (fun i r =>
    let* xi := get x i in
    let* (r, carry) :=
      for_range 0 (Nat.min n (m - i)) (fun j '(r, carry) =>
        let* yj := get y j in
        let* rij := get r (i + j) in
        let* (vij, carry) := mac rij xi yj carry in
        let* r := set r (i + j) vij in
        Ok (r, carry)) (r, 0) in
    if (n <? m)%nat && (i + n <? m)%nat then set r (i + n) carry else Ok r) (repeat 0 m).

(** mul.rs 125-127 [wrapping_limb] *)
Definition mul_wrapping_limb (x : list Z) (y : Z) : res (list Z) := mul_wrapping_full x [y].

(** mul.rs 132-137 [wrapping_wide] *)
Definition mul_wrapping_wide (x : list Z) (y : Z) : res (list Z) :=
  let* rhs := wide_limbs y in mul_wrapping_full x rhs.

(** mul.rs 154-207 [overflowing_full].  [brk] records that the inner loop
    was left by [break] (188); the remaining iterations then do nothing. *)
Definition mul_overflowing_full (x y : list Z) : res (list Z * bool) :=
  let m := length x in
  let n := length y in
  let* _ := assert_ (n <=? m)%nat in
  for_range 0 m (fun i '(r, overflowed) =>
    let* xi := get x i in
    let* (r, carry, overflowed, _) :=
      for_range 0 n (fun j '(r, carry, overflowed, brk) =>
        if brk : bool then Ok (r, carry, overflowed, brk) else
        let* yj := get y j in
        if (i + j <? m)%nat then
          let* rij := get r (i + j) in
          let* (vij, carry) := mac rij xi yj carry in
          let* r := set r (i + j) vij in
          Ok (r, carry, overflowed, false)
        else if negb (xi =? 0) && negb (yj =? 0) then
          Ok (r, carry, true, true)
        else Ok (r, carry, overflowed, false)) (r, 0, overflowed, false) in
    if (n <? m)%nat && (i + n <? m)%nat then
      let* r := set r (i + n) carry in Ok (r, overflowed)
    else if negb (carry =? 0) then Ok (r, true)
    else Ok (r, overflowed)) (repeat 0 m, false).

(** mul.rs 212-214 [overflowing_limb] *)
Definition mul_overflowing_limb (x : list Z) (y : Z) : res (list Z * bool) :=
  mul_overflowing_full x [y].

(** mul.rs 219-224 [overflowing_wide] *)
Definition mul_overflowing_wide (x : list Z) (y : Z) : res (list Z * bool) :=
  let* rhs := wide_limbs y in mul_overflowing_full x rhs.

(** ** Signed *)

(** mul.rs 310-317 [wrapping_full] *)
Definition smul_wrapping_full (x y : list Z) : res (list Z) := mul_wrapping_full x y.

(** mul.rs 347-349 [wrapping_ulimb] *)
Definition smul_wrapping_ulimb (x : list Z) (y : Z) : res (list Z) := mul_wrapping_full x [y].

(** mul.rs 354-359 [wrapping_uwide] *)
Definition smul_wrapping_uwide (x : list Z) (y : Z) : res (list Z) :=
  let* rhs := wide_limbs y in mul_wrapping_full x rhs.

(** mul.rs 389-396 [wrapping_ilimb] *)
Definition smul_wrapping_ilimb (x : list Z) (y : Z) : res (list Z) :=
  let* rhs := ilimb_limbs (length x) y in mul_wrapping_full x rhs.

(** mul.rs 401-410 [wrapping_iwide] *)
Definition smul_wrapping_iwide (x : list Z) (y : Z) : res (list Z) :=
  let* rhs := iwide_limbs (length x) y in mul_wrapping_full x rhs.

(** mul.rs 433-471 [overflowing_full] *)
Definition smul_overflowing_full (x y : list Z) : res (list Z * bool) :=
  let m := length x in
  let* x_is_negative := limbs_negative x in
  let* y_is_negative := limbs_negative y in
  let should_be_negative := xorb x_is_negative y_is_negative in
  let* x := if x_is_negative then negate x else Ok x in
  let* y := if y_is_negative then negate y else Ok y in
  let* (r, overflowed) := mul_overflowing_full x y in
  let* top := get r (m - 1) in
  let msl := scast W top in
  let r_is_negative := msl <? 0 in
  if negb should_be_negative then
    Ok (r, overflowed || r_is_negative)
  else
    let is_min := msl =? - 2 ^ (W - 1) in
    let* r := negate r in
    Ok (r, overflowed || xorb r_is_negative is_min).

(** mul.rs 498-502 [overflowing_ulimb] *)
Definition smul_overflowing_ulimb (x : list Z) (y : Z) : res (list Z * bool) :=
  let* rhs := set (repeat 0 (length x)) 0 y in smul_overflowing_full x rhs.

(** mul.rs 507-512 [overflowing_uwide] *)
Definition smul_overflowing_uwide (x : list Z) (y : Z) : res (list Z * bool) :=
  let* rhs := uwide_limbs (length x) y in smul_overflowing_full x rhs.

(** mul.rs 539-544 [overflowing_ilimb] *)
Definition smul_overflowing_ilimb (x : list Z) (y : Z) : res (list Z * bool) :=
  let* rhs := ilimb_limbs (length x) y in smul_overflowing_full x rhs.

(** mul.rs 549-556 [overflowing_iwide] *)
Definition smul_overflowing_iwide (x : list Z) (y : Z) : res (list Z * bool) :=
  let* rhs := iwide_limbs (length x) y in smul_overflowing_full x rhs.

(** ** mul.rs 624-659 [widening] *)
Definition mul_widening (x y : list Z) : res (list Z * list Z) :=
  let m := length x in
  for_range 0 m (fun i '(lo, hi) =>
    let* xi := get x i in
    let* (lo, hi, carry) :=
      for_range 0 m (fun j '(lo, hi, carry) =>
        let* yj := get y j in
        if (i + j <? m)%nat then
          let* a := get lo (i + j) in
          let* (vij, carry) := mac a xi yj carry in
          let* lo := set lo (i + j) vij in
          Ok (lo, hi, carry)
        else
          let* a := get hi (i + j - m) in
          let* (vij, carry) := mac a xi yj carry in
          let* hi := set hi (i + j - m) vij in
          Ok (lo, hi, carry)) (lo, hi, 0) in
    if (i + m <? m)%nat then
      let* lo := set lo (i + m) carry in Ok (lo, hi)
    else
      let* hi := set hi (i + m - m) carry in Ok (lo, hi)) (repeat 0 m, repeat 0 m).

End M.

(** The missed-overflow case of the signed product, on 64-bit limbs:
    (2^254 + 1) * (-2) does not fit i256, yet the flag is [false]. *)
Example smul_flag_demo :
  let c := {| W := 64; N := 4; chk := true; dbg := true |} in
  smul_overflowing_full [1; 0; 0; 2 ^ 62] [2 ^ 64 - 2; 2 ^ 64 - 1; 2 ^ 64 - 1; 2 ^ 64 - 1]
  = Ok ([2 ^ 64 - 2; 2 ^ 64 - 1; 2 ^ 64 - 1; 2 ^ 63 - 1], false).
Proof. vm_compute. reflexivity. Qed.
