(** * Model of src/math/bigint.rs, src/math/add.rs and src/math/sub.rs

    Arrays are lists in logical (least significant first) order: these files
    index only through [ne_index!] (src/util.rs 20-28).  The const generics
    [N]/[M] of the Rust functions are the lengths of the argument lists.
    The u32 and u64 instantiations differ only in the limb width [W]. *)

Require Import ZArith List Bool.
From Verif Require Import Prim.
Import ListNotations.
Local Open Scope Z_scope.

Section M.
Context {c : Cfg}.

(** ** src/math/bigint.rs *)

(** bigint.rs 20-24 [carrying_add_u*] *)
Definition carrying_add (lhs rhs : Z) (carry : bool) : Z * bool :=
  let '(v, c0) := p_overflowing_add W lhs rhs in
  let '(v, c1) := p_overflowing_add W v (b2z carry) in
  (v, c0 || c1).

(** bigint.rs 30-34 [borrowing_sub_u*] *)
Definition borrowing_sub (lhs rhs : Z) (borrow : bool) : Z * bool :=
  let '(v, b0) := p_overflowing_sub W lhs rhs in
  let '(v, b1) := p_overflowing_sub W v (b2z borrow) in
  (v, b0 || b1).

(** bigint.rs 48-51 [mac_u*]: plain arithmetic in the double-width type *)
Definition mac (a b d carry : Z) : res (Z * Z) :=
  let* p := umul (2 * W) b d in
  let* s := uadd (2 * W) a p in
  let* value := uadd (2 * W) s carry in
  let* hi := ushr (2 * W) value W in
  Ok (ucast W value, ucast W hi).

(** ** src/math/add.rs, unsigned *)

(** add.rs 50-65 [wrapping_full] *)
Definition add_wrapping_full (x y : list Z) : res (list Z) :=
  let n := length x in
  let* (result, cy) :=
    for_range 0 (n - 1) (fun i '(result, cy) =>
      let* xi := get x i in
      let* yi := get y i in
      let '(vi, cy) := carrying_add xi yi cy in
      let* result := set result i vi in
      Ok (result, cy)) (repeat 0 n, false) in
  let* xn := get x (n - 1) in
  let* yn := get y (n - 1) in
  let vn := p_wrapping_add W xn yn in
  set result (n - 1) (p_wrapping_add W vn (b2z cy)).

(** add.rs 97-112 [overflowing_full] *)
Definition add_overflowing_full (x y : list Z) : res (list Z * bool) :=
  let n := length x in
  for_range 0 n (fun i '(result, cy) =>
    let* xi := get x i in
    let* yi := get y i in
    let '(vi, cy) := carrying_add xi yi cy in
    let* result := set result i vi in
    Ok (result, cy)) (repeat 0 n, false).

(** add.rs 142-161 [wrapping_limb] *)
Definition add_wrapping_limb (x : list Z) (y : Z) : res (list Z) :=
  let n := length x in
  let* _ := assert_ (2 <=? n)%nat in
  let* x0 := get x 0 in
  let '(v, cy) := p_overflowing_add W x0 y in
  let* result := set (repeat 0 n) 0 v in
  let* (result, cy) :=
    for_range 1 (n - 1) (fun i '(result, cy) =>
      let* xi := get x i in
      let '(v, cy) := p_overflowing_add W xi (b2z cy) in
      let* result := set result i v in
      Ok (result, cy)) (result, cy) in
  let* xn := get x (n - 1) in
  set result (n - 1) (p_wrapping_add W xn (b2z cy)).

(** add.rs 192-207 [overflowing_limb] *)
Definition add_overflowing_limb (x : list Z) (y : Z) : res (list Z * bool) :=
  let n := length x in
  let* _ := assert_ (2 <=? n)%nat in
  let* x0 := get x 0 in
  let '(v, cy) := p_overflowing_add W x0 y in
  let* result := set (repeat 0 n) 0 v in
  for_range 1 n (fun i '(result, cy) =>
    let* xi := get x i in
    let '(v, cy) := p_overflowing_add W xi (b2z cy) in
    let* result := set result i v in
    Ok (result, cy)) (result, cy).

(** add.rs 213-238 [wrapping_mn] *)
Definition add_wrapping_mn (x y : list Z) : res (list Z) :=
  let m := length x in
  let n := length y in
  let* _ := assert_ ((2 <=? n)%nat && (n <? m)%nat) in
  let* (result, cy) :=
    for_range 0 n (fun i '(result, cy) =>
      let* xi := get x i in
      let* yi := get y i in
      let '(vi, cy) := carrying_add xi yi cy in
      let* result := set result i vi in
      Ok (result, cy)) (repeat 0 m, false) in
  let* (result, cy) :=
    for_range n (m - 1) (fun i '(result, cy) =>
      let* xi := get x i in
      let '(vi, cy) := p_overflowing_add W xi (b2z cy) in
      let* result := set result i vi in
      Ok (result, cy)) (result, cy) in
  let* xn := get x (m - 1) in
  set result (m - 1) (p_wrapping_add W xn (b2z cy)).

(** add.rs 244-268 [overflowing_mn] *)
Definition add_overflowing_mn (x y : list Z) : res (list Z * bool) :=
  let m := length x in
  let n := length y in
  let* _ := assert_ ((2 <=? n)%nat && (n <? m)%nat) in
  let* (result, cy) :=
    for_range 0 n (fun i '(result, cy) =>
      let* xi := get x i in
      let* yi := get y i in
      let '(vi, cy) := carrying_add xi yi cy in
      let* result := set result i vi in
      Ok (result, cy)) (repeat 0 m, false) in
  for_range n m (fun i '(result, cy) =>
    let* xi := get x i in
    let '(vi, cy) := p_overflowing_add W xi (b2z cy) in
    let* result := set result i vi in
    Ok (result, cy)) (result, cy).

(** The two-limb array built at add.rs 274-276 (and in the sibling
    functions) from a wide scalar: [rhs[0] = y as u; rhs[1] = (y >> W) as u]. *)
Definition wide_limbs (y : Z) : res (list Z) :=
  let* rhs := set (repeat 0 2) 0 (ucast W y) in
  let* h := ushr (2 * W) y W in
  set rhs 1 (ucast W h).

(** add.rs 273-278 [wrapping_wide] *)
Definition add_wrapping_wide (x : list Z) (y : Z) : res (list Z) :=
  let* rhs := wide_limbs y in add_wrapping_mn x rhs.

(** add.rs 283-288 [overflowing_wide] *)
Definition add_overflowing_wide (x : list Z) (y : Z) : res (list Z * bool) :=
  let* rhs := wide_limbs y in add_overflowing_mn x rhs.

(** ** src/math/add.rs, signed.  Limbs are stored unsigned; [as $s] is [scast]. *)

(** add.rs 386-405 [wrapping_full]; the assertion on the limb types' widths
    (387) is constant true and dropped here and below. *)
Definition sadd_wrapping_full (x y : list Z) : res (list Z) :=
  let* _ := assert_ (2 <=? length x)%nat in
  add_wrapping_full x y.

(** add.rs 444-481 [overflowing_full] *)
Definition sadd_overflowing_full (x y : list Z) : res (list Z * bool) :=
  let n := length x in
  let* _ := assert_ (2 <=? n)%nat in
  let* (result, cy) :=
    for_range 0 (n - 1) (fun i '(result, cy) =>
      let* xi := get x i in
      let* yi := get y i in
      let '(vi, cy) := carrying_add xi yi cy in
      let* result := set result i vi in
      Ok (result, cy)) (repeat 0 n, false) in
  let* xn := get x (n - 1) in
  let* yn := get y (n - 1) in
  let '(vn, c0) := p_soverflowing_add W (scast W xn) (scast W yn) in
  let '(vn, c1) := p_soverflowing_add W vn (b2z cy) in
  let* result := set result (n - 1) (ucast W vn) in
  Ok (result, xorb c0 c1).

(** add.rs 511-531 [wrapping_ulimb]: same statements as 142-161 *)
Definition sadd_wrapping_ulimb (x : list Z) (y : Z) : res (list Z) :=
  add_wrapping_limb x y.

(** add.rs 562-582 [overflowing_ulimb] *)
Definition sadd_overflowing_ulimb (x : list Z) (y : Z) : res (list Z * bool) :=
  let n := length x in
  let* _ := assert_ (2 <=? n)%nat in
  let* x0 := get x 0 in
  let '(v, cy) := p_overflowing_add W x0 y in
  let* result := set (repeat 0 n) 0 v in
  let* (result, cy) :=
    for_range 1 (n - 1) (fun i '(result, cy) =>
      let* xi := get x i in
      let '(v, cy) := p_overflowing_add W xi (b2z cy) in
      let* result := set result i v in
      Ok (result, cy)) (result, cy) in
  let* xn := get x (n - 1) in
  let '(v, cy) := p_soverflowing_add W (scast W xn) (b2z cy) in
  let* result := set result (n - 1) (ucast W v) in
  Ok (result, cy).

(** [u::MIN.wrapping_sub(y.is_negative() as u)], add.rs 617 and siblings *)
Definition sign_limb (y : Z) : Z := p_wrapping_sub W 0 (b2z (y <? 0)).

(** Sign-extended limb array of a signed limb scalar, add.rs 617-619 *)
Definition ilimb_limbs (n : nat) (y : Z) : res (list Z) :=
  set (repeat (sign_limb y) n) 0 (ucast W y).

(** Zero-extended limb array of an unsigned wide scalar, add.rs 671-673 *)
Definition uwide_limbs (n : nat) (y : Z) : res (list Z) :=
  let* rhs := set (repeat 0 n) 0 (ucast W y) in
  let* h := ushr (2 * W) y W in
  set rhs 1 (ucast W h).

(** Sign-extended limb array of a signed wide scalar, add.rs 691-695 *)
Definition iwide_limbs (n : nat) (y : Z) : res (list Z) :=
  let rhs := repeat (sign_limb y) n in
  let y := ucast (2 * W) y in
  let* rhs := set rhs 0 (ucast W y) in
  let* h := ushr (2 * W) y W in
  set rhs 1 (ucast W h).

(** add.rs 615-621 [wrapping_ilimb] *)
Definition sadd_wrapping_ilimb (x : list Z) (y : Z) : res (list Z) :=
  let* rhs := ilimb_limbs (length x) y in sadd_wrapping_full x rhs.
(** add.rs 659-665 [overflowing_ilimb] *)
Definition sadd_overflowing_ilimb (x : list Z) (y : Z) : res (list Z * bool) :=
  let* rhs := ilimb_limbs (length x) y in sadd_overflowing_full x rhs.
(** add.rs 670-675 [wrapping_uwide] *)
Definition sadd_wrapping_uwide (x : list Z) (y : Z) : res (list Z) :=
  let* rhs := uwide_limbs (length x) y in sadd_wrapping_full x rhs.
(** add.rs 680-685 [overflowing_uwide] *)
Definition sadd_overflowing_uwide (x : list Z) (y : Z) : res (list Z * bool) :=
  let* rhs := uwide_limbs (length x) y in sadd_overflowing_full x rhs.
(** add.rs 690-697 [wrapping_iwide] *)
Definition sadd_wrapping_iwide (x : list Z) (y : Z) : res (list Z) :=
  let* rhs := iwide_limbs (length x) y in sadd_wrapping_full x rhs.
(** add.rs 702-709 [overflowing_iwide] *)
Definition sadd_overflowing_iwide (x : list Z) (y : Z) : res (list Z * bool) :=
  let* rhs := iwide_limbs (length x) y in sadd_overflowing_full x rhs.

(** ** src/math/sub.rs, unsigned *)

(** sub.rs 50-67 [wrapping_full] *)
Definition sub_wrapping_full (x y : list Z) : res (list Z) :=
  let n := length x in
  let* _ := assert_ (2 <=? n)%nat in
  let* (result, cy) :=
    for_range 0 (n - 1) (fun i '(result, cy) =>
      let* xi := get x i in
      let* yi := get y i in
      let '(vi, cy) := borrowing_sub xi yi cy in
      let* result := set result i vi in
      Ok (result, cy)) (repeat 0 n, false) in
  let* xn := get x (n - 1) in
  let* yn := get y (n - 1) in
  let vn := p_wrapping_sub W xn yn in
  set result (n - 1) (p_wrapping_sub W vn (b2z cy)).

(** sub.rs 99-116 [overflowing_full] *)
Definition sub_overflowing_full (x y : list Z) : res (list Z * bool) :=
  let n := length x in
  let* _ := assert_ (2 <=? n)%nat in
  for_range 0 n (fun i '(result, cy) =>
    let* xi := get x i in
    let* yi := get y i in
    let '(vi, cy) := borrowing_sub xi yi cy in
    let* result := set result i vi in
    Ok (result, cy)) (repeat 0 n, false).

(** sub.rs 147-165 [wrapping_limb] *)
Definition sub_wrapping_limb (x : list Z) (y : Z) : res (list Z) :=
  let n := length x in
  let* _ := assert_ (2 <=? n)%nat in
  let* x0 := get x 0 in
  let '(v, cy) := p_overflowing_sub W x0 y in
  let* result := set (repeat 0 n) 0 v in
  let* (result, cy) :=
    for_range 1 (n - 1) (fun i '(result, cy) =>
      let* xi := get x i in
      let '(v, cy) := p_overflowing_sub W xi (b2z cy) in
      let* result := set result i v in
      Ok (result, cy)) (result, cy) in
  let* xn := get x (n - 1) in
  set result (n - 1) (p_wrapping_sub W xn (b2z cy)).

(** sub.rs 197-212 [overflowing_limb] *)
Definition sub_overflowing_limb (x : list Z) (y : Z) : res (list Z * bool) :=
  let n := length x in
  let* _ := assert_ (2 <=? n)%nat in
  let* x0 := get x 0 in
  let '(v, cy) := p_overflowing_sub W x0 y in
  let* result := set (repeat 0 n) 0 v in
  for_range 1 n (fun i '(result, cy) =>
    let* xi := get x i in
    let '(v, cy) := p_overflowing_sub W xi (b2z cy) in
    let* result := set result i v in
    Ok (result, cy)) (result, cy).

(** sub.rs 218-243 [wrapping_mn] *)
Definition sub_wrapping_mn (x y : list Z) : res (list Z) :=
  let m := length x in
  let n := length y in
  let* _ := assert_ ((2 <=? n)%nat && (n <? m)%nat) in
  let* (result, cy) :=
    for_range 0 n (fun i '(result, cy) =>
      let* xi := get x i in
      let* yi := get y i in
      let '(vi, cy) := borrowing_sub xi yi cy in
      let* result := set result i vi in
      Ok (result, cy)) (repeat 0 m, false) in
  let* (result, cy) :=
    for_range n (m - 1) (fun i '(result, cy) =>
      let* xi := get x i in
      let '(vi, cy) := p_overflowing_sub W xi (b2z cy) in
      let* result := set result i vi in
      Ok (result, cy)) (result, cy) in
  let* xn := get x (m - 1) in
  set result (m - 1) (p_wrapping_sub W xn (b2z cy)).

(** sub.rs 249-273 [overflowing_mn] *)
Definition sub_overflowing_mn (x y : list Z) : res (list Z * bool) :=
  let m := length x in
  let n := length y in
  let* _ := assert_ ((2 <=? n)%nat && (n <? m)%nat) in
  let* (result, cy) :=
    for_range 0 n (fun i '(result, cy) =>
      let* xi := get x i in
      let* yi := get y i in
      let '(vi, cy) := borrowing_sub xi yi cy in
      let* result := set result i vi in
      Ok (result, cy)) (repeat 0 m, false) in
  for_range n m (fun i '(result, cy) =>
    let* xi := get x i in
    let '(vi, cy) := p_overflowing_sub W xi (b2z cy) in
    let* result := set result i vi in
    Ok (result, cy)) (result, cy).

(** sub.rs 278-283 [wrapping_wide] *)
Definition sub_wrapping_wide (x : list Z) (y : Z) : res (list Z) :=
  let* rhs := wide_limbs y in sub_wrapping_mn x rhs.

(** sub.rs 288-293 [overflowing_wide] *)
Definition sub_overflowing_wide (x : list Z) (y : Z) : res (list Z * bool) :=
  let* rhs := wide_limbs y in sub_overflowing_mn x rhs.

(** ** src/math/sub.rs, signed *)

(** sub.rs 387-406 [wrapping_full] *)
Definition ssub_wrapping_full (x y : list Z) : res (list Z) :=
  sub_wrapping_full x y.

(** sub.rs 442-479 [overflowing_full] *)
Definition ssub_overflowing_full (x y : list Z) : res (list Z * bool) :=
  let n := length x in
  let* _ := assert_ (2 <=? n)%nat in
  let* (result, cy) :=
    for_range 0 (n - 1) (fun i '(result, cy) =>
      let* xi := get x i in
      let* yi := get y i in
      let '(vi, cy) := borrowing_sub xi yi cy in
      let* result := set result i vi in
      Ok (result, cy)) (repeat 0 n, false) in
  let* xn := get x (n - 1) in
  let* yn := get y (n - 1) in
  let '(vn, c0) := p_soverflowing_sub W (scast W xn) (scast W yn) in
  let '(vn, c1) := p_soverflowing_sub W vn (b2z cy) in
  let* result := set result (n - 1) (ucast W vn) in
  Ok (result, xorb c0 c1).

(** sub.rs 510-530 [wrapping_ulimb]: same statements as 147-165 *)
Definition ssub_wrapping_ulimb (x : list Z) (y : Z) : res (list Z) :=
  sub_wrapping_limb x y.

(** sub.rs 562-582 [overflowing_ulimb] *)
Definition ssub_overflowing_ulimb (x : list Z) (y : Z) : res (list Z * bool) :=
  let n := length x in
  let* _ := assert_ (2 <=? n)%nat in
  let* x0 := get x 0 in
  let '(v, cy) := p_overflowing_sub W x0 y in
  let* result := set (repeat 0 n) 0 v in
  let* (result, cy) :=
    for_range 1 (n - 1) (fun i '(result, cy) =>
      let* xi := get x i in
      let '(v, cy) := p_overflowing_sub W xi (b2z cy) in
      let* result := set result i v in
      Ok (result, cy)) (result, cy) in
  let* xn := get x (n - 1) in
  let '(v, cy) := p_soverflowing_sub W (scast W xn) (b2z cy) in
  let* result := set result (n - 1) (ucast W v) in
  Ok (result, cy).

(** sub.rs 616-622 [wrapping_ilimb] *)
Definition ssub_wrapping_ilimb (x : list Z) (y : Z) : res (list Z) :=
  let* rhs := ilimb_limbs (length x) y in ssub_wrapping_full x rhs.
(** sub.rs 660-666 [overflowing_ilimb] *)
Definition ssub_overflowing_ilimb (x : list Z) (y : Z) : res (list Z * bool) :=
  let* rhs := ilimb_limbs (length x) y in ssub_overflowing_full x rhs.
(** sub.rs 671-676 [wrapping_uwide] *)
Definition ssub_wrapping_uwide (x : list Z) (y : Z) : res (list Z) :=
  let* rhs := uwide_limbs (length x) y in ssub_wrapping_full x rhs.
(** sub.rs 681-686 [overflowing_uwide] *)
Definition ssub_overflowing_uwide (x : list Z) (y : Z) : res (list Z * bool) :=
  let* rhs := uwide_limbs (length x) y in ssub_overflowing_full x rhs.
(** sub.rs 691-698 [wrapping_iwide] *)
Definition ssub_wrapping_iwide (x : list Z) (y : Z) : res (list Z) :=
  let* rhs := iwide_limbs (length x) y in ssub_wrapping_full x rhs.
(** sub.rs 703-710 [overflowing_iwide] *)
Definition ssub_overflowing_iwide (x : list Z) (y : Z) : res (list Z * bool) :=
  let* rhs := iwide_limbs (length x) y in ssub_overflowing_full x rhs.

End M.
