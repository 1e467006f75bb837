(** * Which array elements a call touches, and which conditions it tests

    The documentation says the algorithms are variable-time (src/lib.rs 11, 70)
    and calls [eq_const], [lt_const], [le_const], [gt_const], [ge_const] and
    [cmp_const] "non-short circuiting" (src/shared/ord.rs 45, 74, 88, 103, 118,
    124, 130).  This file repeats routines of MAdd.v, MMul.v, MShift.v, MCore.v
    and MArith.v with one difference: each run also carries the list of its
    steps, in order.  PropsTrace.v proves that leaving the list out gives back
    the functions of those files, for all inputs.

    Recorded: [Rd i] and [Wr i] for each [a[i]] and [a[i] = v] on an array of
    limbs or wide words; [Br b] for each condition of an [if], [while] or
    [debug_assert!] and for each overflow check of a plain [+ - * << >>] (when
    [chk]), with its outcome.  Not recorded: conditions on loop counters and
    constants alone, which cannot depend on a value, and moves of whole arrays.
    The steps are those of the source: what a compiler makes of them is not
    modelled. *)

Require Import ZArith List Bool.
From Verif Require Import Prim Spec MAdd MMul MShift MCore MArith.
Import ListNotations.
Local Open Scope Z_scope.

Inductive ev := Rd (i : nat) | Wr (i : nat) | Br (b : bool).

(** A run: its steps, then the outcome. *)
Definition tr (A : Type) : Type := (list ev * res A)%type.
(** a computation without recorded steps *)
Definition quiet {A} (r : res A) : tr A := ([], r).
Definition tbind {A B} (m : tr A) (k : A -> tr B) : tr B :=
  match m with
  | (t, Ok a) => let (u, r) := k a in (t ++ u, r)
  | (t, Panic) => (t, Panic)
  | (t, OutOfFuel) => (t, OutOfFuel)
  end.
Notation "'let%' p := m 'in' k" :=
  (tbind m (fun x => match x with p => k end))
  (at level 200, p pattern, m at level 200, k at level 200, right associativity).
(** [a[i]], [a[i] = v], and the test of a condition *)
Definition rd (a : list Z) (i : nat) : tr Z := ([Rd i], get a i).
Definition wr (a : list Z) (i : nat) (v : Z) : tr (list Z) := ([Wr i], set a i v).
Definition test (b : bool) : tr bool := ([Br b], Ok b).

Fixpoint for_t {St} (k i : nat) (body : nat -> St -> tr St) (s : St) : tr St :=
  match k with
  | O => quiet (Ok s)
  | S k' => let% s' := body i s in for_t k' (S i) body s'
  end.
(** a loop whose condition is on the counter alone *)
Definition for_ranget {St} (lo hi : nat) (body : nat -> St -> tr St) (s : St) : tr St :=
  for_t (hi - lo) lo body s.
(** a loop whose condition is on values *)
Fixpoint while_t {St} (fuel : nat) (cond : St -> bool) (body : St -> tr St) (s : St) : tr St :=
  let% b := test (cond s) in
  if b then
    match fuel with
    | O => quiet OutOfFuel
    | S f => let% s' := body s in while_t f cond body s'
    end
  else quiet (Ok s).

Section M.
Context {c : Cfg}.

(** plain arithmetic: the compiler's overflow check is a branch when [chk] *)
Definition checks (b : bool) : list ev := if chk then [Br b] else [].
Definition t_uadd (w x y : Z) : tr Z := (checks (in_u w (x + y)), uadd w x y).
Definition t_usub (w x y : Z) : tr Z := (checks (in_u w (x - y)), usub w x y).
Definition t_umul (w x y : Z) : tr Z := (checks (in_u w (x * y)), umul w x y).
Definition t_ushl (w x s : Z) : tr Z := (checks (in_u 32 s && (s <? w)), ushl w x s).
Definition t_ushr (w x s : Z) : tr Z := (checks (in_u 32 s && (s <? w)), ushr w x s).
Definition t_sshr (w x s : Z) : tr Z := (checks (in_u 32 s && (s <? w)), sshr w x s).
(** [debug_assert!(b)] *)
Definition t_dassert (b : bool) : tr unit := (if dbg then [Br b] else [], dassert b).

(** ** src/math/add.rs, src/math/sub.rs *)

(** bigint.rs 20-24 and 30-34 have no condition: their flags are joined by
    [|], not [||]. *)

(** add.rs 50-65 [wrapping_full] *)
Definition t_add_wrapping_full (x y : list Z) : tr (list Z) :=
  let n := length x in
  let% (result, cy) :=
    for_ranget 0 (n - 1) (fun i '(result, cy) =>
      let% xi := rd x i in
      let% yi := rd y i in
      let '(vi, cy) := carrying_add xi yi cy in
      let% result := wr result i vi in
      quiet (Ok (result, cy))) (repeat 0 n, false) in
  let% xn := rd x (n - 1) in
  let% yn := rd y (n - 1) in
  let vn := p_wrapping_add W xn yn in
  wr result (n - 1) (p_wrapping_add W vn (b2z cy)).
(** add.rs 97-112 [overflowing_full] *)
Definition t_add_overflowing_full (x y : list Z) : tr (list Z * bool) :=
  let n := length x in
  for_ranget 0 n (fun i '(result, cy) =>
    let% xi := rd x i in
    let% yi := rd y i in
    let '(vi, cy) := carrying_add xi yi cy in
    let% result := wr result i vi in
    quiet (Ok (result, cy))) (repeat 0 n, false).
(** add.rs 386-405 [wrapping_full], signed *)
Definition t_sadd_wrapping_full (x y : list Z) : tr (list Z) :=
  let% _ := quiet (assert_ (2 <=? length x)%nat) in
  t_add_wrapping_full x y.
(** add.rs 444-481 [overflowing_full], signed *)
Definition t_sadd_overflowing_full (x y : list Z) : tr (list Z * bool) :=
  let n := length x in
  let% _ := quiet (assert_ (2 <=? n)%nat) in
  let% (result, cy) :=
    for_ranget 0 (n - 1) (fun i '(result, cy) =>
      let% xi := rd x i in
      let% yi := rd y i in
      let '(vi, cy) := carrying_add xi yi cy in
      let% result := wr result i vi in
      quiet (Ok (result, cy))) (repeat 0 n, false) in
  let% xn := rd x (n - 1) in
  let% yn := rd y (n - 1) in
  let '(vn, c0) := p_soverflowing_add W (scast W xn) (scast W yn) in
  let '(vn, c1) := p_soverflowing_add W vn (b2z cy) in
  let% result := wr result (n - 1) (ucast W vn) in
  quiet (Ok (result, xorb c0 c1)).
(** sub.rs 50-67 [wrapping_full] *)
Definition t_sub_wrapping_full (x y : list Z) : tr (list Z) :=
  let n := length x in
  let% _ := quiet (assert_ (2 <=? n)%nat) in
  let% (result, cy) :=
    for_ranget 0 (n - 1) (fun i '(result, cy) =>
      let% xi := rd x i in
      let% yi := rd y i in
      let '(vi, cy) := borrowing_sub xi yi cy in
      let% result := wr result i vi in
      quiet (Ok (result, cy))) (repeat 0 n, false) in
  let% xn := rd x (n - 1) in
  let% yn := rd y (n - 1) in
  let vn := p_wrapping_sub W xn yn in
  wr result (n - 1) (p_wrapping_sub W vn (b2z cy)).
(** sub.rs 99-116 [overflowing_full] *)
Definition t_sub_overflowing_full (x y : list Z) : tr (list Z * bool) :=
  let n := length x in
  let% _ := quiet (assert_ (2 <=? n)%nat) in
  for_ranget 0 n (fun i '(result, cy) =>
    let% xi := rd x i in
    let% yi := rd y i in
    let '(vi, cy) := borrowing_sub xi yi cy in
    let% result := wr result i vi in
    quiet (Ok (result, cy))) (repeat 0 n, false).
(** sub.rs 442-479 [overflowing_full], signed *)
Definition t_ssub_overflowing_full (x y : list Z) : tr (list Z * bool) :=
  let n := length x in
  let% _ := quiet (assert_ (2 <=? n)%nat) in
  let% (result, cy) :=
    for_ranget 0 (n - 1) (fun i '(result, cy) =>
      let% xi := rd x i in
      let% yi := rd y i in
      let '(vi, cy) := borrowing_sub xi yi cy in
      let% result := wr result i vi in
      quiet (Ok (result, cy))) (repeat 0 n, false) in
  let% xn := rd x (n - 1) in
  let% yn := rd y (n - 1) in
  let '(vn, c0) := p_soverflowing_sub W (scast W xn) (scast W yn) in
  let '(vn, c1) := p_soverflowing_sub W vn (b2z cy) in
  let% result := wr result (n - 1) (ucast W vn) in
  quiet (Ok (result, xorb c0 c1)).

(** ** src/math/mul.rs *)

(** bigint.rs 48-51 [mac_u*]; the shift amount is a constant *)
Definition t_mac (a b d carry : Z) : tr (Z * Z) :=
  let% p := t_umul (2 * W) b d in
  let% s := t_uadd (2 * W) a p in
  let% value := t_uadd (2 * W) s carry in
  let% hi := quiet (ushr (2 * W) value W) in
  quiet (Ok (ucast W value, ucast W hi)).
(** mul.rs 80-120 [wrapping_full] *)
Definition t_mul_wrapping_full (x y : list Z) : tr (list Z) :=
  let m := length x in
  let n := length y in
  let% _ := quiet (assert_ (n <=? m)%nat) in
  for_ranget 0 m (fun i r =>
    let% xi := rd x i in
    let% (r, carry) :=
      for_ranget 0 (Nat.min n (m - i)) (fun j '(r, carry) =>
        let% yj := rd y j in
        let% rij := rd r (i + j) in
        let% (vij, carry) := t_mac rij xi yj carry in
        let% r := wr r (i + j) vij in
        quiet (Ok (r, carry))) (r, 0) in
    if (n <? m)%nat && (i + n <? m)%nat then wr r (i + n) carry else quiet (Ok r)) (repeat 0 m).
(** mul.rs 154-207 [overflowing_full].  [xi != 0 && yj != 0] is two
    conditions, the second tested only if the first holds. *)
Definition t_mul_overflowing_full (x y : list Z) : tr (list Z * bool) :=
  let m := length x in
  let n := length y in
  let% _ := quiet (assert_ (n <=? m)%nat) in
  for_ranget 0 m (fun i '(r, overflowed) =>
    let% xi := rd x i in
    let% (r, carry, overflowed, _) :=
      for_ranget 0 n (fun j '(r, carry, overflowed, brk) =>
        if brk : bool then quiet (Ok (r, carry, overflowed, brk)) else
        let% yj := rd y j in
        if (i + j <? m)%nat then
          let% rij := rd r (i + j) in
          let% (vij, carry) := t_mac rij xi yj carry in
          let% r := wr r (i + j) vij in
          quiet (Ok (r, carry, overflowed, false))
        else
          let% nx := test (negb (xi =? 0)) in
          let% nxy := (if nx : bool then test (negb (yj =? 0)) else quiet (Ok false)) in
          if nxy : bool then quiet (Ok (r, carry, true, true))
          else quiet (Ok (r, carry, overflowed, false))) (r, 0, overflowed, false) in
    if (n <? m)%nat && (i + n <? m)%nat then
      let% r := wr r (i + n) carry in quiet (Ok (r, overflowed))
    else
      let% nc := test (negb (carry =? 0)) in
      if nc : bool then quiet (Ok (r, true)) else quiet (Ok (r, overflowed))) (repeat 0 m, false).
(** mul.rs 624-659 [widening] *)
Definition t_mul_widening (x y : list Z) : tr (list Z * list Z) :=
  let m := length x in
  for_ranget 0 m (fun i '(lo, hi) =>
    let% xi := rd x i in
    let% (lo, hi, carry) :=
      for_ranget 0 m (fun j '(lo, hi, carry) =>
        let% yj := rd y j in
        if (i + j <? m)%nat then
          let% a := rd lo (i + j) in
          let% (vij, carry) := t_mac a xi yj carry in
          let% lo := wr lo (i + j) vij in
          quiet (Ok (lo, hi, carry))
        else
          let% a := rd hi (i + j - m) in
          let% (vij, carry) := t_mac a xi yj carry in
          let% hi := wr hi (i + j - m) vij in
          quiet (Ok (lo, hi, carry))) (lo, hi, 0) in
    if (i + m <? m)%nat then
      let% lo := wr lo (i + m) carry in quiet (Ok (lo, hi))
    else
      let% hi := wr hi (i + m - m) carry in quiet (Ok (lo, hi))) (repeat 0 m, repeat 0 m).

(** ** src/math/shift.rs, src/math/rotate.rs *)

(** shift.rs 87-140 [left].  [N == 2] is a condition on a constant. *)
Definition t_shl_array (w : Z) (x : list Z) (shift : Z) : tr (list Z) :=
  let n := length x in
  let% _ := quiet (assert_ (2 <=? n)%nat) in
  let% _ := t_dassert (shift <? Z.of_nat n * w) in
  let limb_n := limb_amount w shift in
  let bits_n := bits_amount w shift in
  let% inv_n := t_usub 32 w bits_n in
  let result := repeat 0 n in
  if (n =? 2)%nat then
    let% x0 := rd x 0 in
    let% x1 := rd x 1 in
    let% (r0, r1) :=
      (let% b := test (negb (limb_n =? 0)%nat) in
       if b then
         let% hi := t_ushl w x0 bits_n in quiet (Ok (0, hi))
       else
         let% b := test (shift =? 0) in
         if b then quiet (Ok (x0, x1))
         else
           let% hi := t_ushl w x1 bits_n in
           let% lo := t_ushl w x0 bits_n in
           let% carry := t_ushr w x0 inv_n in
           quiet (Ok (lo, Z.lor hi carry))) in
    let% result := wr result 0 r0 in
    wr result 1 r1
  else
    let% b := test (negb (bits_n =? 0)) in
    if b then
      let% (result, _) :=
        for_ranget limb_n n (fun index '(result, carry) =>
          let% xi := rd x (index - limb_n) in
          let% v := t_ushl w xi bits_n in
          let% result := wr result index (Z.lor v carry) in
          let% carry := t_ushr w xi inv_n in
          quiet (Ok (result, carry))) (result, 0) in
      quiet (Ok result)
    else
      for_ranget limb_n n (fun index result =>
        let% xi := rd x (index - limb_n) in
        wr result index xi) result.
(** shift.rs 212-287 [right].  [SIGNED] is a constant; the sign of the top
    word is looked at only when it holds. *)
Definition t_shr_array (w : Z) (sg : bool) (x : list Z) (shift : Z) : tr (list Z) :=
  let n := length x in
  let% _ := quiet (assert_ (2 <=? n)%nat) in
  let% _ := t_dassert (shift <? Z.of_nat n * w) in
  let limb_n := limb_amount w shift in
  let bits_n := bits_amount w shift in
  let% inv_n := t_usub 32 w bits_n in
  let% neg :=
    (if sg then let% top := rd x (n - 1) in test (scast w top <? 0)
     else let% _ := quiet (get x (n - 1)) in quiet (Ok false)) in
  let result := if neg : bool then repeat (2 ^ w - 1) n else repeat 0 n in
  if (n =? 2)%nat then
    let% x0 := rd x 0 in
    let% x1 := rd x 1 in
    let% (r0, r1) :=
      (let% b := test (negb (limb_n =? 0)%nat) in
       if b then
         if sg then
           let% lo := t_sshr w (scast w x1) bits_n in
           let% hi := t_sshr w (scast w x1) (w - 1) in
           quiet (Ok (ucast w lo, ucast w hi))
         else
           let% lo := t_ushr w x1 bits_n in quiet (Ok (lo, 0))
       else
         let% b := test (bits_n =? 0) in
         if b then quiet (Ok (x0, x1))
         else
           let% hi := (if sg then let% h := t_sshr w (scast w x1) bits_n in quiet (Ok (ucast w h))
                       else t_ushr w x1 bits_n) in
           let% lo := t_ushr w x0 bits_n in
           let% carry := t_ushl w x1 inv_n in
           quiet (Ok (Z.lor lo carry, hi))) in
    let% result := wr result 0 r0 in
    wr result 1 r1
  else
    let% b := test (negb (bits_n =? 0)) in
    if b then
      let% (result, _) :=
        for_ranget 0 (n - limb_n) (fun k '(result, carry) =>
          let index := (n - 1 - k)%nat in
          let% xi := rd x index in
          let% ri := (if sg && (index =? n - 1)%nat
                      then let% h := t_sshr w (scast w xi) bits_n in quiet (Ok (ucast w h))
                      else t_ushr w xi bits_n) in
          let% result := wr result (index - limb_n) (Z.lor ri carry) in
          let% carry := t_ushl w xi inv_n in
          quiet (Ok (result, carry))) (result, 0) in
      quiet (Ok result)
    else
      for_ranget 0 (n - limb_n) (fun k result =>
        let index := (n - 1 - k)%nat in
        let% xi := rd x index in
        wr result (index - limb_n) xi) result.
(** rotate.rs 60-119 [left] *)
Definition t_rotl_array (w : Z) (x : list Z) (n : Z) : tr (list Z) :=
  let len := length x in
  let% _ := quiet (assert_ (2 <=? len)%nat) in
  let% total := quiet (umul 32 (Z.of_nat len) w) in
  let% n := quiet (urem n total) in
  let limb_n := limb_amount w n in
  let bits_n := bits_amount w n in
  let% inv_n := t_usub 32 w bits_n in
  let result := repeat 0 len in
  if (len =? 2)%nat then
    let% (x0, x1) :=
      (let% b := test (negb (limb_n =? 0)%nat) in
       if b
       then let% a := rd x 1 in let% b := rd x 0 in quiet (Ok (a, b))
       else let% a := rd x 0 in let% b := rd x 1 in quiet (Ok (a, b))) in
    let% (r0, r1) :=
      (let% b := test (bits_n =? 0) in
       if b then quiet (Ok (x0, x1))
       else
         let% h1 := t_ushl w x1 bits_n in
         let% h2 := t_ushr w x0 inv_n in
         let% l1 := t_ushl w x0 bits_n in
         let% l2 := t_ushr w x1 inv_n in
         quiet (Ok (Z.lor l1 l2, Z.lor h1 h2))) in
    let% result := wr result 0 r0 in
    wr result 1 r1
  else
    let% b := test (negb (bits_n =? 0)) in
    if b then
      let% (result, carry) :=
        for_ranget 0 len (fun index '(result, carry) =>
          let rot_n := ((index + limb_n) mod len)%nat in
          let% xi := rd x index in
          let% v := t_ushl w xi bits_n in
          let ri := Z.lor v carry in
          let% carry := t_ushr w xi inv_n in
          let% result := wr result rot_n ri in
          quiet (Ok (result, carry))) (result, 0) in
      let% rl := rd result limb_n in
      wr result limb_n (Z.lor rl carry)
    else
      for_ranget 0 len (fun index result =>
        let rot_n := ((index + limb_n) mod len)%nat in
        let% xi := rd x index in
        wr result rot_n xi) result.
(** rotate.rs 135-141 [right] *)
Definition t_rotr_array (w : Z) (x : list Z) (n : Z) : tr (list Z) :=
  let% _ := quiet (assert_ (2 <=? length x)%nat) in
  let% total := quiet (umul 32 w (Z.of_nat (length x))) in
  let% n := quiet (urem n total) in
  let% k := t_usub 32 total n in
  t_rotl_array w x k.

(** ** Methods *)

(** uint/wrapping.rs 22-25, 43-48, 83-217 and int/wrapping.rs 22-25, 33-36,
    61-64 *)
Definition t_wrapping_add (sg : bool) (x y : list Z) : tr (list Z) :=
  let% l := (if sg then t_sadd_wrapping_full x y else t_add_wrapping_full x y) in quiet (mk l).
Definition t_wrapping_sub (sg : bool) (x y : list Z) : tr (list Z) :=
  let% l := t_sub_wrapping_full x y in quiet (mk l).
Definition t_wrapping_mul (x y : list Z) : tr (list Z) :=
  let% l := t_mul_wrapping_full x y in quiet (mk l).
(** uint/overflowing.rs 26-31, 57-62, 103-108 and int/overflowing.rs 24-29,
    39-44 *)
Definition t_overflowing_add (sg : bool) (x y : list Z) : tr (list Z * bool) :=
  let% (l, f) := (if sg then t_sadd_overflowing_full x y else t_add_overflowing_full x y) in
  let% l := quiet (mk l) in quiet (Ok (l, f)).
Definition t_overflowing_sub (sg : bool) (x y : list Z) : tr (list Z * bool) :=
  let% (l, f) := (if sg then t_ssub_overflowing_full x y else t_sub_overflowing_full x y) in
  let% l := quiet (mk l) in quiet (Ok (l, f)).
Definition t_u_overflowing_mul (x y : list Z) : tr (list Z * bool) :=
  let% (l, f) := t_mul_overflowing_full x y in
  let% l := quiet (mk l) in quiet (Ok (l, f)).
(** shared/checked.rs 16-23, 31-38 [checked_add], [checked_sub] *)
Definition t_opt (m : tr (list Z * bool)) : tr (option (list Z)) :=
  let% (v, f) := m in
  let% b := test (negb f) in
  quiet (Ok (if b : bool then Some v else None)).
Definition t_checked_add (sg : bool) (x y : list Z) := t_opt (t_overflowing_add sg x y).
Definition t_checked_sub (sg : bool) (x y : list Z) := t_opt (t_overflowing_sub sg x y).

(** bitops.rs 151-160 [not_const] *)
Definition t_not_const (x : list Z) : tr (list Z) :=
  let% r := for_ranget 0 N
    (fun i r => let% l := rd x i in wr r i (p_not W l)) (repeat 0 N) in
  quiet (mk r).
(** bitops.rs 109-147 [bitand_const], [bitor_const], [bitxor_const] *)
Definition t_bitwise (op : Z -> Z -> Z) (x y : list Z) : tr (list Z) :=
  let% r := for_ranget 0 N
    (fun i r =>
       let% a := rd x i in
       let% b := rd y i in
       wr r i (op a b)) (repeat 0 N) in
  quiet (mk r).
(** bitops.rs 17-26 [count_ones], 32-34 [count_zeros] *)
Definition t_count_ones (x : list Z) : tr Z :=
  for_ranget 0 N
    (fun i count => let% l := rd x i in t_uadd 32 count (p_count_ones W l)) 0.
Definition t_count_zeros (x : list Z) : tr Z := let% n := t_not_const x in t_count_ones n.
(** bitops.rs 62-70 [leading_zeros], 77-85 [trailing_zeros] *)
Definition t_leading_zeros (x : list Z) : tr Z :=
  let% (count, _) := while_t N
    (fun s => let '(count, i) := s in (i <? N)%nat && (count =? Z.of_nat i * W))
    (fun s => let '(count, i) := s in
       let% l := rd x (N - i - 1) in
       let% count := t_uadd 32 count (p_leading_zeros W l) in
       quiet (Ok (count, S i))) (0, 0%nat) in
  quiet (Ok count).
Definition t_trailing_zeros (x : list Z) : tr Z :=
  let% (count, _) := while_t N
    (fun s => let '(count, i) := s in (i <? N)%nat && (count =? Z.of_nat i * W))
    (fun s => let '(count, i) := s in
       let% l := rd x i in
       let% count := t_uadd 32 count (p_trailing_zeros W l) in
       quiet (Ok (count, S i))) (0, 0%nat) in
  quiet (Ok count).
(** bitops.rs 169-172 [rotate_left], 182-185 [rotate_right] *)
Definition t_rotate_left (x : list Z) (n : Z) : tr (list Z) :=
  let% r := t_rotl_array (2 * W) (to_wide x) n in quiet (from_ne_wide r).
Definition t_rotate_right (x : list Z) (n : Z) : tr (list Z) :=
  let% r := t_rotr_array (2 * W) (to_wide x) n in quiet (from_ne_wide r).
(** uint/bitops.rs 18-29, int/bitops.rs 19-30 [wrapping_shl], [wrapping_shr] *)
Definition t_wrapping_shl (x : list Z) (rhs : Z) : tr (list Z) :=
  let% s := quiet (urem rhs tbits) in
  let% r := t_shl_array (2 * W) (to_wide x) s in quiet (from_ne_wide r).
Definition t_wrapping_shr (sg : bool) (x : list Z) (rhs : Z) : tr (list Z) :=
  let% s := quiet (urem rhs tbits) in
  let% r := t_shr_array (2 * W) sg (to_wide x) s in quiet (from_ne_wide r).

(** ord.rs 47-58 [eq_branchless]; [&=] tests nothing *)
Definition t_eq_branchless (x y : list Z) : tr bool :=
  let lhs := to_wide x in
  let rhs := to_wide y in
  for_ranget 0 WIDE
    (fun i is_eq =>
       let% a := rd lhs i in
       let% b := rd rhs i in
       quiet (Ok (is_eq && (a =? b)))) true.
(** ord.rs 62-72 [eq_branched] *)
Definition t_eq_branched (x y : list Z) : tr bool :=
  let lhs := to_wide x in
  let rhs := to_wide y in
  let% (is_eq, _) := while_t WIDE
    (fun s => let '(is_eq, i) := s in (i <? WIDE)%nat && is_eq)
    (fun s => let '(is_eq, i) := s in
       let% a := rd lhs i in
       let% b := rd rhs i in
       quiet (Ok (is_eq && (a =? b), S i))) (true, 0%nat) in
  quiet (Ok is_eq).
(** ord.rs 76-82 [eq_const]; [Self::BITS] is a constant *)
Definition t_eq_const (x y : list Z) : tr bool :=
  if tbits <? 4096 then t_eq_branchless x y else t_eq_branched x y.
(** ord.rs 7-39, the [@ord] macro arm *)
Definition t_ord_macro (sg : bool) (op1 op2 : Z -> Z -> bool) (x y : list Z) : tr bool :=
  let lhs := to_wide x in
  let rhs := to_wide y in
  let i := (WIDE - 1)%nat in
  let% lhs_0 := rd lhs i in
  let% rhs_0 := rd rhs i in
  let lhs_0 := as_hi sg lhs_0 in
  let rhs_0 := as_hi sg rhs_0 in
  let% (is_ord, _, _) := while_t WIDE
    (fun s => let '(is_ord, is_eq, i) := s in (0 <? i)%nat && negb is_ord && is_eq)
    (fun s => let '(is_ord, is_eq, i) := s in
       let i := (i - 1)%nat in
       let% lhs_i := rd lhs i in
       let% rhs_i := rd rhs i in
       quiet (Ok (if (i =? 0)%nat then op2 lhs_i rhs_i else op1 lhs_i rhs_i, lhs_i =? rhs_i, i)))
    (op1 lhs_0 rhs_0, lhs_0 =? rhs_0, i) in
  quiet (Ok is_ord).
(** ord.rs 91-128 [lt_const], [le_const], [gt_const], [ge_const] *)
Definition t_lt_const (sg : bool) (x y : list Z) : tr bool := t_ord_macro sg Z.ltb Z.ltb x y.
Definition t_le_const (sg : bool) (x y : list Z) : tr bool := t_ord_macro sg Z.ltb Z.leb x y.
Definition t_gt_const (sg : bool) (x y : list Z) : tr bool :=
  let% b := t_le_const sg x y in quiet (Ok (negb b)).
Definition t_ge_const (sg : bool) (x y : list Z) : tr bool :=
  let% b := t_lt_const sg x y in quiet (Ok (negb b)).
(** ord.rs 132-159 [cmp_const] *)
Definition t_cmp_const (sg : bool) (x y : list Z) : tr comparison :=
  let lhs := to_wide x in
  let rhs := to_wide y in
  let i := (WIDE - 1)%nat in
  let% lhs_0 := rd lhs i in
  let% rhs_0 := rd rhs i in
  let lhs_0 := as_hi sg lhs_0 in
  let rhs_0 := as_hi sg rhs_0 in
  let% (_, is_lt, is_gt, _) := while_t WIDE
    (fun s => let '(is_eq, is_lt, is_gt, i) := s in
       (0 <? i)%nat && negb is_lt && negb is_gt && is_eq)
    (fun s => let '(is_eq, is_lt, is_gt, i) := s in
       let i := (i - 1)%nat in
       let% lhs_i := rd lhs i in
       let% rhs_i := rd rhs i in
       quiet (Ok (lhs_i =? rhs_i, lhs_i <? rhs_i, rhs_i <? lhs_i, i)))
    (lhs_0 =? rhs_0, lhs_0 <? rhs_0, rhs_0 <? lhs_0, i) in
  let% b := test is_lt in
  if b then quiet (Ok Lt)
  else
    let% b := test is_gt in
    if b then quiet (Ok Gt) else quiet (Ok Eq).

(** int/ops.rs 50-54 [is_negative] *)
Definition t_is_negative (x : list Z) : tr bool :=
  let% l := rd x (N - 1) in quiet (Ok (scast W l <? 0)).
(** int/ops.rs 26-43 [is_positive] *)
Definition t_is_positive (x : list Z) : tr bool :=
  let% high := (let% v := rd x (N - 1) in quiet (Ok (scast W v))) in
  let% b := test (high <? 0) in
  if b then quiet (Ok false)
  else
    let% b := test (0 <? high) in
    if b then quiet (Ok true)
    else
      for_ranget 0 (N - 1)
        (fun j found =>
           if (found : bool) then quiet (Ok true)
           else let% l := rd x (N - 1 - 1 - j) in test (0 <? l)) false.

End M.
