(** * Model of src/math/div.rs

    Little-endian limb lists (the callers pass [to_le_limbs], which is the
    logical order); const generics are list lengths, or explicit [nat]
    arguments where only a result type fixes them.  [usize] arithmetic is on
    [nat]; the only subtraction that could underflow is checked explicitly. *)

Require Import ZArith List Bool.
From Verif Require Import Prim MAdd MCore.
Import ListNotations.
Local Open Scope Z_scope.

Section M.
Context {c : Cfg}.

(** div.rs 234-239 [scalar1] *)
Definition scalar1 (n : nat) (v : Z) : res (list Z) :=
  let* _ := assert_ (0 <? n)%nat in
  set (repeat 0 n) 0 v.
(** div.rs 243-249 [scalar2] *)
Definition scalar2 (n : nat) (v : Z) : res (list Z) :=
  let* _ := assert_ (0 <? n)%nat in
  let* r := set (repeat 0 n) 0 (ucast W v) in
  let* h := ushr (2 * W) v W in
  set r 1 (ucast W h).
(** div.rs 255-265 [scalar_u128] *)
Definition scalar_u128 (n : nat) (v : Z) : res (list Z) :=
  let* _ := assert_ (4 <=? n)%nat in
  let* _ := assert_ (W =? 32) in
  let* r := set (repeat 0 n) 0 (ucast W v) in
  let* v1 := ushr 128 v 32 in
  let* r := set r 1 (ucast W v1) in
  let* v2 := ushr 128 v 64 in
  let* r := set r 2 (ucast W v2) in
  let* v3 := ushr 128 v 96 in
  set r 3 (ucast W v3).
(** div.rs 271-281 [u128_scalar] *)
Definition u128_scalar (x : list Z) : res Z :=
  let* _ := assert_ (4 <=? length x)%nat in
  let* _ := assert_ (W =? 32) in
  let* x0 := get x 0 in
  let* x1 := get x 1 in
  let* x2 := get x 2 in
  let* x3 := get x 3 in
  let* x1 := ushl 128 x1 32 in
  let* x2 := ushl 128 x2 64 in
  let* x3 := ushl 128 x3 96 in
  Ok (Z.lor (Z.lor (Z.lor x0 x1) x2) x3).

(** div.rs 210-217 [is_zero] *)
Definition is_zero (x : list Z) (i : nat) : res bool :=
  for_range i (length x) (fun i zero => let* v := get x i in Ok (zero && (v =? 0))) true.

(** div.rs 221-230 [last_index]; the loop counts [i] down from [N] *)
Fixpoint last_index_loop (x : list Z) (i : nat) : res nat :=
  match i with
  | O => Ok O
  | S i => let* v := get x i in if negb (v =? 0) then Ok i else last_index_loop x i
  end.
Definition last_index (x : list Z) : res nat := last_index_loop x (length x).

(** div.rs 178-202 [cmp].  [cmp_low] is the second loop (192-199), [cmp_high]
    the first (184-190), with [k = i - N]. *)
Fixpoint cmp_low (lhs rhs : list Z) (i : nat) : res comparison :=
  match i with
  | O => Ok Eq
  | S i =>
      let* a := get lhs i in
      let* b := get rhs i in
      if b <? a then Ok Gt else if a <? b then Ok Lt else cmp_low lhs rhs i
  end.
Fixpoint cmp_high (lhs rhs : list Z) (k : nat) : res comparison :=
  match k with
  | O => cmp_low lhs rhs (length rhs)
  | S k =>
      let* a := get lhs (length rhs + k) in
      if 0 <? a then Ok Gt else cmp_high lhs rhs k
  end.
Definition div_cmp (lhs rhs : list Z) : res comparison :=
  if (length lhs <? length rhs)%nat then
    let* o := cmp_high rhs lhs (length rhs - length lhs) in Ok (CompOpp o)
  else cmp_high lhs rhs (length lhs - length rhs).

(** div.rs 567-576 [truncate] *)
Definition truncate (n : nat) (v : list Z) : res (list Z) :=
  let* _ := assert_ (n <=? length v)%nat in
  for_range 0 n (fun i r => let* x := get v i in set r i x) (repeat 0 n).

(** div.rs 437-506 [div_rem_word], the portable variant; the asm variant (x86_64
    [div]) is in MAsm.v and gives the same divisions (C75). *)
Definition div_rem_word (hi lo divisor : Z) : res (Z * Z) :=
  let* _ := dassert (hi <? divisor) in
  let* _ := dassert (negb (divisor =? 0)) in
  let* h := ushl (2 * W) hi W in
  let* x := uadd (2 * W) h lo in
  let* q := udiv x divisor in
  let* r := urem x divisor in
  Ok (ucast W q, ucast W r).

(** [(lo as UWide) | ((hi as UWide) << ULimb::BITS)] *)
Definition join_limbs (lo hi : Z) : res Z :=
  let* h := ushl (2 * W) hi W in Ok (Z.lor lo h).

(** div.rs 134-157 [limb] *)
Definition div_limb (numerator : list Z) (divisor : Z) : res (list Z * Z) :=
  let m := length numerator in
  let* z := (if (2 <=? m)%nat then is_zero numerator 2 else Ok false) in
  if z then
    let* lo := get numerator 0 in
    let* hi := get numerator 1 in
    let* x := join_limbs lo hi in
    let* quo := udiv x divisor in
    let* rem := urem x divisor in
    let* q := scalar2 m quo in
    Ok (q, ucast W rem)
  else
    for_range 0 m (fun k s => let '(num, r) := s in
      let i := (m - 1 - k)%nat in
      let* d := get num i in
      let* (q, ri) := div_rem_word r d divisor in
      let* num := set num i q in
      Ok (num, ri)) (numerator, 0).

(** div.rs 285-291 [limb_padded]; [n] is the length of the remainder *)
Definition limb_padded (numerator : list Z) (n : nat) (divisor : Z) : res (list Z * list Z) :=
  let* (q, rem) := div_limb numerator divisor in
  let* r := scalar1 n rem in
  Ok (q, r).

(** div.rs 578-605 [ArrayPlusOne]: [get] and [set] *)
Definition apo_get (a : list Z * Z) (i : nat) : res Z :=
  if (i =? length (fst a))%nat then Ok (snd a) else get (fst a) i.
Definition apo_set (a : list Z * Z) (i : nat) (v : Z) : res (list Z * Z) :=
  if (i =? length (fst a))%nat then Ok (fst a, v)
  else let* l := set (fst a) i v in Ok (l, snd a).

(** div.rs 510-522 [full_mul_u64] *)
Definition full_mul_u64 (a : list Z) (b : Z) : res (list Z * Z) :=
  for_range 0 (length a) (fun i s => let '(out, carry) := s in
    let* v := get a i in
    let* p := umul (2 * W) v b in
    let* r := uadd (2 * W) p carry in
    let* out := set out i (ucast W r) in
    let* h := ushr (2 * W) r W in
    Ok (out, ucast W h)) (repeat 0 (length a), 0).

(** div.rs 532-546 [full_shl] *)
Definition full_shl (v : list Z) (shift : Z) : res (list Z * Z) :=
  let* _ := dassert (shift <? W) in
  if shift =? 0 then Ok (v, 0)
  else
    let n := length v in
    let* v0 := get v 0 in
    let* o0 := ushl W v0 shift in
    let* out := set (repeat 0 n) 0 o0 in
    let* out := for_range 1 n (fun i out =>
      let* p := get v (i - 1) in
      let* x := get v i in
      let* inv := usub 32 W shift in
      let* l := ushr W p inv in
      let* h := ushl W x shift in
      set out i (Z.lor l h)) out in
    let* top := get v (n - 1) in
    let* inv := usub 32 W shift in
    let* carry := ushr W top inv in
    Ok (out, carry).
(** div.rs 526-528 [shl_word] *)
Definition shl_word (v : list Z) (shift : Z) : res (list Z) :=
  let* r := full_shl v shift in Ok (fst r).
(** div.rs 550-563 [full_shr]; the extra limb of [a] is not used *)
Definition full_shr (a : list Z * Z) (shift : Z) : res (list Z) :=
  let* _ := dassert (shift <? W) in
  if shift =? 0 then Ok (fst a)
  else
    let l := fst a in
    let n := length l in
    let* out := for_range 0 (n - 1) (fun i out =>
      let* x := get l i in
      let* y := get l (i + 1) in
      let* lo := ushr W x shift in
      let* inv := usub 32 W shift in
      let* hi := ushl W y inv in
      set out i (Z.lor lo hi)) (repeat 0 n) in
    let* top := get l (n - 1) in
    let* t := ushr W top shift in
    set out (n - 1) t.

(** [(hi, lo) > (r_hat, a2)] on pairs, [r] being the wide value of [(hi, lo)] *)
Definition pair_gt (r r_hat a2 : Z) : res bool :=
  let lo := ucast W r in
  let* h := ushr (2 * W) r W in
  let hi := ucast W h in
  Ok ((r_hat <? hi) || ((hi =? r_hat) && (a2 <? lo))).

(** div.rs 347-377, the estimate of one quotient digit.  [a2] is only read
    when needed. *)
Definition estimate (a0 a1 : Z) (a2 : res Z) (b0 b1 : Z) : res Z :=
  if a0 <? b0 then
    let* (q_hat, r_hat) := div_rem_word a0 a1 b0 in
    let* a2 := a2 in
    let* r := umul (2 * W) q_hat b1 in
    let* gt := pair_gt r r_hat a2 in
    if gt then
      let* q_hat := usub W q_hat 1 in
      let '(r_hat, overflow) := p_overflowing_add W r_hat b0 in
      if negb overflow then
        let* r := umul (2 * W) q_hat b1 in
        let* gt := pair_gt r r_hat a2 in
        if gt then usub W q_hat 1 else Ok q_hat
      else Ok q_hat
    else Ok q_hat
  else Ok (2 ^ W - 1).

(** div.rs 382-393, [numerator -= (q_hat * divisor) << (j * BITS)] *)
Definition sub_mul (numerator : list Z * Z) (q_hat_v : list Z * Z) (n j : nat) : res (list Z * Z * bool) :=
  for_range 0 (n + 1) (fun i s => let '(num, cy) := s in
    let* x := apo_get num (i + j) in
    let* y := apo_get q_hat_v i in
    let '(res1, overflow1) := p_overflowing_add W y (b2z cy) in
    let '(res2, overflow2) := p_overflowing_sub W x res1 in
    let* num := apo_set num (i + j) res2 in
    Ok (num, overflow1 || overflow2)) (numerator, false).

(** div.rs 401-415, the correction.  [divisor[i]] is read for [i <= n]. *)
Definition add_back (numerator : list Z * Z) (divisor : list Z) (n j : nat) : res (list Z * Z) :=
  let* (num, cy) := for_range 0 (n + 1) (fun i s => let '(num, cy) := s in
    let* x := apo_get num (i + j) in
    let* y := get divisor i in
    let '(res1, overflow1) := p_overflowing_add W y (b2z cy) in
    let '(res2, overflow2) := p_overflowing_add W x res1 in
    let* num := apo_set num (i + j) res2 in
    Ok (num, overflow1 || overflow2)) (numerator, false) in
  let* v := apo_get num (j + n) in
  apo_set num (j + n) (p_wrapping_add W v (b2z cy)).

(** div.rs 341-419, one iteration of the main loop at index [j] *)
Definition knuth_step (divisor : list Z) (n : nat) (b0 b1 : Z) (j : nat) (s : list Z * Z * list Z)
    : res (list Z * Z * list Z) :=
  let '(numerator, q) := s in
  let* a0 := apo_get numerator (j + n) in
  let* a1 := get (fst numerator) (j + n - 1) in
  let* q_hat := estimate a0 a1 (get (fst numerator) (j + n - 2)) b0 b1 in
  let* q_hat_v := full_mul_u64 divisor q_hat in
  let* (numerator, cy) := sub_mul numerator q_hat_v n j in
  let* (numerator, q_hat) :=
    (if (cy : bool) then
       let* q_hat := usub W q_hat 1 in
       let* numerator := add_back numerator divisor n j in
       Ok (numerator, q_hat)
     else Ok (numerator, q_hat)) in
  let* q := set q j q_hat in
  Ok (numerator, q).

(** div.rs 302-425 [div_rem_knuth] *)
Definition div_rem_knuth (numerator divisor : list Z) (n m : nat) : res (list Z * list Z) :=
  let* _ := assert_ (n + m <=? length numerator)%nat in
  let* top := get divisor (n - 1) in
  let shift := p_leading_zeros W top in
  let nlimbs := length divisor in
  let* divisor := shl_word divisor shift in
  let* num := full_shl numerator shift in
  let* b0 := get divisor (n - 1) in
  let* b1 := get divisor (n - 2) in
  let* (num, q) := for_range 0 (m + 1)
    (fun k s => knuth_step divisor n b0 b1 (m - k) s) (num, repeat 0 (length numerator)) in
  let* r := full_shr num shift in
  let* rem := truncate nlimbs r in
  Ok (q, rem).

(** div.rs 162-173 [full_gt] *)
Definition full_gt (numerator divisor : list Z) : res (list Z * list Z) :=
  let* n := last_index divisor in
  if (n =? 0)%nat then
    let* d := get divisor 0 in limb_padded numerator (length divisor) d
  else
    let* l := last_index numerator in
    let* _ := assert_ (n <=? l)%nat in
    div_rem_knuth numerator divisor (n + 1) (l - n).

(** div.rs 45-64 [full] *)
Definition div_full (numerator divisor : list Z) : res (list Z * list Z) :=
  let m := length numerator in
  let n := length divisor in
  if (n =? 1)%nat then
    let* d := get divisor 0 in limb_padded numerator n d
  else
    let* o := div_cmp numerator divisor in
    match o with
    | Lt => let* r := truncate n numerator in Ok (repeat 0 m, r)
    | Eq => let* q := scalar1 m 1 in let* r := scalar1 n 0 in Ok (q, r)
    | Gt =>
        let* z := is_zero numerator 0 in
        if z then let* q := scalar1 m 0 in let* r := scalar1 n 0 in Ok (q, r)
        else full_gt numerator divisor
    end.

(** div.rs 74-98 [wide] *)
Definition div_wide (numerator : list Z) (divisor : Z) : res (list Z * Z) :=
  let m := length numerator in
  let* z := (if (2 <=? m)%nat then is_zero numerator 2 else Ok false) in
  if z then
    let* n0 := get numerator 0 in
    let* n1 := get numerator 1 in
    if (n0 =? 0) && (n1 =? 0) then let* q := scalar1 m 0 in Ok (q, 0)
    else
      let* x := join_limbs n0 n1 in
      let* quo := udiv x divisor in
      let* rem := urem x divisor in
      let* q := scalar2 m quo in
      Ok (q, rem)
  else
    let* y := scalar2 2 divisor in
    let* o := div_cmp numerator y in
    let fin (s : list Z * list Z) : res (list Z * Z) :=
      let '(quo, rem) := s in
      let* r0 := get rem 0 in
      let* r1 := get rem 1 in
      let* r := join_limbs r0 r1 in
      Ok (quo, r) in
    match o with
    | Lt => let* r := truncate 2 numerator in fin (repeat 0 m, r)
    | Eq => let* q := scalar1 m 1 in Ok (q, 0)
    | Gt => let* s := full_gt numerator y in fin s
    end.

(** div.rs 105-129 [from_u128] *)
Definition div_from_u128 (numerator : list Z) (divisor : Z) : res (list Z * Z) :=
  let m := length numerator in
  let* _ := assert_ (W =? 32) in
  let* z := (if (2 <=? m)%nat then is_zero numerator 2 else Ok false) in
  if z then
    let* n0 := get numerator 0 in
    let* n1 := get numerator 1 in
    if (n0 =? 0) && (n1 =? 0) then let* q := scalar1 m 0 in Ok (q, 0)
    else
      let* x := u128_scalar numerator in
      let* quo := udiv x divisor in
      let* rem := urem x divisor in
      let* q := scalar_u128 m quo in
      Ok (q, rem)
  else
    let* y := scalar_u128 m divisor in
    let* o := div_cmp numerator y in
    let fin (s : list Z * list Z) : res (list Z * Z) :=
      let '(quo, rem) := s in
      let* r := u128_scalar rem in
      Ok (quo, r) in
    match o with
    | Lt => let* r := truncate m numerator in fin (repeat 0 m, r)
    | Eq => let* q := scalar1 m 1 in Ok (q, 0)
    | Gt => let* s := full_gt numerator y in fin s
    end.

End M.
