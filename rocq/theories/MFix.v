(** * The code with its defects corrected

    Not the code of /repo: each definition here is the definition of the model
    it is named after with one place changed, or with the changed function in
    place of the original.  The comments give the lines of /repo and the
    change.  PropsFix.v shows that each change is enough: the property that
    fails for the code (Findings in DESIGN.md) holds for the changed code, for
    all inputs. *)

Require Import ZArith List Bool.
From Verif Require Import Prim Spec MAdd MShift MMul MCore MArith MDiv MApi MScalar.
Import ListNotations.
Local Open Scope Z_scope.

Section M.
Context {c : Cfg}.

(** ** Long division *)

(** div.rs 401-415 (MDiv.v [add_back]).  Changed: the loop of line 405 runs
    while [i < n], not [i < n + 1], so that [divisor[n]] is not read and the
    carry is added to limb [j + n] once. *)
Definition fix_add_back (numerator : list Z * Z) (divisor : list Z) (n j : nat) : res (list Z * Z) :=
  let* (num, cy) := for_range 0 n (fun i s => let '(num, cy) := s in
    let* x := apo_get num (i + j) in
    let* y := get divisor i in
    let '(res1, overflow1) := p_overflowing_add W y (b2z cy) in
    let '(res2, overflow2) := p_overflowing_add W x res1 in
    let* num := apo_set num (i + j) res2 in
    Ok (num, overflow1 || overflow2)) (numerator, false) in
  let* v := apo_get num (j + n) in
  apo_set num (j + n) (p_wrapping_add W v (b2z cy)).

(** div.rs 341-419 (MDiv.v [knuth_step]), with [fix_add_back] *)
Definition fix_knuth_step (divisor : list Z) (n : nat) (b0 b1 : Z) (j : nat) (s : list Z * Z * list Z)
    : res (list Z * Z * list Z) :=
  let '(numerator, q) := s in
  let* a0 := apo_get numerator (j + n) in
  let* a1 := get (fst numerator) (j + n - 1) in
  let* q_hat := estimate a0 a1 (get (fst numerator) (j + n - 2)) b0 b1 in
  let* q_hat_v := full_mul_u64 divisor q_hat in
  let* (numerator, cy) := sub_mul numerator q_hat_v n j in
  let* (numerator, q_hat) :=
    (if (cy : bool) then
       let* q_hat := usub W q_hat 1 in
       let* numerator := fix_add_back numerator divisor n j in
       Ok (numerator, q_hat)
     else Ok (numerator, q_hat)) in
  let* q := set q j q_hat in
  Ok (numerator, q).

(** div.rs 302-425 (MDiv.v [div_rem_knuth]), with [fix_knuth_step] *)
Definition fix_div_rem_knuth (numerator divisor : list Z) (n m : nat) : res (list Z * list Z) :=
  let* _ := assert_ (n + m <=? length numerator)%nat in
  let* top := get divisor (n - 1) in
  let shift := p_leading_zeros W top in
  let nlimbs := length divisor in
  let* divisor := shl_word divisor shift in
  let* num := full_shl numerator shift in
  let* b0 := get divisor (n - 1) in
  let* b1 := get divisor (n - 2) in
  let* (num, q) := for_range 0 (m + 1)
    (fun k s => fix_knuth_step divisor n b0 b1 (m - k) s) (num, repeat 0 (length numerator)) in
  let* r := full_shr num shift in
  let* rem := truncate nlimbs r in
  Ok (q, rem).

(** div.rs 162-173 (MDiv.v [full_gt]), with [fix_div_rem_knuth] *)
Definition fix_full_gt (numerator divisor : list Z) : res (list Z * list Z) :=
  let* n := last_index divisor in
  if (n =? 0)%nat then
    let* d := get divisor 0 in limb_padded numerator (length divisor) d
  else
    let* l := last_index numerator in
    let* _ := assert_ (n <=? l)%nat in
    fix_div_rem_knuth numerator divisor (n + 1) (l - n).

(** div.rs 45-64 (MDiv.v [div_full]), with [fix_full_gt].  Changed: a zero
    divisor is refused first, so that [0 / 0] no longer takes the branch for
    equal arguments. *)
Definition fix_div_full (numerator divisor : list Z) : res (list Z * list Z) :=
  let m := length numerator in
  let n := length divisor in
  let* dz := is_zero divisor 0 in
  let* _ := assert_ (negb dz) in
  if (n =? 1)%nat then
    let* d := get divisor 0 in limb_padded numerator n d
  else
    let* o := div_cmp numerator divisor in
    match o with
    | Lt => let* r := truncate n numerator in Ok (repeat 0 m, r)
    | Eq => let* q := scalar1 m 1 in let* r := scalar1 n 0 in Ok (q, r)
    | Gt =>
        let* z := is_zero numerator 0 in
        if z then let* q := scalar1 m 0 in let* r := scalar1 n 0 in Ok (q, r)
        else fix_full_gt numerator divisor
    end.

(** div.rs 74-98 (MDiv.v [div_wide]), with [fix_full_gt].  Changed: the test
    for a zero numerator is dropped, so that [0 / 0] reaches the division. *)
Definition fix_div_wide (numerator : list Z) (divisor : Z) : res (list Z * Z) :=
  let m := length numerator in
  let* z := (if (2 <=? m)%nat then is_zero numerator 2 else Ok false) in
  if z then
    let* n0 := get numerator 0 in
    let* n1 := get numerator 1 in
    let* x := join_limbs n0 n1 in
    let* quo := udiv x divisor in
    let* rem := urem x divisor in
    let* q := scalar2 m quo in
    Ok (q, rem)
  else
    let* y := scalar2 2 divisor in
    let* o := div_cmp numerator y in
    let fin (s : list Z * list Z) : res (list Z * Z) :=
      let '(quo, rem) := s in
      let* r0 := get rem 0 in
      let* r1 := get rem 1 in
      let* r := join_limbs r0 r1 in
      Ok (quo, r) in
    match o with
    | Lt => let* r := truncate 2 numerator in fin (repeat 0 m, r)
    | Eq => let* q := scalar1 m 1 in Ok (q, 0)
    | Gt => let* s := fix_full_gt numerator y in fin s
    end.

(** div.rs 105-129 (MDiv.v [div_from_u128]), with the same two changes *)
Definition fix_div_from_u128 (numerator : list Z) (divisor : Z) : res (list Z * Z) :=
  let m := length numerator in
  let* _ := assert_ (W =? 32) in
  let* z := (if (2 <=? m)%nat then is_zero numerator 2 else Ok false) in
  if z then
    let* x := u128_scalar numerator in
    let* quo := udiv x divisor in
    let* rem := urem x divisor in
    let* q := scalar_u128 m quo in
    Ok (q, rem)
  else
    let* y := scalar_u128 m divisor in
    let* o := div_cmp numerator y in
    let fin (s : list Z * list Z) : res (list Z * Z) :=
      let '(quo, rem) := s in
      let* r := u128_scalar rem in
      Ok (quo, r) in
    match o with
    | Lt => let* r := truncate m numerator in fin (repeat 0 m, r)
    | Eq => let* q := scalar1 m 1 in Ok (q, 0)
    | Gt => let* s := fix_full_gt numerator y in fin s
    end.

(** ** The flag of the signed product *)

(** mul.rs 433-471 (MMul.v [smul_overflowing_full]).  Changed: [is_min] (line
    467) is read off the negated product, not off the top limb alone: a
    magnitude with its top bit set was in range when its negation has the top
    bit set too, which holds for [MIN] and for no other. *)
Definition fix_smul_overflowing_full (x y : list Z) : res (list Z * bool) :=
  let m := length x in
  let* x_is_negative := limbs_negative x in
  let* y_is_negative := limbs_negative y in
  let should_be_negative := xorb x_is_negative y_is_negative in
  let* x := if x_is_negative then negate x else Ok x in
  let* y := if y_is_negative then negate y else Ok y in
  let* (r, overflowed) := mul_overflowing_full x y in
  let* top := get r (m - 1) in
  let msl := scast W top in
  let r_is_negative := msl <? 0 in
  if negb should_be_negative then
    Ok (r, overflowed || r_is_negative)
  else
    let* r := negate r in
    let* top := get r (m - 1) in
    let is_min := r_is_negative && (scast W top <? 0) in
    Ok (r, overflowed || xorb r_is_negative is_min).

(** ** Division of the types *)

(** uint/wrapping.rs 228-238, int/wrapping.rs 74-99 [wrapping_div_rem]
    (MApi.v), over any array division [full] *)
Section WithFull.
Variable full : list Z -> list Z -> res (list Z * list Z).
Definition d_u_wrapping_div_rem (x n : list Z) : res (list Z * list Z) :=
  let* (div, rem) := full x n in
  let* div := mk div in
  let* rem := mk rem in
  Ok (div, rem).
Definition d_s_wrapping_div_rem (x n : list Z) : res (list Z * list Z) :=
  let* ux := unsigned_abs x in
  let* un := unsigned_abs n in
  let* (div, rem) := full ux un in
  let* div := mk div in
  let* div := as_signed div in
  let* rem := mk rem in
  let* rem := as_signed rem in
  let* sx := is_negative x in
  let* sn := is_negative n in
  let* div := (if negb (eqb sx sn) then s_wrapping_neg div else Ok div) in
  let* rem := (if sx then s_wrapping_neg rem else Ok rem) in
  Ok (div, rem).
Definition d_wrapping_div_rem (sg : bool) (x n : list Z) : res (list Z * list Z) :=
  if sg then d_s_wrapping_div_rem x n else d_u_wrapping_div_rem x n.
End WithFull.

(** The rest of MApi.v over any [wrapping_div_rem]; same order, same lines. *)
Section WithDivRem.
Variable dr : bool -> list Z -> list Z -> res (list Z * list Z).
Definition d_wrapping_div (sg : bool) (x n : list Z) : res (list Z) := let* (q, _) := dr sg x n in Ok q.
Definition d_wrapping_rem (sg : bool) (x n : list Z) : res (list Z) := let* (_, r) := dr sg x n in Ok r.
Definition d_s_wrapping_div_euclid (x n : list Z) : res (list Z) :=
  let* (q, r) := dr true x n in
  let* rn := is_negative r in
  if rn then
    let* np := is_positive n in
    if np then wrapping_sub_ulimb true q 1 else wrapping_add_ulimb true q 1
  else Ok q.
Definition d_s_wrapping_rem_euclid (x n : list Z) : res (list Z) :=
  let* r := d_wrapping_rem true x n in
  let* rn := is_negative r in
  if rn then let* a := s_wrapping_abs n in wrapping_add true r a else Ok r.
Definition d_wrapping_div_euclid (sg : bool) (x n : list Z) : res (list Z) :=
  if sg then d_s_wrapping_div_euclid x n else d_wrapping_div false x n.
Definition d_wrapping_rem_euclid (sg : bool) (x n : list Z) : res (list Z) :=
  if sg then d_s_wrapping_rem_euclid x n else d_wrapping_rem false x n.

Definition d_checked_div_rem (sg : bool) (x n : list Z) : res (option (list Z * list Z)) := checked_by sg x n (dr sg x n).
Definition d_checked_div (sg : bool) (x n : list Z) : res (option (list Z)) := checked_by sg x n (d_wrapping_div sg x n).
Definition d_checked_rem (sg : bool) (x n : list Z) : res (option (list Z)) := checked_by sg x n (d_wrapping_rem sg x n).
Definition d_checked_div_euclid (sg : bool) (x n : list Z) : res (option (list Z)) :=
  checked_by sg x n (d_wrapping_div_euclid sg x n).
Definition d_checked_rem_euclid (sg : bool) (x n : list Z) : res (option (list Z)) :=
  checked_by sg x n (d_wrapping_rem_euclid sg x n).
Definition d_overflowing_div_rem (sg : bool) (x n : list Z) : res (list Z * list Z * bool) :=
  let* o := is_div_overflow sg x n in
  if o then let* z := from_u8 0 in Ok (x, z, true)
  else let* qr := dr sg x n in Ok (qr, false).
Definition d_overflowing_div (sg : bool) (x n : list Z) : res (list Z * bool) :=
  let* o := is_div_overflow sg x n in
  if o then Ok (x, true) else let* q := d_wrapping_div sg x n in Ok (q, false).
Definition d_overflowing_div_euclid (sg : bool) (x n : list Z) : res (list Z * bool) :=
  let* o := is_div_overflow sg x n in
  if o then Ok (x, true) else let* q := d_wrapping_div_euclid sg x n in Ok (q, false).
Definition d_overflowing_rem (sg : bool) (x n : list Z) : res (list Z * bool) :=
  let* o := is_div_overflow sg x n in
  if o then
    let* z := from_u8 0 in
    let* m := s_min_value in
    let* b := eq_const x m in
    Ok (z, b)
  else let* r := d_wrapping_rem sg x n in Ok (r, false).
Definition d_overflowing_rem_euclid (sg : bool) (x n : list Z) : res (list Z * bool) :=
  let* o := is_div_overflow sg x n in
  if o then
    let* z := from_u8 0 in
    let* m := s_min_value in
    let* b := eq_const x m in
    Ok (z, b)
  else let* r := d_wrapping_rem_euclid sg x n in Ok (r, false).
Definition d_strict_div (sg : bool) (x n : list Z) : res (list Z) := unwrap (d_checked_div sg x n).
Definition d_strict_rem (sg : bool) (x n : list Z) : res (list Z) := unwrap (d_checked_rem sg x n).
Definition d_strict_div_euclid (sg : bool) (x n : list Z) : res (list Z) := unwrap (d_checked_div_euclid sg x n).
Definition d_strict_rem_euclid (sg : bool) (x n : list Z) : res (list Z) := unwrap (d_checked_rem_euclid sg x n).
Definition d_saturating_div (sg : bool) (x n : list Z) : res (list Z) :=
  if sg then
    let* (r, f) := d_overflowing_div true x n in
    if f then s_max_value else Ok r
  else d_wrapping_div false x n.

Definition d_div_rem (sg : bool) (x n : list Z) : res (list Z * list Z) :=
  if negb chk then dr sg x n else unwrap (d_checked_div_rem sg x n).
Definition d_op_div (sg : bool) (x n : list Z) : res (list Z) :=
  if negb chk then d_wrapping_div sg x n else unwrap (d_checked_div sg x n).
Definition d_op_rem (sg : bool) (x n : list Z) : res (list Z) :=
  if negb chk then d_wrapping_rem sg x n else unwrap (d_checked_rem sg x n).
Definition d_div_euclid (sg : bool) (x n : list Z) : res (list Z) :=
  if negb chk then d_wrapping_div_euclid sg x n else unwrap (d_checked_div_euclid sg x n).
Definition d_rem_euclid (sg : bool) (x n : list Z) : res (list Z) :=
  if negb chk then (if sg then d_wrapping_rem_euclid true x n else d_wrapping_rem false x n)
  else unwrap (d_checked_rem_euclid sg x n).
Definition d_u_div_floor (x n : list Z) : res (list Z) := d_wrapping_div false x n.
Definition d_u_div_ceil (x n : list Z) : res (list Z) :=
  let* (d, r) := dr false x n in
  let* z := from_u8 0 in
  let* e := eq_const r z in
  if negb e then wrapping_add_ulimb false d 1 else Ok d.
Definition d_s_div_floor (x n : list Z) : res (list Z) :=
  let* (d, r) := dr true x n in
  let* sx := is_negative x in
  let* sn := is_negative n in
  let correction := xorb sx sn in
  let* z := from_u8 0 in
  let* e := eq_const r z in
  if negb e then wrapping_sub_ulimb true d (b2z correction) else Ok d.
Definition d_s_div_ceil (x n : list Z) : res (list Z) :=
  let* (d, r) := dr true x n in
  let* one := from_u8 1 in
  let* xor := bitxor_const x n in
  let* s := usub 32 tbits 1 in
  let* mask := op_shr true false 32 xor s in
  let* correction := op_add true one mask in
  let* z := from_u8 0 in
  let* e := eq_const r z in
  if negb e then wrapping_add true d correction else Ok d.
Definition d_u_next_multiple_of (x n : list Z) : res (list Z) :=
  let* r := d_op_rem false x n in
  let* m := u_min_value in
  if derived_eq r m then Ok x
  else let* d := op_sub false n r in op_add false x d.
Definition d_u_checked_next_multiple_of (x n : list Z) : res (option (list Z)) :=
  let* o := d_checked_rem false x n in
  match o with
  | None => Ok None
  | Some r =>
      let* m := u_min_value in
      if derived_eq r m then Ok (Some x)
      else let* d := wrapping_sub false n r in checked_add false x d
  end.
Definition d_u_is_multiple_of (x n : list Z) : res bool :=
  let* m := u_min_value in
  if derived_eq n m then eq_const x m
  else let* r := d_wrapping_rem false x n in eq_const r m.
Definition d_s_next_multiple_of (x n : list Z) : res (list Z) :=
  let* o := from_i8 (-1) in
  let* b := eq_const n o in
  if b then Ok x
  else
    let* zero := from_u8 0 in
    let* r := d_op_rem true x n in
    let* rp := gt_const true r zero in
    let* nn := lt_const true n zero in
    let* rn := lt_const true r zero in
    let* np := gt_const true n zero in
    let* m := (if (rp && nn) || (rn && np) then op_add true r n else Ok r) in
    let* e := eq_const m zero in
    if e then Ok x
    else let* d := op_sub true n m in op_add true x d.
Definition d_s_checked_next_multiple_of (x n : list Z) : res (option (list Z)) :=
  let* o := from_i8 (-1) in
  let* b := eq_const n o in
  if b then Ok (Some x)
  else
    let* zero := from_u8 0 in
    let* o := d_checked_rem true x n in
    match o with
    | None => Ok None
    | Some r =>
        let* rp := is_positive r in
        let* nn := is_negative n in
        let* rn := is_negative r in
        let* np := is_positive n in
        let* m := (if (rp && nn) || (rn && np) then op_add true r n else Ok r) in
        let* e := eq_const m zero in
        if e then Ok (Some x)
        else let* d := op_sub true n m in checked_add true x d
    end.

(** uint/checked.rs 55-84 [checked_ilog].  Changed: a base of one is refused
    with the bases below it, and a value below the base answers zero. *)
Fixpoint d_ilog_loop (fuel : nat) (x base : list Z) (n : Z) (r : list Z) : res Z :=
  match fuel with
  | O => OutOfFuel
  | S fuel =>
      let* q := d_op_div false x base in
      let* b := le_const false r q in
      if b then
        let* n := uadd 32 n 1 in
        let* r := op_mul false r base in
        d_ilog_loop fuel x base n r
      else Ok n
  end.
Definition fix_u_checked_ilog_fuel (fuel : nat) (x base : list Z) : res (option Z) :=
  let* zero := from_u8 0 in
  let* one := from_u8 1 in
  let* bz := le_const false base one in
  if derived_eq x zero || bz then Ok None
  else
    let* xb := lt_const false x base in
    if xb then Ok (Some 0)
    else
      let* (n, r) :=
        (if 2 * W <=? tbits then
           let* lx := ilog2 false x in
           let* lb := ilog2 false base in
           let* d := uadd 32 lb 1 in
           let* n := udiv lx d in
           let* r := pow false base n in
           Ok (n, r)
         else Ok (1, base)) in
      let* n := d_ilog_loop fuel x base n r in
      Ok (Some n).
Definition fix_u_checked_ilog (x base : list Z) : res (option Z) :=
  fix_u_checked_ilog_fuel (S (Z.to_nat tbits)) x base.
(** int/checked.rs 86-91 [checked_ilog], over the corrected unsigned one *)
Definition fix_s_checked_ilog (x base : list Z) : res (option Z) :=
  let* zero := from_u8 0 in
  let* a := le_const true x zero in
  let* one := from_u8 1 in
  let* b := le_const true base one in
  if a || b then Ok None
  else
    let* ux := as_unsigned x in
    let* ub := as_unsigned base in
    let* r := unwrap (fix_u_checked_ilog ux ub) in
    Ok (Some r).
End WithDivRem.

(** The corrected division of the types. *)
Definition fix_wrapping_div_rem : bool -> list Z -> list Z -> res (list Z * list Z) := d_wrapping_div_rem fix_div_full.

(** ** Division by scalars *)

(** MScalar.v, division and remainder, over any [div_by]; same order, same
    lines *)
Section WithDivBy.
Variable by_ : droute -> list Z -> Z -> res (list Z * Z).
Definition d_u_div_rem (d : droute) (x : list Z) (n : Z) : res (list Z * Z) :=
  let* (q, r) := by_ d x n in
  let* q := mk q in
  Ok (q, r).
Definition d_s_div_rem_u (d : droute) (x : list Z) (n : Z) : res (list Z * Z) :=
  let* ux := unsigned_abs x in
  let* (q, rem) := by_ d ux n in
  let* q := mk q in
  let* neg := is_negative x in
  let* q := (if neg then s_wrapping_neg q else Ok q) in
  if neg && negb (rem =? 0) then
    let* one := from_u8 1 in
    let* q := op_sub true q one in
    let* rem := usub (dbits d) n rem in
    Ok (q, rem)
  else Ok (q, rem).
Definition d_s_div_rem_i (d : droute) (x : list Z) (n : Z) : res (list Z * Z) :=
  let* ux := unsigned_abs x in
  let* (q, rem) := by_ d ux (Z.abs n) in
  let* q := mk q in
  let rem := scast (dbits d) rem in
  let* neg := is_negative x in
  let* q := (if negb (eqb neg (n <? 0)) then s_wrapping_neg q else Ok q) in
  Ok (q, if neg then scast (dbits d) (- rem) else rem).
Definition d_wrapping_div_rem_us (k : skind) (sg : bool) (x : list Z) (n : Z) : res (list Z * Z) :=
  let d := route k in
  let* (q, r) := (if sg then d_s_div_rem_u d x (ucast (dbits d) n) else d_u_div_rem d x (ucast (dbits d) n)) in
  Ok (q, ucast (kbits k) r).
Definition d_wrapping_div_rem_is (k : skind) (x : list Z) (n : Z) : res (list Z * Z) :=
  let d := route k in
  let* (q, r) := d_s_div_rem_i d x (scast (dbits d) n) in
  Ok (q, scast (kbits k) r).
Definition d_overflowing_div_rem_us (k : skind) (sg : bool) (x : list Z) (n : Z) : res (list Z * Z * bool) :=
  let* qr := d_wrapping_div_rem_us k sg x n in Ok (qr, false).
Definition d_overflowing_div_rem_is (k : skind) (x : list Z) (n : Z) : res (list Z * Z * bool) :=
  let* m := s_min_value in
  let* b := eq_const x m in
  if b && (n =? -1) then Ok ((m, 0), true)
  else let* qr := d_wrapping_div_rem_is k x n in Ok (qr, false).
Definition d_checked_div_rem_us (k : skind) (sg : bool) (x : list Z) (n : Z) : res (option (list Z * Z)) :=
  if n =? 0 then Ok None
  else let* qr := d_wrapping_div_rem_us k sg x n in Ok (Some qr).
Definition d_checked_div_rem_is (k : skind) (x : list Z) (n : Z) : res (option (list Z * Z)) :=
  if n =? 0 then Ok None else opt (d_overflowing_div_rem_is k x n).
Definition d_div_rem_us (k : skind) (sg : bool) (x : list Z) (n : Z) : res (list Z * Z) :=
  if negb chk then d_wrapping_div_rem_us k sg x n else unwrap (d_checked_div_rem_us k sg x n).
Definition d_div_rem_is (k : skind) (x : list Z) (n : Z) : res (list Z * Z) :=
  if negb chk then d_wrapping_div_rem_is k x n else unwrap (d_checked_div_rem_is k x n).
End WithDivBy.

(** MScalar.v [div_by] with the corrected routines *)
Definition fix_div_by (d : droute) (l : list Z) (n : Z) : res (list Z * Z) :=
  match d with DLimb => div_limb l n | DWide => fix_div_wide l n | D128 => fix_div_from_u128 l n end.

End M.
