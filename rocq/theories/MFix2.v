(** * The code with its defects corrected: products, scalars, parsing

    Continues MFix.v, under the same rules: not the code of /repo, but its
    definitions with one place changed or with the changed function in place of
    the original.  The sections have a hole where the change goes; filling the
    hole with the published function gives the model of the code back
    ([C85_same_code]), so the citations are those of the definitions named in
    the comments. *)

Require Import ZArith List Bool.
From Verif Require Import Prim Spec MAdd MMul MCore MArith MDiv MScalar MApi MParse MFix.
Import ListNotations.
Local Open Scope Z_scope.

Section M.
Context {c : Cfg}.

Section WithMul.
(** mul.rs 433-471 [overflowing_full] for the signed type *)
Variable sm : list Z -> list Z -> res (list Z * bool).

(** ** Products and powers (MArith.v) *)

(** int/overflowing.rs 85-90 *)
Definition m_overflowing_mul (sg : bool) (x y : list Z) : res (list Z * bool) :=
  mk_flag (if sg then sm x y else mul_overflowing_full x y).
(** shared/checked.rs 46-63 *)
Definition m_checked_mul (sg : bool) (x y : list Z) : res (option (list Z)) :=
  if negb sg then
    let* l := checked_ilog2 sg x in
    let* r := checked_ilog2 sg y in
    match l, r with
    | Some l, Some r =>
        let* s := uadd 32 l r in
        let* t := usub 32 tbits 1 in
        if t <? s then Ok None else opt (m_overflowing_mul sg x y)
    | _, _ => let* z := from_u8 0 in Ok (Some z)
    end
  else opt (m_overflowing_mul sg x y).
(** shared/strict.rs 51-56, shared/ops.rs 53-131 *)
Definition m_strict_mul (sg : bool) (x y : list Z) : res (list Z) := unwrap (m_checked_mul sg x y).
Definition m_op_mul (sg : bool) (x y : list Z) : res (list Z) :=
  if negb chk then wrapping_mul sg x y else unwrap (m_checked_mul sg x y).
(** shared/overflowing.rs 19-46 *)
Fixpoint m_overflowing_pow_loop (sg : bool) (fuel : nat) (exp : Z) (base acc : list Z) (overflowed : bool)
    : res (list Z * bool) :=
  match fuel with
  | O => OutOfFuel
  | S fuel =>
      let next (acc : list Z) (overflowed : bool) :=
        let exp := exp / 2 in
        let* (base, f) := m_overflowing_mul sg base base in
        let* _ := dassert (negb (exp =? 0)) in
        m_overflowing_pow_loop sg fuel exp base acc (overflowed || f) in
      if Z.land exp 1 =? 1 then
        let* (r, f) := m_overflowing_mul sg acc base in
        if exp =? 1 then Ok (r, f || overflowed) else next r (overflowed || f)
      else next acc overflowed
  end.
Definition m_overflowing_pow (sg : bool) (x : list Z) (exp : Z) : res (list Z * bool) :=
  if exp =? 0 then let* one := from_u8 1 in Ok (one, false)
  else let* one := from_u8 1 in m_overflowing_pow_loop sg pow_fuel exp x one false.
(** shared/checked.rs 71-76, shared/strict.rs 67-72, shared/ops.rs 20-26 *)
Definition m_checked_pow (sg : bool) (x : list Z) (exp : Z) : res (option (list Z)) := opt (m_overflowing_pow sg x exp).
Definition m_strict_pow (sg : bool) (x : list Z) (exp : Z) : res (list Z) := unwrap (m_checked_pow sg x exp).
Definition m_pow (sg : bool) (x : list Z) (exp : Z) : res (list Z) :=
  if negb chk then wrapping_pow sg x exp else m_strict_pow sg x exp.
(** uint/saturating.rs 66-71, int/saturating.rs 103-114 *)
Definition m_saturating_mul (sg : bool) (x y : list Z) : res (list Z) :=
  if sg then
    or_else (m_checked_mul true x y)
      (let* nx := is_negative x in
       let* ny := is_negative y in
       if eqb nx ny then s_max_value else s_min_value)
  else or_else (m_checked_mul false x y) u_max_value.
(** uint/saturating.rs 92-97, int/saturating.rs 137-143 *)
Definition m_saturating_pow (sg : bool) (x : list Z) (exp : Z) : res (list Z) :=
  if sg then
    or_else (m_checked_pow true x exp)
      (let* z := from_u8 0 in
       let* l := lt_const true x z in
       if l && (exp mod 2 =? 1) then s_min_value else s_max_value)
  else or_else (m_checked_pow false x exp) u_max_value.
(** num_traits_impls.rs 157-164 *)
Definition m_nt_mul_add (sg : bool) (x a b : list Z) : res (list Z) :=
  let* m := m_op_mul sg x a in op_add sg m b.

(** ** Products with a scalar (MScalar.v, MMul.v) *)

(** mul.rs 498-556 *)
Definition m_smul_overflowing_ulimb (x : list Z) (y : Z) : res (list Z * bool) :=
  let* rhs := set (repeat 0 (length x)) 0 y in sm x rhs.
Definition m_smul_overflowing_uwide (x : list Z) (y : Z) : res (list Z * bool) :=
  let* rhs := uwide_limbs (length x) y in sm x rhs.
Definition m_smul_overflowing_ilimb (x : list Z) (y : Z) : res (list Z * bool) :=
  let* rhs := ilimb_limbs (length x) y in sm x rhs.
Definition m_smul_overflowing_iwide (x : list Z) (y : Z) : res (list Z * bool) :=
  let* rhs := iwide_limbs (length x) y in sm x rhs.
(** uint/limb.rs 389-435, int/limb.rs 1214-1263 *)
Definition m_overflowing_ulimb (o : sop) (sg : bool) (x : list Z) (n : Z) : res (list Z * bool) :=
  match o with
  | SAdd => overflowing_add_ulimb sg x n
  | SSub => overflowing_sub_ulimb sg x n
  | SMul => mk_flag (if sg then m_smul_overflowing_ulimb x n else mul_overflowing_limb x n)
  end.
(** uint/limb.rs 446-492, int/limb.rs 1325-1374 *)
Definition m_overflowing_uwide (o : sop) (sg : bool) (x : list Z) (n : Z) : res (list Z * bool) :=
  mk_flag match o with
          | SAdd => if sg then sadd_overflowing_uwide x n else add_overflowing_wide x n
          | SSub => if sg then ssub_overflowing_uwide x n else sub_overflowing_wide x n
          | SMul => if sg then m_smul_overflowing_uwide x n else mul_overflowing_wide x n
          end.
(** int/limb.rs 1225-1276, 1336-1387 *)
Definition m_overflowing_ilimb (o : sop) (x : list Z) (n : Z) : res (list Z * bool) :=
  mk_flag match o with
          | SAdd => sadd_overflowing_ilimb x n
          | SSub => ssub_overflowing_ilimb x n
          | SMul => m_smul_overflowing_ilimb x n
          end.
Definition m_overflowing_iwide (o : sop) (x : list Z) (n : Z) : res (list Z * bool) :=
  mk_flag match o with
          | SAdd => sadd_overflowing_iwide x n
          | SSub => ssub_overflowing_iwide x n
          | SMul => m_smul_overflowing_iwide x n
          end.

Section With128.
(** util.rs 124-135, 152-165 [u128_to_limb_n], [i128_to_limb_n], and the sum,
    difference or product int/limb.rs 994-1114, 1645-1763 form with the array
    these return, on 32-bit limbs *)
Variables u128n i128n : nat -> Z -> res (list Z).
Variable w128 : sop -> list Z -> list Z -> res (list Z).
Variable o128 : sop -> list Z -> list Z -> res (list Z * bool).

Definition m_wrapping_u128 (o : sop) (sg : bool) (x : list Z) (n : Z) : res (list Z) :=
  let* _ := assert_ ((2 * W =? 64) || (2 * W =? 128)) in
  if 2 * W =? 128 then wrapping_uwide o sg x (ucast (2 * W) n)
  else
    let* rhs := (if sg then u128n N n else u128_to_limb n) in
    let* l := (if sg then w128 o x rhs else
               match o with
               | SAdd => add_wrapping_mn x rhs
               | SSub => sub_wrapping_mn x rhs
               | SMul => mul_wrapping_full x rhs
               end) in mk l.
Definition m_wrapping_i128 (o : sop) (x : list Z) (n : Z) : res (list Z) :=
  let* _ := assert_ ((2 * W =? 64) || (2 * W =? 128)) in
  if 2 * W =? 128 then wrapping_iwide o x (scast (2 * W) n)
  else
    let* rhs := i128n N n in
    let* l := w128 o x rhs in mk l.
Definition m_overflowing_u128 (o : sop) (sg : bool) (x : list Z) (n : Z) : res (list Z * bool) :=
  let* _ := assert_ ((2 * W =? 64) || (2 * W =? 128)) in
  if 2 * W =? 128 then m_overflowing_uwide o sg x (ucast (2 * W) n)
  else
    let* rhs := (if sg then u128n N n else u128_to_limb n) in
    mk_flag (if sg then o128 o x rhs else
             match o with
             | SAdd => add_overflowing_mn x rhs
             | SSub => sub_overflowing_mn x rhs
             | SMul => mul_overflowing_full x rhs
             end).
Definition m_overflowing_i128 (o : sop) (x : list Z) (n : Z) : res (list Z * bool) :=
  let* _ := assert_ ((2 * W =? 64) || (2 * W =? 128)) in
  if 2 * W =? 128 then m_overflowing_iwide o x (scast (2 * W) n)
  else
    let* rhs := i128n N n in
    mk_flag (o128 o x rhs).

(** The families, by kind of scalar. *)
Definition m_wrapping_us (o : sop) (k : skind) (sg : bool) (x : list Z) (n : Z) : res (list Z) :=
  match k with
  | KLimb => wrapping_ulimb o sg x n
  | KWide => wrapping_uwide o sg x n
  | K32 => wrapping_u32 o sg x n
  | K64 => wrapping_u64 o sg x n
  | K128 => m_wrapping_u128 o sg x n
  end.
Definition m_wrapping_is (o : sop) (k : skind) (x : list Z) (n : Z) : res (list Z) :=
  match k with
  | KLimb => wrapping_ilimb o x n
  | KWide => wrapping_iwide o x n
  | K32 => wrapping_i32 o x n
  | K64 => wrapping_i64 o x n
  | K128 => m_wrapping_i128 o x n
  end.
(** uint/limb.rs 507-569, int/limb.rs 1441-1483, 1538-1585 in the middle lines *)
Definition m_overflowing_us (o : sop) (k : skind) (sg : bool) (x : list Z) (n : Z) : res (list Z * bool) :=
  match k with
  | KLimb => m_overflowing_ulimb o sg x n
  | KWide => m_overflowing_uwide o sg x n
  | K32 => m_overflowing_ulimb o sg x (ucast W n)
  | K64 => if W =? 64 then m_overflowing_ulimb o sg x n else m_overflowing_uwide o sg x n
  | K128 => m_overflowing_u128 o sg x n
  end.
(** int/limb.rs 1451-1493, 1549-1596 in the middle lines *)
Definition m_overflowing_is (o : sop) (k : skind) (x : list Z) (n : Z) : res (list Z * bool) :=
  match k with
  | KLimb => m_overflowing_ilimb o x n
  | KWide => m_overflowing_iwide o x n
  | K32 => m_overflowing_ilimb o x (scast W n)
  | K64 => if W =? 64 then m_overflowing_ilimb o x n else m_overflowing_iwide o x n
  | K128 => m_overflowing_i128 o x n
  end.
(** shared/limb.rs 12-425, 794-1154, int/limb.rs 14-414, 1823-2180 *)
Definition m_checked_us (o : sop) (k : skind) (sg : bool) (x : list Z) (n : Z) : res (option (list Z)) :=
  opt (m_overflowing_us o k sg x n).
Definition m_checked_is (o : sop) (k : skind) (x : list Z) (n : Z) : res (option (list Z)) :=
  opt (m_overflowing_is o k x n).
Definition m_plain_us (o : sop) (k : skind) (sg : bool) (x : list Z) (n : Z) : res (list Z) :=
  if negb chk then m_wrapping_us o k sg x n else unwrap (m_checked_us o k sg x n).
Definition m_plain_is (o : sop) (k : skind) (x : list Z) (n : Z) : res (list Z) :=
  if negb chk then m_wrapping_is o k x n else unwrap (m_checked_is o k x n).
End With128.

(** ** Parsing (MParse.v) *)

(** parse.rs 67-95 [checked_loop!] *)
Fixpoint m_checked_loop (sg neg : bool) (radix : Z) (digits : list Z) (r : list Z) : res parsed :=
  match digits with
  | [] => Ok (POk r)
  | ch :: t =>
      let* d := char_to_digit ch radix in
      match d with
      | None => Ok (PErr EInvalidDigit)
      | Some digit =>
          let* v := opt (m_overflowing_ulimb SMul sg r (ucast W radix)) in
          match v with
          | None => Ok (PErr (if neg then ENegOverflow else EPosOverflow))
          | Some v =>
              let* s := opt (m_overflowing_ulimb (if neg then SSub else SAdd) sg v (ucast W digit)) in
              match s with
              | None => Ok (PErr (if neg then ENegOverflow else EPosOverflow))
              | Some r => m_checked_loop sg neg radix t r
              end
          end
      end
  end.
(** parse.rs 143-157 *)
Definition m_parse_digits (sg neg : bool) (radix : Z) (digits : list Z) : res parsed :=
  let* zero := from_u8 0 in
  if Z.of_nat (length digits) <=? overflow_digits radix sg
  then unchecked_loop sg neg radix digits zero
  else m_checked_loop sg neg radix digits zero.
(** parse.rs 117-158 [from_str_radix]; [lone] is the result for a sign that
    nothing follows, where the code reads on (and returns zero). *)
Definition m_from_str_radix (lone : bool -> res parsed -> res parsed) (sg : bool) (src : list Z) (radix : Z) : res parsed :=
  if (radix <? 2) || (36 <? radix) then Panic
  else match src with
       | [] => Ok (PErr EEmpty)
       | b :: t =>
           let none := match t with [] => true | _ => false end in
           if b =? 43 then lone none (m_parse_digits sg false radix t)
           else if b =? 45 then
             if sg then lone none (m_parse_digits sg true radix t) else Ok (PErr ENegOverflow)
           else m_parse_digits sg false radix src
       end.
(** uint/traits.rs 129-151, int/traits.rs 30-52 [from_str] *)
Definition m_from_str (lone : bool -> res parsed -> res parsed) (small_ptr sg : bool) (src : list Z) : res parsed :=
  let len := Z.of_nat (length src) in
  if small_ptr && (len <? (if sg then 19 else 20)) then
    if sg then via_std from_i64 (std_from_str true 64 src) else via_std from_u64 (std_from_str false 64 src)
  else if len <? 39 then
    if sg then via_std from_i128 (std_from_str true 128 src) else via_std from_u128 (std_from_str false 128 src)
  else m_from_str_radix lone sg src 10.
End WithMul.

(** ** What the code puts in the holes *)

(** int/limb.rs 994-1114 on 32-bit limbs (MScalar.v) *)
Definition code_w128 (o : sop) (x rhs : list Z) : res (list Z) :=
  match o with SAdd => add_wrapping_mn x rhs | SSub => sub_wrapping_mn x rhs | SMul => smul_wrapping_full x rhs end.
(** int/limb.rs 1645-1763 on 32-bit limbs (MScalar.v) *)
Definition code_o128 (o : sop) (x rhs : list Z) : res (list Z * bool) :=
  match o with SAdd => add_overflowing_mn x rhs | SSub => sub_overflowing_mn x rhs | SMul => smul_overflowing_full x rhs end.
(** parse.rs 131-141: nothing special is done *)
Definition code_lone (none : bool) (rest : res parsed) : res parsed := rest.

(** ** The corrections *)

(** util.rs 129-132, 159-162.  Changed: the shift counts are 32, 64 and 96. *)
Definition fix_store_u128 (r : list Z) (v : Z) : res (list Z) :=
  let* r := set r 0 (ucast 32 v) in
  let* h := ushr 128 v 32 in
  let* r := set r 1 (ucast 32 h) in
  let* h := ushr 128 v 64 in
  let* r := set r 2 (ucast 32 h) in
  let* h := ushr 128 v 96 in
  set r 3 (ucast 32 h).
(** util.rs 124-135 *)
Definition fix_u128_to_limb_n (n : nat) (v : Z) : res (list Z) :=
  let* _ := assert_ (W =? 32) in
  let* _ := assert_ (4 <? n)%nat in
  fix_store_u128 (repeat 0 n) v.
(** util.rs 152-165 *)
Definition fix_i128_to_limb_n (n : nat) (v : Z) : res (list Z) :=
  let* _ := assert_ (W =? 32) in
  let* _ := assert_ (4 <? n)%nat in
  let sign_bit := p_wrapping_sub 32 0 (b2z (v <? 0)) in
  fix_store_u128 (repeat sign_bit n) (ucast 128 v).
(** int/limb.rs 994-1114.  Changed: the array has as many limbs as the value, so
    the signed routines for equal lengths are called, not the unsigned ones for
    a shorter right operand. *)
Definition fix_w128 (o : sop) (x rhs : list Z) : res (list Z) :=
  match o with SAdd => sadd_wrapping_full x rhs | SSub => ssub_wrapping_full x rhs | SMul => smul_wrapping_full x rhs end.
(** int/limb.rs 1645-1763, likewise *)
Definition fix_o128 (o : sop) (x rhs : list Z) : res (list Z * bool) :=
  match o with SAdd => sadd_overflowing_full x rhs | SSub => ssub_overflowing_full x rhs | SMul => fix_smul_overflowing_full x rhs end.
(** parse.rs 131-141.  Changed: a sign alone is an invalid digit, as for the
    standard integers. *)
Definition fix_lone (none : bool) (rest : res parsed) : res parsed :=
  if none then Ok (PErr EInvalidDigit) else rest.

End M.
