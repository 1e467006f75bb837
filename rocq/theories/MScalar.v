(** * Model: operations with scalar operands

    [src/uint/limb.rs], [src/int/limb.rs], [src/shared/limb.rs] and the
    conversions of [src/util.rs] they use.

    The methods come in families [add_X], [sub_X], [mul_X], [div_rem_X] with
    [X] one of [ulimb, uwide, u32, u64, u128] on both types and
    [ilimb, iwide, i32, i64, i128] on the signed type.  The model has one
    function per family and indexes it by the operation ([sop]) and by the
    kind of the scalar ([skind]); each branch of the matches is one method.
    [sg] selects the type as in MArith.v.  A scalar is the integer it stands
    for; signed scalars are in the two's complement range of their type. *)

Require Import ZArith List Bool.
From Verif Require Import Prim Spec MAdd MMul MCore MArith MDiv.
Import ListNotations.
Local Open Scope Z_scope.

Inductive sop := SAdd | SSub | SMul.
Inductive skind := KLimb | KWide | K32 | K64 | K128.

Section M.
Context {c : Cfg}.

(** ** src/util.rs, the versions compiled for 32-bit limbs; the 64-bit ones
    (91-94, 113-116, 141-144) are [unimplemented!()]. *)

(** util.rs 101-107 [u128_to_limb]: bytes in native order, transmuted; in
    logical order these are the four base 2^32 digits (MLayout.v). *)
Definition u128_to_limb (v : Z) : res (list Z) :=
  let* _ := assert_ (W =? 32) in
  Ok [v mod 2 ^ 32; v / 2 ^ 32 mod 2 ^ 32; v / 2 ^ 64 mod 2 ^ 32; v / 2 ^ 96 mod 2 ^ 32].
(** util.rs 129-132 and 159-162: the four assignments, with their shift counts
    as written (96, 64, 32 for the indices 1, 2, 3). *)
Definition store_u128 (r : list Z) (v : Z) : res (list Z) :=
  let* r := set r 0 (ucast 32 v) in
  let* h := ushr 128 v 96 in
  let* r := set r 1 (ucast 32 h) in
  let* h := ushr 128 v 64 in
  let* r := set r 2 (ucast 32 h) in
  let* h := ushr 128 v 32 in
  set r 3 (ucast 32 h).
(** util.rs 124-135 [u128_to_limb_n] *)
Definition u128_to_limb_n (n : nat) (v : Z) : res (list Z) :=
  let* _ := assert_ (W =? 32) in
  let* _ := assert_ (4 <? n)%nat in
  store_u128 (repeat 0 n) v.
(** util.rs 152-165 [i128_to_limb_n] *)
Definition i128_to_limb_n (n : nat) (v : Z) : res (list Z) :=
  let* _ := assert_ (W =? 32) in
  let* _ := assert_ (4 <? n)%nat in
  let sign_bit := p_wrapping_sub 32 0 (b2z (v <? 0)) in
  store_u128 (repeat sign_bit n) (ucast 128 v).

(** ** Wrapping, unsigned scalars *)

(** uint/limb.rs 23-93, int/limb.rs 465-515 [wrapping_{add,sub,mul}_ulimb] *)
Definition wrapping_ulimb (o : sop) (sg : bool) (x : list Z) (n : Z) : res (list Z) :=
  match o with
  | SAdd => wrapping_add_ulimb sg x n
  | SSub => wrapping_sub_ulimb sg x n
  | SMul => let* l := (if sg then smul_wrapping_ulimb x n else mul_wrapping_limb x n) in mk l
  end.
(** uint/limb.rs 117-160, int/limb.rs 611-656 [wrapping_{add,sub,mul}_uwide] *)
Definition wrapping_uwide (o : sop) (sg : bool) (x : list Z) (n : Z) : res (list Z) :=
  let* l := match o with
            | SAdd => if sg then sadd_wrapping_uwide x n else add_wrapping_wide x n
            | SSub => if sg then ssub_wrapping_uwide x n else sub_wrapping_wide x n
            | SMul => if sg then smul_wrapping_uwide x n else mul_wrapping_wide x n
            end in mk l.
(** uint/limb.rs 189-213, int/limb.rs 746-790 [wrapping_{add,sub,mul}_u32] *)
Definition wrapping_u32 (o : sop) (sg : bool) (x : list Z) (n : Z) : res (list Z) :=
  wrapping_ulimb o sg x (ucast W n).
(** uint/limb.rs 238-265, int/limb.rs 860-909 [wrapping_{add,sub,mul}_u64];
    [wrapping_scalar_u64]/[wrapping_uscalar_i64] (math/add.rs 331, 764 and
    siblings) are the one-limb functions for 64-bit limbs and the two-limb ones
    for 32-bit limbs. *)
Definition wrapping_u64 (o : sop) (sg : bool) (x : list Z) (n : Z) : res (list Z) :=
  if W =? 64 then wrapping_ulimb o sg x n else wrapping_uwide o sg x n.
(** uint/limb.rs 297-351, int/limb.rs 994-1093 [wrapping_{add,sub,mul}_u128] *)
Definition wrapping_u128 (o : sop) (sg : bool) (x : list Z) (n : Z) : res (list Z) :=
  let* _ := assert_ ((2 * W =? 64) || (2 * W =? 128)) in
  if 2 * W =? 128 then wrapping_uwide o sg x (ucast (2 * W) n)
  else
    let* rhs := (if sg then u128_to_limb_n N n else u128_to_limb n) in
    let* l := match o with
              | SAdd => add_wrapping_mn x rhs
              | SSub => sub_wrapping_mn x rhs
              | SMul => if sg then smul_wrapping_full x rhs else mul_wrapping_full x rhs
              end in mk l.
Definition wrapping_us (o : sop) (k : skind) (sg : bool) (x : list Z) (n : Z) : res (list Z) :=
  match k with
  | KLimb => wrapping_ulimb o sg x n
  | KWide => wrapping_uwide o sg x n
  | K32 => wrapping_u32 o sg x n
  | K64 => wrapping_u64 o sg x n
  | K128 => wrapping_u128 o sg x n
  end.

(** ** Wrapping, signed scalars (signed type only) *)

(** int/limb.rs 475-528 [wrapping_{add,sub,mul}_ilimb] *)
Definition wrapping_ilimb (o : sop) (x : list Z) (n : Z) : res (list Z) :=
  let* l := match o with
            | SAdd => sadd_wrapping_ilimb x n
            | SSub => ssub_wrapping_ilimb x n
            | SMul => smul_wrapping_ilimb x n
            end in mk l.
(** int/limb.rs 621-666 [wrapping_{add,sub,mul}_iwide] *)
Definition wrapping_iwide (o : sop) (x : list Z) (n : Z) : res (list Z) :=
  let* l := match o with
            | SAdd => sadd_wrapping_iwide x n
            | SSub => ssub_wrapping_iwide x n
            | SMul => smul_wrapping_iwide x n
            end in mk l.
(** int/limb.rs 756-800 [wrapping_{add,sub,mul}_i32] *)
Definition wrapping_i32 (o : sop) (x : list Z) (n : Z) : res (list Z) := wrapping_ilimb o x (scast W n).
(** int/limb.rs 871-920 [wrapping_{add,sub,mul}_i64], through
    [wrapping_iscalar_i64] (math/add.rs 765 and siblings) *)
Definition wrapping_i64 (o : sop) (x : list Z) (n : Z) : res (list Z) :=
  if W =? 64 then wrapping_ilimb o x n else wrapping_iwide o x n.
(** int/limb.rs 1015-1114 [wrapping_{add,sub,mul}_i128] *)
Definition wrapping_i128 (o : sop) (x : list Z) (n : Z) : res (list Z) :=
  let* _ := assert_ ((2 * W =? 64) || (2 * W =? 128)) in
  if 2 * W =? 128 then wrapping_iwide o x (scast (2 * W) n)
  else
    let* rhs := i128_to_limb_n N n in
    let* l := match o with
              | SAdd => add_wrapping_mn x rhs
              | SSub => sub_wrapping_mn x rhs
              | SMul => smul_wrapping_full x rhs
              end in mk l.
Definition wrapping_is (o : sop) (k : skind) (x : list Z) (n : Z) : res (list Z) :=
  match k with
  | KLimb => wrapping_ilimb o x n
  | KWide => wrapping_iwide o x n
  | K32 => wrapping_i32 o x n
  | K64 => wrapping_i64 o x n
  | K128 => wrapping_i128 o x n
  end.

(** ** Overflowing *)

(** uint/limb.rs 389-435, int/limb.rs 1214-1263 [overflowing_{add,sub,mul}_ulimb] *)
Definition overflowing_ulimb (o : sop) (sg : bool) (x : list Z) (n : Z) : res (list Z * bool) :=
  match o with
  | SAdd => overflowing_add_ulimb sg x n
  | SSub => overflowing_sub_ulimb sg x n
  | SMul => mk_flag (if sg then smul_overflowing_ulimb x n else mul_overflowing_limb x n)
  end.
(** uint/limb.rs 446-492, int/limb.rs 1325-1374 *)
Definition overflowing_uwide (o : sop) (sg : bool) (x : list Z) (n : Z) : res (list Z * bool) :=
  mk_flag match o with
          | SAdd => if sg then sadd_overflowing_uwide x n else add_overflowing_wide x n
          | SSub => if sg then ssub_overflowing_uwide x n else sub_overflowing_wide x n
          | SMul => if sg then smul_overflowing_uwide x n else mul_overflowing_wide x n
          end.
(** uint/limb.rs 507-531, int/limb.rs 1441-1483 *)
Definition overflowing_u32 (o : sop) (sg : bool) (x : list Z) (n : Z) : res (list Z * bool) :=
  overflowing_ulimb o sg x (ucast W n).
(** uint/limb.rs 542-569, int/limb.rs 1538-1585 *)
Definition overflowing_u64 (o : sop) (sg : bool) (x : list Z) (n : Z) : res (list Z * bool) :=
  if W =? 64 then overflowing_ulimb o sg x n else overflowing_uwide o sg x n.
(** uint/limb.rs 580-635, int/limb.rs 1645-1742 *)
Definition overflowing_u128 (o : sop) (sg : bool) (x : list Z) (n : Z) : res (list Z * bool) :=
  let* _ := assert_ ((2 * W =? 64) || (2 * W =? 128)) in
  if 2 * W =? 128 then overflowing_uwide o sg x (ucast (2 * W) n)
  else
    let* rhs := (if sg then u128_to_limb_n N n else u128_to_limb n) in
    mk_flag match o with
            | SAdd => add_overflowing_mn x rhs
            | SSub => sub_overflowing_mn x rhs
            | SMul => if sg then smul_overflowing_full x rhs else mul_overflowing_full x rhs
            end.
Definition overflowing_us (o : sop) (k : skind) (sg : bool) (x : list Z) (n : Z) : res (list Z * bool) :=
  match k with
  | KLimb => overflowing_ulimb o sg x n
  | KWide => overflowing_uwide o sg x n
  | K32 => overflowing_u32 o sg x n
  | K64 => overflowing_u64 o sg x n
  | K128 => overflowing_u128 o sg x n
  end.
(** int/limb.rs 1225-1276 *)
Definition overflowing_ilimb (o : sop) (x : list Z) (n : Z) : res (list Z * bool) :=
  mk_flag match o with
          | SAdd => sadd_overflowing_ilimb x n
          | SSub => ssub_overflowing_ilimb x n
          | SMul => smul_overflowing_ilimb x n
          end.
(** int/limb.rs 1336-1387 *)
Definition overflowing_iwide (o : sop) (x : list Z) (n : Z) : res (list Z * bool) :=
  mk_flag match o with
          | SAdd => sadd_overflowing_iwide x n
          | SSub => ssub_overflowing_iwide x n
          | SMul => smul_overflowing_iwide x n
          end.
(** int/limb.rs 1451-1493 *)
Definition overflowing_i32 (o : sop) (x : list Z) (n : Z) : res (list Z * bool) :=
  overflowing_ilimb o x (scast W n).
(** int/limb.rs 1549-1596 *)
Definition overflowing_i64 (o : sop) (x : list Z) (n : Z) : res (list Z * bool) :=
  if W =? 64 then overflowing_ilimb o x n else overflowing_iwide o x n.
(** int/limb.rs 1666-1763 *)
Definition overflowing_i128 (o : sop) (x : list Z) (n : Z) : res (list Z * bool) :=
  let* _ := assert_ ((2 * W =? 64) || (2 * W =? 128)) in
  if 2 * W =? 128 then overflowing_iwide o x (scast (2 * W) n)
  else
    let* rhs := i128_to_limb_n N n in
    mk_flag match o with
            | SAdd => add_overflowing_mn x rhs
            | SSub => sub_overflowing_mn x rhs
            | SMul => smul_overflowing_full x rhs
            end.
Definition overflowing_is (o : sop) (k : skind) (x : list Z) (n : Z) : res (list Z * bool) :=
  match k with
  | KLimb => overflowing_ilimb o x n
  | KWide => overflowing_iwide o x n
  | K32 => overflowing_i32 o x n
  | K64 => overflowing_i64 o x n
  | K128 => overflowing_i128 o x n
  end.

(** ** Checked and plain *)

(** shared/limb.rs 794-1154 [checked_{add,sub,mul}_{ulimb,uwide,u32,u64,u128}] *)
Definition checked_us (o : sop) (k : skind) (sg : bool) (x : list Z) (n : Z) : res (option (list Z)) :=
  opt (overflowing_us o k sg x n).
(** int/limb.rs 1823-2180 [checked_{add,sub,mul}_{ilimb,iwide,i32,i64,i128}];
    the [i32] forms (1990-2012) call the [ilimb] ones on the converted scalar,
    which is the same composition. *)
Definition checked_is (o : sop) (k : skind) (x : list Z) (n : Z) : res (option (list Z)) :=
  opt (overflowing_is o k x n).
(** shared/limb.rs 12-425 [{add,sub,mul}_{ulimb,uwide,u32,u64,u128}] *)
Definition plain_us (o : sop) (k : skind) (sg : bool) (x : list Z) (n : Z) : res (list Z) :=
  if negb chk then wrapping_us o k sg x n else unwrap (checked_us o k sg x n).
(** int/limb.rs 14-414 [{add,sub,mul}_{ilimb,iwide,i32,i64,i128}] *)
Definition plain_is (o : sop) (k : skind) (x : list Z) (n : Z) : res (list Z) :=
  if negb chk then wrapping_is o k x n else unwrap (checked_is o k x n).

(** ** Division and remainder *)

(** The width of a kind's type. *)
Definition kbits (k : skind) : Z :=
  match k with KLimb => W | KWide => 2 * W | K32 => 32 | K64 => 64 | K128 => 128 end.

(** The division routine a kind ends in: [math::div::limb], [math::div::wide]
    or [math::div::from_u128]. *)
Inductive droute := DLimb | DWide | D128.
Definition route (k : skind) : droute :=
  match k with
  | KLimb | K32 => DLimb
  | KWide => DWide
  | K64 => if W =? 32 then DWide else DLimb
  | K128 => if 2 * W =? 128 then DWide else D128
  end.
Definition div_by (d : droute) (l : list Z) (n : Z) : res (list Z * Z) :=
  match d with DLimb => div_limb l n | DWide => div_wide l n | D128 => div_from_u128 l n end.
(** width of the scalar type of that routine *)
Definition dbits (d : droute) : Z := match d with DLimb => W | DWide => 2 * W | D128 => 128 end.

(** uint/limb.rs 103-107, 170-174 [wrapping_div_rem_{ulimb,uwide}], and the
    32-bit-limb half of 362-375 *)
Definition u_div_rem (d : droute) (x : list Z) (n : Z) : res (list Z * Z) :=
  let* (q, r) := div_by d x n in
  let* q := mk q in
  Ok (q, r).
(** int/limb.rs 539-555, 677-689 [wrapping_div_rem_{ulimb,uwide}], and the
    32-bit-limb half of 1126-1146.  [n - rem] is a scalar subtraction. *)
Definition s_div_rem_u (d : droute) (x : list Z) (n : Z) : res (list Z * Z) :=
  let* ux := unsigned_abs x in
  let* (q, rem) := div_by d ux n in
  let* q := mk q in
  let* neg := is_negative x in
  let* q := (if neg then s_wrapping_neg q else Ok q) in
  if neg && negb (rem =? 0) then
    let* one := from_u8 1 in
    let* q := op_sub true q one in
    let* rem := usub (dbits d) n rem in
    Ok (q, rem)
  else Ok (q, rem).
(** int/limb.rs 564-582, 698-712 [wrapping_div_rem_{ilimb,iwide}], and the
    32-bit-limb half of 1156-1178 *)
Definition s_div_rem_i (d : droute) (x : list Z) (n : Z) : res (list Z * Z) :=
  let* ux := unsigned_abs x in
  let* (q, rem) := div_by d ux (Z.abs n) in
  let* q := mk q in
  let rem := scast (dbits d) rem in
  let* neg := is_negative x in
  let* q := (if negb (eqb neg (n <? 0)) then s_wrapping_neg q else Ok q) in
  Ok (q, if neg then scast (dbits d) (- rem) else rem).

(** [n as ULimb]/[as UWide] before the call and [rem as u32]/… after it:
    uint/limb.rs 224-227, 276-286, 362-375; int/limb.rs 812-815, 932-942, 1126-1146 *)
Definition wrapping_div_rem_us (k : skind) (sg : bool) (x : list Z) (n : Z) : res (list Z * Z) :=
  let d := route k in
  let* (q, r) := (if sg then s_div_rem_u d x (ucast (dbits d) n) else u_div_rem d x (ucast (dbits d) n)) in
  Ok (q, ucast (kbits k) r).
(** int/limb.rs 564-582, 698-712, 825-828, 952-962, 1156-1178 *)
Definition wrapping_div_rem_is (k : skind) (x : list Z) (n : Z) : res (list Z * Z) :=
  let d := route k in
  let* (q, r) := s_div_rem_i d x (scast (dbits d) n) in
  Ok (q, scast (kbits k) r).

(** shared/limb.rs 481-590, int/limb.rs 590-602, 720-732, 837-850, 971-984,
    1187-1200 [wrapping_div_X], [wrapping_rem_X] are the components of
    [wrapping_div_rem_X]; likewise for the other forms. *)

(** shared/limb.rs 602-757 [overflowing_div_rem_X] *)
Definition overflowing_div_rem_us (k : skind) (sg : bool) (x : list Z) (n : Z) : res (list Z * Z * bool) :=
  let* qr := wrapping_div_rem_us k sg x n in Ok (qr, false).
(** int/limb.rs 1285-1291, 1396-1402, 1502-1505, 1605-1611, 1772-1786; the
    [i32] form and the 64-bit-limb [i128] form call the [ilimb]/[iwide] ones on
    the converted scalar, which is the same composition. *)
Definition overflowing_div_rem_is (k : skind) (x : list Z) (n : Z) : res (list Z * Z * bool) :=
  let* m := s_min_value in
  let* b := eq_const x m in
  if b && (n =? -1) then Ok ((m, 0), true)
  else let* qr := wrapping_div_rem_is k x n in Ok (qr, false).
(** shared/limb.rs 836-842, 913-919, 996-1002, 1079-1085, 1162-1168 *)
Definition checked_div_rem_us (k : skind) (sg : bool) (x : list Z) (n : Z) : res (option (list Z * Z)) :=
  if n =? 0 then Ok None
  else let* qr := wrapping_div_rem_us k sg x n in Ok (Some qr).
(** int/limb.rs 1866-1875, 1947-1956, 2021-2024, 2102-2111, 2189-2198 *)
Definition checked_div_rem_is (k : skind) (x : list Z) (n : Z) : res (option (list Z * Z)) :=
  if n =? 0 then Ok None else opt (overflowing_div_rem_is k x n).
(** shared/limb.rs 65-74, 154-163, 250-259, 345-354, 440-449 *)
Definition div_rem_us (k : skind) (sg : bool) (x : list Z) (n : Z) : res (list Z * Z) :=
  if negb chk then wrapping_div_rem_us k sg x n else unwrap (checked_div_rem_us k sg x n).
(** int/limb.rs 63-72, 148-157, 241-250, 332-341, 423-432 *)
Definition div_rem_is (k : skind) (x : list Z) (n : Z) : res (list Z * Z) :=
  if negb chk then wrapping_div_rem_is k x n else unwrap (checked_div_rem_is k x n).

End M.
