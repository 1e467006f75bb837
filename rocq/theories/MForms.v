(** * Model: the remaining forms of modelled operations

    Quotient-only and remainder-only scalar divisions (shared/limb.rs,
    int/limb.rs), the by-reference and assigning operator impls
    (shared/traits.rs, shared/ops.rs, shared/bitops.rs, shared/shift.rs,
    int/traits.rs), [Default], [Debug], [From] the primitives, the num-traits
    impls that call the inherent method of the same name
    (shared/num_traits_impls.rs, uint/traits.rs, int/traits.rs), and the error
    types (error.rs).

    A reference is modelled by the value it points to, and [&mut self] by the
    value left in [self]: a panic leaves no value. *)

Require Import ZArith List Bool String.
From Verif Require Import Prim MCore MArith MApi MScalar MTraits MParse MWrite MLayout.
Import ListNotations.
Local Open Scope Z_scope.

(** error.rs 25-43 [IntErrorKind]; MParse.v uses the four kinds that the
    parsing code constructs. *)
Inductive int_error_kind := KEmpty | KInvalidDigit | KPosOverflow | KNegOverflow | KZero | KUnknown.
(** core::num::IntErrorKind is non-exhaustive: five known kinds, and others. *)
Inductive std_error_kind := StdEmpty | StdInvalidDigit | StdPosOverflow | StdNegOverflow | StdZero | StdOther.
(** error.rs 82-97 [From<num::ParseIntError>] *)
Definition error_from_std (k : std_error_kind) : int_error_kind :=
  match k with
  | StdEmpty => KEmpty
  | StdInvalidDigit => KInvalidDigit
  | StdPosOverflow => KPosOverflow
  | StdNegOverflow => KNegOverflow
  | StdZero => KZero
  | StdOther => KUnknown
  end.
(** error.rs 68-80 [Display for ParseIntError]; 62-66 [Debug] calls it *)
Definition error_text (k : int_error_kind) : string :=
  match k with
  | KEmpty => "cannot parse integer from empty string"
  | KInvalidDigit => "invalid digit found in string"
  | KPosOverflow => "number too large to fit in target type"
  | KNegOverflow => "number too small to fit in target type"
  | KZero => "number would be zero for non-zero type"
  | KUnknown => "unknown, internal error"
  end.
(** error.rs 45-60 [kind], [new] *)
Definition error_kind (e : perr) : int_error_kind :=
  match e with
  | EEmpty => KEmpty
  | EInvalidDigit => KInvalidDigit
  | EPosOverflow => KPosOverflow
  | ENegOverflow => KNegOverflow
  end.

(** How an operator is invoked: [a + b], [a + &b], [a += b], [a += &b]. *)
Inductive form := ByValue | ByRef | Assign | AssignRef.
(** The binary operators with all four forms. *)
Inductive binop := OAdd | OSub | OMul | ODiv | ORem | OAnd | OOr | OXor.

Section M.
Context {c : Cfg}.

(** ** Quotient and remainder by a scalar *)

(** [.0] and [.1] of a pair *)
Definition quo_of {A} (m : res (A * Z)) : res A := let* (q, r) := m in Ok q.
Definition rem_of {A} (m : res (A * Z)) : res Z := let* (q, r) := m in Ok r.
(** [let (value, overflowed) = …; (value.0, overflowed)] and [.1] *)
Definition quo_flag {A} (m : res (A * Z * bool)) : res (A * bool) := let* (qr, f) := m in Ok (fst qr, f).
Definition rem_flag {A} (m : res (A * Z * bool)) : res (Z * bool) := let* (qr, f) := m in Ok (snd qr, f).
(** [Some(…checked_div_rem…(n)?.0)] and [.1] *)
Definition quo_opt {A} (m : res (option (A * Z))) : res (option A) :=
  let* o := m in Ok (match o with Some qr => Some (fst qr) | None => None end).
Definition rem_opt {A} (m : res (option (A * Z))) : res (option Z) :=
  let* o := m in Ok (match o with Some qr => Some (snd qr) | None => None end).

(** shared/limb.rs 81-92, 170-181, 267-279, 362-374, 457-469 *)
Definition div_us (k : skind) (sg : bool) (x : list Z) (n : Z) := quo_of (div_rem_us k sg x n).
Definition rem_us (k : skind) (sg : bool) (x : list Z) (n : Z) := rem_of (div_rem_us k sg x n).
(** shared/limb.rs 481-590 *)
Definition wrapping_div_us (k : skind) (sg : bool) (x : list Z) (n : Z) := quo_of (wrapping_div_rem_us k sg x n).
Definition wrapping_rem_us (k : skind) (sg : bool) (x : list Z) (n : Z) := rem_of (wrapping_div_rem_us k sg x n).
(** shared/limb.rs 613-783 *)
Definition overflowing_div_us (k : skind) (sg : bool) (x : list Z) (n : Z) := quo_flag (overflowing_div_rem_us k sg x n).
Definition overflowing_rem_us (k : skind) (sg : bool) (x : list Z) (n : Z) := rem_flag (overflowing_div_rem_us k sg x n).
(** shared/limb.rs 850-862, 927-939, 1011-1024, 1094-1107, 1177-1190 *)
Definition checked_div_us (k : skind) (sg : bool) (x : list Z) (n : Z) := quo_opt (checked_div_rem_us k sg x n).
Definition checked_rem_us (k : skind) (sg : bool) (x : list Z) (n : Z) := rem_opt (checked_div_rem_us k sg x n).
(** int/limb.rs 79-90, 164-175, 258-270, 349-361, 440-452 *)
Definition div_is (k : skind) (x : list Z) (n : Z) := quo_of (div_rem_is k x n).
Definition rem_is (k : skind) (x : list Z) (n : Z) := rem_of (div_rem_is k x n).
(** int/limb.rs 590-602, 720-732, 837-850, 971-984, 1187-1200 *)
Definition wrapping_div_is (k : skind) (x : list Z) (n : Z) := quo_of (wrapping_div_rem_is k x n).
Definition wrapping_rem_is (k : skind) (x : list Z) (n : Z) := rem_of (wrapping_div_rem_is k x n).
(** int/limb.rs 1300-1315, 1411-1426, 1514-1528, 1620-1635, 1795-1810; the
    [i32] pair calls the [ilimb] pair and converts the remainder back *)
Definition overflowing_div_is (k : skind) (x : list Z) (n : Z) : res (list Z * bool) :=
  match k with
  | K32 => quo_flag (overflowing_div_rem_is KLimb x (scast W n))
  | _ => quo_flag (overflowing_div_rem_is k x n)
  end.
Definition overflowing_rem_is (k : skind) (x : list Z) (n : Z) : res (Z * bool) :=
  match k with
  | K32 => let* (r, f) := rem_flag (overflowing_div_rem_is KLimb x (scast W n)) in Ok (scast 32 r, f)
  | _ => rem_flag (overflowing_div_rem_is k x n)
  end.
(** int/limb.rs 1883-1895, 1964-1976, 2033-2046, 2120-2133, 2207-2220 *)
Definition checked_div_is (k : skind) (x : list Z) (n : Z) := quo_opt (checked_div_rem_is k x n).
Definition checked_rem_is (k : skind) (x : list Z) (n : Z) := rem_opt (checked_div_rem_is k x n).

(** ** Operator forms *)

(** The [impl] for values: shared/ops.rs 53-131, shared/bitops.rs 241-265 *)
Definition binary_value (o : binop) (sg : bool) (x y : list Z) : res (list Z) :=
  match o with
  | OAdd => op_add sg x y
  | OSub => op_sub sg x y
  | OMul => op_mul sg x y
  | ODiv => op_div sg x y
  | ORem => op_rem sg x y
  | OAnd => bitand_const x y
  | OOr => bitor_const x y
  | OXor => bitxor_const x y
  end.
(** shared/traits.rs 25-55, instantiated at shared/ops.rs 133-139 and
    shared/bitops.rs 267-271.  The result of the assigning forms is what [self]
    holds afterwards. *)
Definition binary (f : form) (o : binop) (sg : bool) (x y : list Z) : res (list Z) :=
  match f with
  | ByValue => binary_value o sg x y
  | ByRef => binary_value o sg x y
  | Assign => let* r := binary_value o sg x y in Ok r
  | AssignRef => let* r := binary_value o sg x y in Ok r
  end.
(** A run of assignments [self o1= y1; self o2= y2; …]. *)
Fixpoint assign_all (sg : bool) (x : list Z) (steps : list (binop * list Z)) : res (list Z) :=
  match steps with
  | [] => Ok x
  | (o, y) :: rest => let* x := binary Assign o sg x y in assign_all sg x rest
  end.
(** shared/shift.rs 68-126: the four forms by a primitive ([ps], [b]); the
    by-reference assigning form goes through the by-reference operator *)
Definition shl_form (f : form) (ps : bool) (b : Z) (x : list Z) (n : Z) : res (list Z) :=
  match f with
  | ByValue | ByRef => op_shl ps b x n
  | Assign | AssignRef => let* r := op_shl ps b x n in Ok r
  end.
Definition shr_form (f : form) (sg ps : bool) (b : Z) (x : list Z) (n : Z) : res (list Z) :=
  match f with
  | ByValue | ByRef => op_shr sg ps b x n
  | Assign | AssignRef => let* r := op_shr sg ps b x n in Ok r
  end.
(** shared/shift.rs 68-126 again, instantiated for the big integer of the other
    signedness (int/traits.rs 10, uint/traits.rs 10): [ps] is the signedness of
    the amount *)
Definition shl_big_form (f : form) (ps : bool) (x y : list Z) : res (list Z) :=
  match f with
  | ByValue | ByRef => op_shl_big ps x y
  | Assign | AssignRef => let* r := op_shl_big ps x y in Ok r
  end.
Definition shr_big_form (f : form) (sg ps : bool) (x y : list Z) : res (list Z) :=
  match f with
  | ByValue | ByRef => op_shr_big sg ps x y
  | Assign | AssignRef => let* r := op_shr_big sg ps x y in Ok r
  end.
(** int/traits.rs 12-28, shared/ops.rs 141-148 and 173: [-&a], [!&a] *)
Definition neg_form (f : form) (x : list Z) : res (list Z) := op_neg x.
Definition not_form (f : form) (x : list Z) : res (list Z) := not_const x.

(** ** Default, From *)

(** shared/mod.rs 63 [derive(Default)]: every limb is [ULimb::default()] *)
Definition default_value : list Z := repeat 0 N.
(** shared/traits.rs 126-134, int/traits.rs 122-128 *)
Definition from_trait (ps : bool) (p : prim) (v : Z) : res (list Z) := from_prim ps p v.

(** shared/traits.rs 119-124: [Debug] calls [Display] *)
Definition debug_fmt (sg : bool) (x : list Z) (f : fmt) : res (option (list Z)) :=
  if sg then s_display x f else u_display x.

(** ** num-traits impls that call the inherent method of the same name *)

(** shared/num_traits_impls.rs 236-249 [define! { arity 2, … }] through 8-21,
    and 224-234 [Saturating] *)
Inductive nt_value := NSaturatingAdd | NSaturatingSub | NSaturatingMul | NWrappingAdd | NWrappingSub | NWrappingMul.
Inductive nt_option := NCheckedAdd | NCheckedSub | NCheckedMul | NCheckedDiv | NCheckedRem | NCheckedDivEuclid | NCheckedRemEuclid.
Definition nt_binary (o : nt_value) (sg : bool) (x y : list Z) : res (list Z) :=
  match o with
  | NSaturatingAdd => if sg then s_saturating_add x y else u_saturating_add x y
  | NSaturatingSub => if sg then s_saturating_sub x y else u_saturating_sub x y
  | NSaturatingMul => if sg then s_saturating_mul x y else u_saturating_mul x y
  | NWrappingAdd => wrapping_add sg x y
  | NWrappingSub => wrapping_sub sg x y
  | NWrappingMul => wrapping_mul sg x y
  end.
(** num_traits_impls.rs 244-248, and 203-213 [CheckedEuclid] *)
Definition nt_checked (o : nt_option) (sg : bool) (x y : list Z) : res (option (list Z)) :=
  match o with
  | NCheckedAdd => checked_add sg x y
  | NCheckedSub => checked_sub sg x y
  | NCheckedMul => checked_mul sg x y
  | NCheckedDiv => checked_div sg x y
  | NCheckedRem => checked_rem sg x y
  | NCheckedDivEuclid => checked_div_euclid sg x y
  | NCheckedRemEuclid => checked_rem_euclid sg x y
  end.
(** num_traits_impls.rs 251-255 through 23-36 *)
Definition nt_wrapping_neg (sg : bool) (x : list Z) : res (list Z) := if sg then s_wrapping_neg x else u_wrapping_neg x.
Definition nt_checked_neg (sg : bool) (x : list Z) : res (option (list Z)) := if sg then s_checked_neg x else u_checked_neg x.
(** num_traits_impls.rs 257-263 through 38-51; [n : u32] *)
Definition nt_wrapping_shl (x : list Z) (n : Z) : res (list Z) := wrapping_shl x n.
Definition nt_wrapping_shr (sg : bool) (x : list Z) (n : Z) : res (list Z) := wrapping_shr sg x n.
Definition nt_checked_shl (x : list Z) (n : Z) : res (option (list Z)) := checked_shl x n.
Definition nt_checked_shr (sg : bool) (x : list Z) (n : Z) : res (option (list Z)) := checked_shr sg x n.
(** num_traits_impls.rs 173-189 [Pow<u32>], [Pow<&u32>]; uint/traits.rs 487-490, int/traits.rs 505-508 [PrimInt::pow] *)
Definition nt_pow (sg : bool) (x : list Z) (n : Z) : res (list Z) := pow sg x n.
(** num_traits_impls.rs 191-201 [Euclid] *)
Definition nt_div_euclid (sg : bool) (x y : list Z) : res (list Z) := div_euclid sg x y.
Definition nt_rem_euclid (sg : bool) (x y : list Z) : res (list Z) := rem_euclid sg x y.
(** num_traits_impls.rs 166-171 [MulAddAssign] *)
Definition nt_mul_add_assign (sg : bool) (x a b : list Z) : res (list Z) := let* r := nt_mul_add sg x a b in Ok r.
(** num_traits_impls.rs 113-123 [Bounded]: [Self::MIN], [Self::MAX] *)
Definition nt_min_value (sg : bool) : res (list Z) := min_value sg.
Definition nt_max_value (sg : bool) : res (list Z) := max_value sg.
(** num_traits_impls.rs 215-222 [Num] *)
Definition nt_from_str_radix (sg : bool) (src : list Z) (radix : Z) : res parsed := from_str_radix sg src radix.

End M.
