(** * The multiplications and divisions of powers and logarithms

    The remaining powers (MCost.v has [wrapping_pow]) and the logarithm to an
    arbitrary base, with the limb products and limb divisions listed as in
    MCost.v.  PropsCost3.v proves that leaving the list out gives back the
    functions of MArith.v and MApi.v, for all inputs. *)

Require Import ZArith List Bool.
From Verif Require Import Prim Spec MAdd MMul MCore MArith MScalar MDiv MApi MCost.
Import ListNotations.
Local Open Scope Z_scope.

Section M.
Context {c : Cfg}.

(** [match o { Some(v) => v, None => panic }], as in shared/strict.rs *)
Definition c_unwrap {A} (m : co (option A)) : co A := let$ o := m in free (unwrap (Ok o)).

(** shared/overflowing.rs 19-46 [overflowing_pow] *)
Fixpoint c_overflowing_pow_loop (sg : bool) (fuel : nat) (exp : Z) (base acc : list Z) (overflowed : bool)
    : co (list Z * bool) :=
  match fuel with
  | O => free OutOfFuel
  | S fuel =>
      let next (acc : list Z) (overflowed : bool) :=
        let exp := exp / 2 in
        let$ (base, f) := c_overflowing_mul sg base base in
        let$ _ := free (dassert (negb (exp =? 0))) in
        c_overflowing_pow_loop sg fuel exp base acc (overflowed || f) in
      if Z.land exp 1 =? 1 then
        let$ (r, f) := c_overflowing_mul sg acc base in
        if exp =? 1 then free (Ok (r, f || overflowed)) else next r (overflowed || f)
      else next acc overflowed
  end.
Definition c_overflowing_pow (sg : bool) (x : list Z) (exp : Z) : co (list Z * bool) :=
  if exp =? 0 then free (let* one := from_u8 1 in Ok (one, false))
  else let$ one := free (from_u8 1) in c_overflowing_pow_loop sg pow_fuel exp x one false.
(** shared/checked.rs 71-76, shared/strict.rs 67-72, shared/ops.rs 20-26 *)
Definition c_checked_pow (sg : bool) (x : list Z) (exp : Z) : co (option (list Z)) := c_opt (c_overflowing_pow sg x exp).
Definition c_strict_pow (sg : bool) (x : list Z) (exp : Z) : co (list Z) := c_unwrap (c_checked_pow sg x exp).
Definition c_pow (sg : bool) (x : list Z) (exp : Z) : co (list Z) :=
  if negb chk then c_wrapping_pow x exp else c_strict_pow sg x exp.

(** shared/ops.rs 69-83 [Div] and the [Mul] operator *)
Definition c_wrapping_div (sg : bool) (x n : list Z) : co (list Z) :=
  let$ (q, _) := c_wrapping_div_rem sg x n in free (Ok q).
Definition c_op_div (sg : bool) (x n : list Z) : co (list Z) :=
  if negb chk then c_wrapping_div sg x n
  else c_unwrap (let$ b := free (is_div_none sg x n) in
                 if b : bool then free (Ok None) else let$ v := c_wrapping_div sg x n in free (Ok (Some v))).
Definition c_op_mul (sg : bool) (x y : list Z) : co (list Z) :=
  if negb chk then c_wrapping_mul x y else c_unwrap (c_checked_mul sg x y).

(** uint/checked.rs 79-82, the loop [while r <= self / base { n += 1; r *= base; }] *)
Fixpoint c_ilog_loop (fuel : nat) (x base : list Z) (n : Z) (r : list Z) : co Z :=
  match fuel with
  | O => free OutOfFuel
  | S fuel =>
      let$ q := c_op_div false x base in
      let$ b := free (le_const false r q) in
      if b : bool then
        let$ n := free (uadd 32 n 1) in
        let$ r := c_op_mul false r base in
        c_ilog_loop fuel x base n r
      else free (Ok n)
  end.
(** uint/checked.rs 55-84 [checked_ilog] *)
Definition c_u_checked_ilog (x base : list Z) : co (option Z) :=
  let$ zero := free (from_u8 0) in
  let$ bz := free (le_const false base zero) in
  let$ xb := free (lt_const false x base) in
  if derived_eq x zero || bz || xb then free (Ok None)
  else
    let$ (n, r) :=
      (if 2 * W <=? tbits then
         let$ lx := free (ilog2 false x) in
         let$ lb := free (ilog2 false base) in
         let$ d := free (uadd 32 lb 1) in
         let$ n := free (udiv lx d) in
         let$ r := c_pow false base n in
         free (Ok (n, r))
       else free (Ok (1, base))) in
    let$ n := c_ilog_loop (S (Z.to_nat tbits)) x base n r in
    free (Ok (Some n)).
(** uint/ops.rs 117-123 [ilog] *)
Definition c_u_ilog (x base : list Z) : co Z := c_unwrap (c_u_checked_ilog x base).
(** int/checked.rs 86-91 [checked_ilog] *)
Definition c_s_checked_ilog (x base : list Z) : co (option Z) :=
  let$ zero := free (from_u8 0) in
  let$ a := free (le_const true x zero) in
  let$ one := free (from_u8 1) in
  let$ b := free (le_const true base one) in
  if a || b then free (Ok None)
  else
    let$ ux := free (as_unsigned x) in
    let$ ub := free (as_unsigned base) in
    let$ r := c_u_ilog ux ub in
    free (Ok (Some r)).

(** ** A cheaper loop, not in the crate

    The condition of the loop at uint/checked.rs 79-82 divides [self] by [base]
    before every pass, though neither changes.  This variant divides once. *)
Fixpoint hoisted_loop (fuel : nat) (base q : list Z) (n : Z) (r : list Z) : co Z :=
  match fuel with
  | O => free OutOfFuel
  | S fuel =>
      let$ b := free (le_const false r q) in
      if b : bool then
        let$ n := free (uadd 32 n 1) in
        let$ r := c_op_mul false r base in
        hoisted_loop fuel base q n r
      else free (Ok n)
  end.
Definition hoisted_checked_ilog (x base : list Z) : co (option Z) :=
  let$ zero := free (from_u8 0) in
  let$ bz := free (le_const false base zero) in
  let$ xb := free (lt_const false x base) in
  if derived_eq x zero || bz || xb then free (Ok None)
  else
    let$ lx := free (ilog2 false x) in
    let$ lb := free (ilog2 false base) in
    let$ d := free (uadd 32 lb 1) in
    let$ n := free (udiv lx d) in
    let$ r := c_pow false base n in
    let$ q := c_op_div false x base in
    let$ n := hoisted_loop (S (Z.to_nat tbits)) base q n r in
    free (Ok (Some n)).

End M.
