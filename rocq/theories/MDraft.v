(** * The base-ten logarithms left in the source as comments

    uint/checked.rs, uint/ops.rs, int/checked.rs and int/ops.rs hold
    [checked_ilog10] and [ilog10] commented out, waiting for a newer compiler.
    They are modelled as they would read in the present crate:
    - [value.high() > 0] compares with the integer 0 of the type,
    - [div_wide] is no longer there; it is [div_u64], as [E16] is a [u64]. *)

Require Import ZArith List Bool.
From Verif Require Import Prim Spec MAdd MMul MCore MArith MScalar MDiv MApi MForms.
Import ListNotations.
Local Open Scope Z_scope.

Section M.
Context {c : Cfg}.

(** std [u128::ilog10]: panics at 0 *)
Fixpoint ten_count (fuel : nat) (v : Z) : Z :=
  match fuel with
  | O => 0
  | S fuel => if v <? 10 then 0 else 1 + ten_count fuel (v / 10)
  end.
Definition p_ilog10 (v : Z) : res Z := if v <=? 0 then Panic else Ok (ten_count 128 v).

(** uint/checked.rs 102 [E16] *)
Definition E16 : Z := 10000000000000000.
(** uint/checked.rs 103-106: the loop; the value decreases, so the width is fuel enough *)
Fixpoint ilog10_loop (fuel : nat) (value : list Z) (log : Z) : res (list Z * Z) :=
  let* h := high value in
  let* z := from_u8 0 in
  let* b := gt_const false h z in
  if b then
    match fuel with
    | O => OutOfFuel
    | S fuel =>
        let* value := div_us K64 false value E16 in
        let* log := uadd 32 log 16 in
        ilog10_loop fuel value log
    end
  else Ok (value, log).
(** uint/checked.rs 91-111 [checked_ilog10] *)
Definition u_checked_ilog10 (x : list Z) : res (option Z) :=
  let* z := from_u8 0 in
  let* b := eq_const x z in
  if b then Ok None
  else
    let* (value, log) := ilog10_loop (Z.to_nat BITS) x 0 in
    let* value := as_u128 value in
    let* l := p_ilog10 value in
    let* r := uadd 32 l log in
    Ok (Some r).
(** uint/ops.rs 146-152 [ilog10] *)
Definition u_ilog10 (x : list Z) : res Z := unwrap (u_checked_ilog10 x).
(** int/checked.rs 107-112 [checked_ilog10] *)
Definition s_checked_ilog10 (x : list Z) : res (option Z) :=
  let* z := from_u8 0 in
  let* b := le_const true x z in
  if b then Ok None
  else
    let* u := as_unsigned x in
    let* l := u_ilog10 u in
    Ok (Some l).
(** int/ops.rs 266-272 [ilog10] *)
Definition s_ilog10 (x : list Z) : res Z := unwrap (s_checked_ilog10 x).

(** ** Not the code: the same with the test the last step needs *)

(** as [ilog10_loop], until the value fits the [u128] it is converted to *)
Fixpoint fix_ilog10_loop (fuel : nat) (value : list Z) (log : Z) : res (list Z * Z) :=
  let* m := from_u128 (2 ^ 128 - 1) in
  let* b := gt_const false value m in
  if b then
    match fuel with
    | O => OutOfFuel
    | S fuel =>
        let* value := div_us K64 false value E16 in
        let* log := uadd 32 log 16 in
        fix_ilog10_loop fuel value log
    end
  else Ok (value, log).
Definition fix_checked_ilog10 (x : list Z) : res (option Z) :=
  let* z := from_u8 0 in
  let* b := eq_const x z in
  if b then Ok None
  else
    let* (value, log) := fix_ilog10_loop (Z.to_nat BITS) x 0 in
    let* value := as_u128 value in
    let* l := p_ilog10 value in
    let* r := uadd 32 l log in
    Ok (Some r).
End M.
