(** * The comparisons clients get from [Ord] and [PartialOrd]

    shared/ord.rs 165-202 ([traits!]) implements [Ord::cmp] and
    [PartialOrd::partial_cmp], [lt], [le], [gt], [ge].  [max], [min] and [clamp]
    are left to the default methods of the standard library; the bodies below
    follow library/core/src/cmp.rs (not part of /repo), whose [max] and [min]
    were written with [cmp] at first and with [<] later: both are here. *)

Require Import ZArith List Bool.
From Verif Require Import Prim Spec MCore.
Import ListNotations.
Local Open Scope Z_scope.

Section M.
Context {c : Cfg}.

(** shared/ord.rs 167-172 [Ord::cmp] *)
Definition ord_cmp (sg : bool) (x y : list Z) : res comparison := cmp_const sg x y.
(** shared/ord.rs 175-178 [PartialOrd::partial_cmp] *)
Definition ord_partial_cmp (sg : bool) (x y : list Z) : res (option comparison) :=
  let* k := ord_cmp sg x y in Ok (Some k).
(** shared/ord.rs 180-198 [lt], [le], [gt], [ge]: the operators [<], [<=], [>], [>=] *)
Definition ord_lt (sg : bool) (x y : list Z) : res bool := lt_const sg x y.
Definition ord_le (sg : bool) (x y : list Z) : res bool := le_const sg x y.
Definition ord_gt (sg : bool) (x y : list Z) : res bool := gt_const sg x y.
Definition ord_ge (sg : bool) (x y : list Z) : res bool := ge_const sg x y.
(** std, [max_by] with [cmp]: the second argument unless the first is greater *)
Definition ord_max (sg : bool) (x y : list Z) : res (list Z) :=
  let* k := ord_cmp sg x y in Ok (match k with Gt => x | _ => y end).
(** std, [min_by] with [cmp]: the first argument unless it is greater *)
Definition ord_min (sg : bool) (x y : list Z) : res (list Z) :=
  let* k := ord_cmp sg x y in Ok (match k with Gt => y | _ => x end).
(** std, later: [if other < self { self } else { other }] and
    [if other < self { other } else { self }] *)
Definition ord_max_lt (sg : bool) (x y : list Z) : res (list Z) :=
  let* b := ord_lt sg y x in Ok (if b then x else y).
Definition ord_min_lt (sg : bool) (x y : list Z) : res (list Z) :=
  let* b := ord_lt sg y x in Ok (if b then y else x).
(** std: [assert!(min <= max)], then the nearer bound or [self] *)
Definition ord_clamp (sg : bool) (x lo hi : list Z) : res (list Z) :=
  let* ordered := ord_le sg lo hi in
  let* _ := assert_ ordered in
  let* below := ord_lt sg x lo in
  if below then Ok lo
  else
    let* above := ord_gt sg x hi in
    Ok (if above then hi else x).

End M.
