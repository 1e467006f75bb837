(** * Properties: the text of src/math/sub.rs (C111)

    The text of the file, read by MText.v and run by MRun.v, does what the
    model does: for every setting, every length and every value of the limbs.
    The names are those the rest of the crate calls. *)

Require Import ZArith List Bool String Lia.
From Verif Require Import Prim Spec MText SrcText MRun MAdd MMul PText PTextSub.
Import ListNotations.
Local Open Scope string_scope.
Local Open Scope list_scope.
Local Open Scope Z_scope.

Notation len := List.length.
Notation arr l := (VA (IU W) l).

Ltac top prog_eq t m :=
  intros limb32 p64 c pw fuel d HW Hpw x y; intros;
  rewrite prog_eq;
  change (limb_bits limb32 p64) with (ww (is64 limb32 p64)) in HW;
  generalize dependent (is64 limb32 p64); clear limb32 p64; intros s HW;
  pose proof (t c s HW pw Hpw fuel) as Hcall; rewrite ?HW;
  repeat match goal with H : context [W] |- _ => lazymatch H with HW => fail | Hcall => fail | _ => rewrite HW in H end end;
  widths s HW; unfold v_arr, v_arrb in Hcall; cbn [Nat.add]; (enter; sx;
  match goal with |- context [m ?c ?x ?y] => destruct (m c x y) as [[? ?]| |] || destruct (m c x y) as [?| |] end; reflexivity).

Theorem C111_sub_wrapping_unsigned : forall limb32 p64 (c : Cfg) pw fuel d, W = limb_bits limb32 p64 -> 32 <= pw -> forall x y,
  len y = len x -> (1 <= len x)%nat -> Z.of_nat (len x) < 2 ^ 31 -> (2 * len x + 1 < fuel)%nat ->
  run pw fuel (6 + d) (prog_sub limb32 p64) "wrapping_unsigned" [] [arr x; arr y] =
  let* l := sub_wrapping_full x y in Ok (arr l).
Proof. top prog_sub_eq (@t_wrapping_full) (@sub_wrapping_full). Qed.
Theorem C111_sub_wrapping_limb : forall limb32 p64 (c : Cfg) pw fuel d, W = limb_bits limb32 p64 -> 32 <= pw -> forall x y,
  Z.of_nat (len x) < 2 ^ 31 -> (2 * len x + 1 < fuel)%nat ->
  run pw fuel (6 + d) (prog_sub limb32 p64) "wrapping_limb" [] [arr x; VI (IU W) y] =
  let* l := sub_wrapping_limb x y in Ok (arr l).
Proof. top prog_sub_eq (@t_wrapping_limb) (@sub_wrapping_limb). Qed.
Theorem C111_sub_wrapping_wide : forall limb32 p64 (c : Cfg) pw fuel d, W = limb_bits limb32 p64 -> 32 <= pw -> forall x y,
  Z.of_nat (len x) < 2 ^ 31 -> (2 * len x + 1 < fuel)%nat ->
  run pw fuel (6 + d) (prog_sub limb32 p64) "wrapping_wide" [] [arr x; VI (IU (2 * W)) y] =
  let* l := sub_wrapping_wide x y in Ok (arr l).
Proof. top prog_sub_eq (@t_wrapping_wide) (@sub_wrapping_wide). Qed.
Theorem C111_sub_wrapping_mn : forall limb32 p64 (c : Cfg) pw fuel d, W = limb_bits limb32 p64 -> 32 <= pw -> forall x y,
  Z.of_nat (len x) < 2 ^ 31 -> (2 * len x + 1 < fuel)%nat ->
  run pw fuel (6 + d) (prog_sub limb32 p64) "wrapping_mn" [] [arr x; arr y] =
  let* l := sub_wrapping_mn x y in Ok (arr l).
Proof. top prog_sub_eq (@t_wrapping_mn) (@sub_wrapping_mn). Qed.
Theorem C111_sub_wrapping_signed : forall limb32 p64 (c : Cfg) pw fuel d, W = limb_bits limb32 p64 -> 32 <= pw -> forall x y,
  len y = len x -> Z.of_nat (len x) < 2 ^ 31 -> (2 * len x + 1 < fuel)%nat ->
  run pw fuel (6 + d) (prog_sub limb32 p64) "wrapping_signed" [] [arr x; arr y] =
  let* l := ssub_wrapping_full x y in Ok (arr l).
Proof. top prog_sub_eq (@t_swrapping_full) (@ssub_wrapping_full). Qed.
Theorem C111_sub_wrapping_ulimb : forall limb32 p64 (c : Cfg) pw fuel d, W = limb_bits limb32 p64 -> 32 <= pw -> forall x y,
  Z.of_nat (len x) < 2 ^ 31 -> (2 * len x + 1 < fuel)%nat ->
  run pw fuel (6 + d) (prog_sub limb32 p64) "wrapping_ulimb" [] [arr x; VI (IU W) y] =
  let* l := ssub_wrapping_ulimb x y in Ok (arr l).
Proof. top prog_sub_eq (@t_wrapping_ulimb) (@ssub_wrapping_ulimb). Qed.
Theorem C111_sub_wrapping_ilimb : forall limb32 p64 (c : Cfg) pw fuel d, W = limb_bits limb32 p64 -> 32 <= pw -> forall x y,
  Z.of_nat (len x) < 2 ^ 31 -> (2 * len x + 1 < fuel)%nat ->
  run pw fuel (6 + d) (prog_sub limb32 p64) "wrapping_ilimb" [] [arr x; VI (IS W) y] =
  let* l := ssub_wrapping_ilimb x y in Ok (arr l).
Proof. top prog_sub_eq (@t_wrapping_ilimb) (@ssub_wrapping_ilimb). Qed.
Theorem C111_sub_wrapping_uwide : forall limb32 p64 (c : Cfg) pw fuel d, W = limb_bits limb32 p64 -> 32 <= pw -> forall x y,
  Z.of_nat (len x) < 2 ^ 31 -> (2 * len x + 1 < fuel)%nat ->
  run pw fuel (6 + d) (prog_sub limb32 p64) "wrapping_uwide" [] [arr x; VI (IU (2 * W)) y] =
  let* l := ssub_wrapping_uwide x y in Ok (arr l).
Proof. top prog_sub_eq (@t_wrapping_uwide) (@ssub_wrapping_uwide). Qed.
Theorem C111_sub_wrapping_iwide : forall limb32 p64 (c : Cfg) pw fuel d, W = limb_bits limb32 p64 -> 32 <= pw -> forall x y,
  Z.of_nat (len x) < 2 ^ 31 -> (2 * len x + 1 < fuel)%nat ->
  run pw fuel (6 + d) (prog_sub limb32 p64) "wrapping_iwide" [] [arr x; VI (IS (2 * W)) y] =
  let* l := ssub_wrapping_iwide x y in Ok (arr l).
Proof. top prog_sub_eq (@t_wrapping_iwide) (@ssub_wrapping_iwide). Qed.
Theorem C111_sub_overflowing_unsigned : forall limb32 p64 (c : Cfg) pw fuel d, W = limb_bits limb32 p64 -> 32 <= pw -> forall x y,
  len y = len x -> (1 <= len x)%nat -> Z.of_nat (len x) < 2 ^ 31 -> (2 * len x + 1 < fuel)%nat ->
  run pw fuel (6 + d) (prog_sub limb32 p64) "overflowing_unsigned" [] [arr x; arr y] =
  let* (l, b) := sub_overflowing_full x y in Ok (VT [arr l; VB b]).
Proof. top prog_sub_eq (@t_overflowing_full) (@sub_overflowing_full). Qed.
Theorem C111_sub_overflowing_limb : forall limb32 p64 (c : Cfg) pw fuel d, W = limb_bits limb32 p64 -> 32 <= pw -> forall x y,
  Z.of_nat (len x) < 2 ^ 31 -> (2 * len x + 1 < fuel)%nat ->
  run pw fuel (6 + d) (prog_sub limb32 p64) "overflowing_limb" [] [arr x; VI (IU W) y] =
  let* (l, b) := sub_overflowing_limb x y in Ok (VT [arr l; VB b]).
Proof. top prog_sub_eq (@t_overflowing_limb) (@sub_overflowing_limb). Qed.
Theorem C111_sub_overflowing_wide : forall limb32 p64 (c : Cfg) pw fuel d, W = limb_bits limb32 p64 -> 32 <= pw -> forall x y,
  Z.of_nat (len x) < 2 ^ 31 -> (2 * len x + 1 < fuel)%nat ->
  run pw fuel (6 + d) (prog_sub limb32 p64) "overflowing_wide" [] [arr x; VI (IU (2 * W)) y] =
  let* (l, b) := sub_overflowing_wide x y in Ok (VT [arr l; VB b]).
Proof. top prog_sub_eq (@t_overflowing_wide) (@sub_overflowing_wide). Qed.
Theorem C111_sub_overflowing_mn : forall limb32 p64 (c : Cfg) pw fuel d, W = limb_bits limb32 p64 -> 32 <= pw -> forall x y,
  Z.of_nat (len x) < 2 ^ 31 -> (2 * len x + 1 < fuel)%nat ->
  run pw fuel (6 + d) (prog_sub limb32 p64) "overflowing_mn" [] [arr x; arr y] =
  let* (l, b) := sub_overflowing_mn x y in Ok (VT [arr l; VB b]).
Proof. top prog_sub_eq (@t_overflowing_mn) (@sub_overflowing_mn). Qed.
Theorem C111_sub_overflowing_signed : forall limb32 p64 (c : Cfg) pw fuel d, W = limb_bits limb32 p64 -> 32 <= pw -> forall x y,
  len y = len x -> Z.of_nat (len x) < 2 ^ 31 -> (2 * len x + 1 < fuel)%nat ->
  run pw fuel (6 + d) (prog_sub limb32 p64) "overflowing_signed" [] [arr x; arr y] =
  let* (l, b) := ssub_overflowing_full x y in Ok (VT [arr l; VB b]).
Proof. top prog_sub_eq (@t_soverflowing_full) (@ssub_overflowing_full). Qed.
Theorem C111_sub_overflowing_ulimb : forall limb32 p64 (c : Cfg) pw fuel d, W = limb_bits limb32 p64 -> 32 <= pw -> forall x y,
  Z.of_nat (len x) < 2 ^ 31 -> (2 * len x + 1 < fuel)%nat ->
  run pw fuel (6 + d) (prog_sub limb32 p64) "overflowing_ulimb" [] [arr x; VI (IU W) y] =
  let* (l, b) := ssub_overflowing_ulimb x y in Ok (VT [arr l; VB b]).
Proof. top prog_sub_eq (@t_overflowing_ulimb) (@ssub_overflowing_ulimb). Qed.
Theorem C111_sub_overflowing_ilimb : forall limb32 p64 (c : Cfg) pw fuel d, W = limb_bits limb32 p64 -> 32 <= pw -> forall x y,
  Z.of_nat (len x) < 2 ^ 31 -> (2 * len x + 1 < fuel)%nat ->
  run pw fuel (6 + d) (prog_sub limb32 p64) "overflowing_ilimb" [] [arr x; VI (IS W) y] =
  let* (l, b) := ssub_overflowing_ilimb x y in Ok (VT [arr l; VB b]).
Proof. top prog_sub_eq (@t_overflowing_ilimb) (@ssub_overflowing_ilimb). Qed.
Theorem C111_sub_overflowing_uwide : forall limb32 p64 (c : Cfg) pw fuel d, W = limb_bits limb32 p64 -> 32 <= pw -> forall x y,
  Z.of_nat (len x) < 2 ^ 31 -> (2 * len x + 1 < fuel)%nat ->
  run pw fuel (6 + d) (prog_sub limb32 p64) "overflowing_uwide" [] [arr x; VI (IU (2 * W)) y] =
  let* (l, b) := ssub_overflowing_uwide x y in Ok (VT [arr l; VB b]).
Proof. top prog_sub_eq (@t_overflowing_uwide) (@ssub_overflowing_uwide). Qed.
Theorem C111_sub_overflowing_iwide : forall limb32 p64 (c : Cfg) pw fuel d, W = limb_bits limb32 p64 -> 32 <= pw -> forall x y,
  Z.of_nat (len x) < 2 ^ 31 -> (2 * len x + 1 < fuel)%nat ->
  run pw fuel (6 + d) (prog_sub limb32 p64) "overflowing_iwide" [] [arr x; VI (IS (2 * W)) y] =
  let* (l, b) := ssub_overflowing_iwide x y in Ok (VT [arr l; VB b]).
Proof. top prog_sub_eq (@t_overflowing_iwide) (@ssub_overflowing_iwide). Qed.

(** A 64-bit number beside limbs of either width *)
Ltac top2 prog_eq t t' m m' :=
  intros limb32 p64 c pw fuel d HW Hpw x y; intros; unfold digits in *;
  rewrite prog_eq;
  change (limb_bits limb32 p64) with (ww (is64 limb32 p64)) in *;
  generalize dependent (is64 limb32 p64); clear limb32 p64; intros s HW; intros;
  pose proof (t c s HW pw Hpw fuel) as Hcall; pose proof (t' c s HW pw Hpw fuel) as Hcall'; rewrite ?HW;
  repeat match goal with H : context [W] |- _ => lazymatch H with HW => fail | Hcall => fail | Hcall' => fail | _ => rewrite HW in H end end;
  widths s HW; change (64 =? 64) with true; change (32 =? 64) with false; cbv iota; unfold v_arr, v_arrb in Hcall, Hcall';
  cbn [Nat.add]; change (2 * 32) with 64 in *; change (2 * 64) with 128 in *;
  (enter; sx;
   match goal with
   | |- context [m ?c ?x ?y] => destruct (m c x y) as [[? ?]| |] || destruct (m c x y) as [?| |]
   | |- context [m' ?c ?x ?y] => destruct (m' c x y) as [[? ?]| |] || destruct (m' c x y) as [?| |]
   end; reflexivity).
Theorem C111_sub_wrapping_scalar_u64 : forall limb32 p64 (c : Cfg) pw fuel d, W = limb_bits limb32 p64 -> 32 <= pw -> forall x y,
  Z.of_nat (len x) < 2 ^ 31 -> (2 * len x + 1 < fuel)%nat ->
  run pw fuel (6 + d) (prog_sub limb32 p64) "wrapping_scalar_u64" [] [arr x; VI (IU 64) y] =
  let* l := (if limb_bits limb32 p64 =? 64 then sub_wrapping_limb x y else sub_wrapping_wide x y) in
  Ok (arr l).
Proof. top2 prog_sub_eq (@t_wrapping_limb) (@t_wrapping_wide) (@sub_wrapping_limb) (@sub_wrapping_wide). Qed.
Theorem C111_sub_wrapping_uscalar_i64 : forall limb32 p64 (c : Cfg) pw fuel d, W = limb_bits limb32 p64 -> 32 <= pw -> forall x y,
  Z.of_nat (len x) < 2 ^ 31 -> (2 * len x + 1 < fuel)%nat ->
  run pw fuel (6 + d) (prog_sub limb32 p64) "wrapping_uscalar_i64" [] [arr x; VI (IU 64) y] =
  let* l := (if limb_bits limb32 p64 =? 64 then ssub_wrapping_ulimb x y else ssub_wrapping_uwide x y) in
  Ok (arr l).
Proof. top2 prog_sub_eq (@t_wrapping_ulimb) (@t_wrapping_uwide) (@ssub_wrapping_ulimb) (@ssub_wrapping_uwide). Qed.
Theorem C111_sub_wrapping_iscalar_i64 : forall limb32 p64 (c : Cfg) pw fuel d, W = limb_bits limb32 p64 -> 32 <= pw -> forall x y,
  Z.of_nat (len x) < 2 ^ 31 -> (2 * len x + 1 < fuel)%nat ->
  run pw fuel (6 + d) (prog_sub limb32 p64) "wrapping_iscalar_i64" [] [arr x; VI (IS 64) y] =
  let* l := (if limb_bits limb32 p64 =? 64 then ssub_wrapping_ilimb x y else ssub_wrapping_iwide x y) in
  Ok (arr l).
Proof. top2 prog_sub_eq (@t_wrapping_ilimb) (@t_wrapping_iwide) (@ssub_wrapping_ilimb) (@ssub_wrapping_iwide). Qed.
Theorem C111_sub_overflowing_scalar_u64 : forall limb32 p64 (c : Cfg) pw fuel d, W = limb_bits limb32 p64 -> 32 <= pw -> forall x y,
  Z.of_nat (len x) < 2 ^ 31 -> (2 * len x + 1 < fuel)%nat ->
  run pw fuel (6 + d) (prog_sub limb32 p64) "overflowing_scalar_u64" [] [arr x; VI (IU 64) y] =
  let* (l, b) := (if limb_bits limb32 p64 =? 64 then sub_overflowing_limb x y else sub_overflowing_wide x y) in
  Ok (VT [arr l; VB b]).
Proof. top2 prog_sub_eq (@t_overflowing_limb) (@t_overflowing_wide) (@sub_overflowing_limb) (@sub_overflowing_wide). Qed.
Theorem C111_sub_overflowing_uscalar_i64 : forall limb32 p64 (c : Cfg) pw fuel d, W = limb_bits limb32 p64 -> 32 <= pw -> forall x y,
  Z.of_nat (len x) < 2 ^ 31 -> (2 * len x + 1 < fuel)%nat ->
  run pw fuel (6 + d) (prog_sub limb32 p64) "overflowing_uscalar_i64" [] [arr x; VI (IU 64) y] =
  let* (l, b) := (if limb_bits limb32 p64 =? 64 then ssub_overflowing_ulimb x y else ssub_overflowing_uwide x y) in
  Ok (VT [arr l; VB b]).
Proof. top2 prog_sub_eq (@t_overflowing_ulimb) (@t_overflowing_uwide) (@ssub_overflowing_ulimb) (@ssub_overflowing_uwide). Qed.
Theorem C111_sub_overflowing_iscalar_i64 : forall limb32 p64 (c : Cfg) pw fuel d, W = limb_bits limb32 p64 -> 32 <= pw -> forall x y,
  Z.of_nat (len x) < 2 ^ 31 -> (2 * len x + 1 < fuel)%nat ->
  run pw fuel (6 + d) (prog_sub limb32 p64) "overflowing_iscalar_i64" [] [arr x; VI (IS 64) y] =
  let* (l, b) := (if limb_bits limb32 p64 =? 64 then ssub_overflowing_ilimb x y else ssub_overflowing_iwide x y) in
  Ok (VT [arr l; VB b]).
Proof. top2 prog_sub_eq (@t_overflowing_ilimb) (@t_overflowing_iwide) (@ssub_overflowing_ilimb) (@ssub_overflowing_iwide). Qed.

(** ** Assumptions (each must print "Closed under the global context") *)

Print Assumptions C111_sub_wrapping_unsigned.
Print Assumptions C111_sub_wrapping_limb.
Print Assumptions C111_sub_wrapping_wide.
Print Assumptions C111_sub_wrapping_mn.
Print Assumptions C111_sub_wrapping_signed.
Print Assumptions C111_sub_wrapping_ulimb.
Print Assumptions C111_sub_wrapping_ilimb.
Print Assumptions C111_sub_wrapping_uwide.
Print Assumptions C111_sub_wrapping_iwide.
Print Assumptions C111_sub_overflowing_unsigned.
Print Assumptions C111_sub_overflowing_limb.
Print Assumptions C111_sub_overflowing_wide.
Print Assumptions C111_sub_overflowing_mn.
Print Assumptions C111_sub_overflowing_signed.
Print Assumptions C111_sub_overflowing_ulimb.
Print Assumptions C111_sub_overflowing_ilimb.
Print Assumptions C111_sub_overflowing_uwide.
Print Assumptions C111_sub_overflowing_iwide.
Print Assumptions C111_sub_wrapping_scalar_u64.
Print Assumptions C111_sub_wrapping_uscalar_i64.
Print Assumptions C111_sub_wrapping_iscalar_i64.
Print Assumptions C111_sub_overflowing_scalar_u64.
Print Assumptions C111_sub_overflowing_uscalar_i64.
Print Assumptions C111_sub_overflowing_iscalar_i64.
