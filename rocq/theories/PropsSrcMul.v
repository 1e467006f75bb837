(** * Properties: the text of src/math/mul.rs (C111)

    The text of the file, read by MText.v and run by MRun.v, does what the
    model does: for every setting, every length and every value of the limbs.
    The names are those the rest of the crate calls. *)

Require Import ZArith List Bool String Lia.
From Verif Require Import Prim Spec MText SrcText MRun MAdd MMul PText PTextMul PTextMulS PTextMulT PTextMulW.
Import ListNotations.
Local Open Scope string_scope.
Local Open Scope list_scope.
Local Open Scope Z_scope.

Notation len := List.length.
Notation arr l := (VA (IU W) l).

Ltac top prog_eq t m :=
  intros limb32 p64 c pw fuel d HW Hpw x y; intros; unfold digits in *;
  rewrite prog_eq;
  change (limb_bits limb32 p64) with (ww (is64 limb32 p64)) in HW;
  generalize dependent (is64 limb32 p64); clear limb32 p64; intros s HW;
  pose proof (t c s HW pw Hpw fuel) as Hcall; rewrite ?HW;
  repeat match goal with H : context [W] |- _ => lazymatch H with HW => fail | Hcall => fail | _ => rewrite HW in H end end;
  widths s HW; unfold v_arr, v_arrb in Hcall; cbn [Nat.add]; (enter; sx;
  match goal with |- context [m ?c ?x ?y] => destruct (m c x y) as [[? ?]| |] || destruct (m c x y) as [?| |] end; reflexivity).

Theorem C111_mul_wrapping_unsigned : forall limb32 p64 (c : Cfg) pw fuel d, W = limb_bits limb32 p64 -> 32 <= pw -> forall x y,
  digits W x -> digits W y -> Z.of_nat (len x) < 2 ^ 31 -> (2 * len x + 1 < fuel)%nat ->
  run pw fuel (6 + d) (prog_mul limb32 p64) "wrapping_unsigned" [] [arr x; arr y] =
  let* l := mul_wrapping_full x y in Ok (arr l).
Proof. top prog_mul_eq (@t_wrapping_full) (@mul_wrapping_full). Qed.
Theorem C111_mul_wrapping_limb : forall limb32 p64 (c : Cfg) pw fuel d, W = limb_bits limb32 p64 -> 32 <= pw -> forall x y,
  0 <= y < 2 ^ W -> digits W x -> Z.of_nat (len x) < 2 ^ 31 -> (2 * len x + 1 < fuel)%nat ->
  run pw fuel (6 + d) (prog_mul limb32 p64) "wrapping_limb" [] [arr x; VI (IU W) y] =
  let* l := mul_wrapping_limb x y in Ok (arr l).
Proof. top prog_mul_eq (@t_wrapping_limb) (@mul_wrapping_limb). Qed.
Theorem C111_mul_wrapping_wide : forall limb32 p64 (c : Cfg) pw fuel d, W = limb_bits limb32 p64 -> 32 <= pw -> forall x y,
  digits W x -> Z.of_nat (len x) < 2 ^ 31 -> (2 * len x + 1 < fuel)%nat ->
  run pw fuel (6 + d) (prog_mul limb32 p64) "wrapping_wide" [] [arr x; VI (IU (2 * W)) y] =
  let* l := mul_wrapping_wide x y in Ok (arr l).
Proof. top prog_mul_eq (@t_wrapping_wide) (@mul_wrapping_wide). Qed.
Theorem C111_mul_wrapping_signed : forall limb32 p64 (c : Cfg) pw fuel d, W = limb_bits limb32 p64 -> 32 <= pw -> forall x y,
  len y = len x -> digits W y -> digits W x -> Z.of_nat (len x) < 2 ^ 31 -> (2 * len x + 1 < fuel)%nat ->
  run pw fuel (6 + d) (prog_mul limb32 p64) "wrapping_signed" [] [arr x; arr y] =
  let* l := smul_wrapping_full x y in Ok (arr l).
Proof. top prog_mul_eq (@t_swrapping_full) (@smul_wrapping_full). Qed.
Theorem C111_mul_wrapping_ulimb : forall limb32 p64 (c : Cfg) pw fuel d, W = limb_bits limb32 p64 -> 32 <= pw -> forall x y,
  0 <= y < 2 ^ W -> digits W x -> Z.of_nat (len x) < 2 ^ 31 -> (2 * len x + 1 < fuel)%nat ->
  run pw fuel (6 + d) (prog_mul limb32 p64) "wrapping_ulimb" [] [arr x; VI (IU W) y] =
  let* l := smul_wrapping_ulimb x y in Ok (arr l).
Proof. top prog_mul_eq (@t_wrapping_ulimb) (@smul_wrapping_ulimb). Qed.
Theorem C111_mul_wrapping_ilimb : forall limb32 p64 (c : Cfg) pw fuel d, W = limb_bits limb32 p64 -> 32 <= pw -> forall x y,
  digits W x -> Z.of_nat (len x) < 2 ^ 31 -> (2 * len x + 1 < fuel)%nat ->
  run pw fuel (6 + d) (prog_mul limb32 p64) "wrapping_ilimb" [] [arr x; VI (IS W) y] =
  let* l := smul_wrapping_ilimb x y in Ok (arr l).
Proof. top prog_mul_eq (@t_wrapping_ilimb) (@smul_wrapping_ilimb). Qed.
Theorem C111_mul_wrapping_uwide : forall limb32 p64 (c : Cfg) pw fuel d, W = limb_bits limb32 p64 -> 32 <= pw -> forall x y,
  digits W x -> Z.of_nat (len x) < 2 ^ 31 -> (2 * len x + 1 < fuel)%nat ->
  run pw fuel (6 + d) (prog_mul limb32 p64) "wrapping_uwide" [] [arr x; VI (IU (2 * W)) y] =
  let* l := smul_wrapping_uwide x y in Ok (arr l).
Proof. top prog_mul_eq (@t_wrapping_uwide) (@smul_wrapping_uwide). Qed.
Theorem C111_mul_wrapping_iwide : forall limb32 p64 (c : Cfg) pw fuel d, W = limb_bits limb32 p64 -> 32 <= pw -> forall x y,
  digits W x -> Z.of_nat (len x) < 2 ^ 31 -> (2 * len x + 1 < fuel)%nat ->
  run pw fuel (6 + d) (prog_mul limb32 p64) "wrapping_iwide" [] [arr x; VI (IS (2 * W)) y] =
  let* l := smul_wrapping_iwide x y in Ok (arr l).
Proof. top prog_mul_eq (@t_wrapping_iwide) (@smul_wrapping_iwide). Qed.
Theorem C111_mul_overflowing_unsigned : forall limb32 p64 (c : Cfg) pw fuel d, W = limb_bits limb32 p64 -> 32 <= pw -> forall x y,
  digits W x -> digits W y -> Z.of_nat (len x) < 2 ^ 31 -> (2 * len x + 1 < fuel)%nat ->
  run pw fuel (6 + d) (prog_mul limb32 p64) "overflowing_unsigned" [] [arr x; arr y] =
  let* (l, b) := mul_overflowing_full x y in Ok (VT [arr l; VB b]).
Proof. top prog_mul_eq (@t_overflowing_full) (@mul_overflowing_full). Qed.
Theorem C111_mul_overflowing_limb : forall limb32 p64 (c : Cfg) pw fuel d, W = limb_bits limb32 p64 -> 32 <= pw -> forall x y,
  0 <= y < 2 ^ W -> digits W x -> Z.of_nat (len x) < 2 ^ 31 -> (2 * len x + 1 < fuel)%nat ->
  run pw fuel (6 + d) (prog_mul limb32 p64) "overflowing_limb" [] [arr x; VI (IU W) y] =
  let* (l, b) := mul_overflowing_limb x y in Ok (VT [arr l; VB b]).
Proof. top prog_mul_eq (@t_overflowing_limb) (@mul_overflowing_limb). Qed.
Theorem C111_mul_overflowing_wide : forall limb32 p64 (c : Cfg) pw fuel d, W = limb_bits limb32 p64 -> 32 <= pw -> forall x y,
  digits W x -> Z.of_nat (len x) < 2 ^ 31 -> (2 * len x + 1 < fuel)%nat ->
  run pw fuel (6 + d) (prog_mul limb32 p64) "overflowing_wide" [] [arr x; VI (IU (2 * W)) y] =
  let* (l, b) := mul_overflowing_wide x y in Ok (VT [arr l; VB b]).
Proof. top prog_mul_eq (@t_overflowing_wide) (@mul_overflowing_wide). Qed.
Theorem C111_mul_overflowing_signed : forall limb32 p64 (c : Cfg) pw fuel d, W = limb_bits limb32 p64 -> 32 <= pw -> forall x y,
  len y = len x -> (1 <= len x)%nat -> digits W x -> digits W y -> Z.of_nat (len x) < 2 ^ 31 -> (2 * len x + 1 < fuel)%nat ->
  run pw fuel (6 + d) (prog_mul limb32 p64) "overflowing_signed" [] [arr x; arr y] =
  let* (l, b) := smul_overflowing_full x y in Ok (VT [arr l; VB b]).
Proof. top prog_mul_eq (@t_soverflowing_full) (@smul_overflowing_full). Qed.
Theorem C111_mul_overflowing_ulimb : forall limb32 p64 (c : Cfg) pw fuel d, W = limb_bits limb32 p64 -> 32 <= pw -> forall x y,
  (1 <= len x)%nat -> 0 <= y < 2 ^ W -> digits W x -> Z.of_nat (len x) < 2 ^ 31 -> (2 * len x + 1 < fuel)%nat ->
  run pw fuel (6 + d) (prog_mul limb32 p64) "overflowing_ulimb" [] [arr x; VI (IU W) y] =
  let* (l, b) := smul_overflowing_ulimb x y in Ok (VT [arr l; VB b]).
Proof. top prog_mul_eq (@t_overflowing_ulimb) (@smul_overflowing_ulimb). Qed.
Theorem C111_mul_overflowing_ilimb : forall limb32 p64 (c : Cfg) pw fuel d, W = limb_bits limb32 p64 -> 32 <= pw -> forall x y,
  (1 <= len x)%nat -> digits W x -> Z.of_nat (len x) < 2 ^ 31 -> (2 * len x + 1 < fuel)%nat ->
  run pw fuel (6 + d) (prog_mul limb32 p64) "overflowing_ilimb" [] [arr x; VI (IS W) y] =
  let* (l, b) := smul_overflowing_ilimb x y in Ok (VT [arr l; VB b]).
Proof. top prog_mul_eq (@t_overflowing_ilimb) (@smul_overflowing_ilimb). Qed.
Theorem C111_mul_overflowing_uwide : forall limb32 p64 (c : Cfg) pw fuel d, W = limb_bits limb32 p64 -> 32 <= pw -> forall x y,
  (1 <= len x)%nat -> digits W x -> Z.of_nat (len x) < 2 ^ 31 -> (2 * len x + 1 < fuel)%nat ->
  run pw fuel (6 + d) (prog_mul limb32 p64) "overflowing_uwide" [] [arr x; VI (IU (2 * W)) y] =
  let* (l, b) := smul_overflowing_uwide x y in Ok (VT [arr l; VB b]).
Proof. top prog_mul_eq (@t_overflowing_uwide) (@smul_overflowing_uwide). Qed.
Theorem C111_mul_overflowing_iwide : forall limb32 p64 (c : Cfg) pw fuel d, W = limb_bits limb32 p64 -> 32 <= pw -> forall x y,
  (1 <= len x)%nat -> digits W x -> Z.of_nat (len x) < 2 ^ 31 -> (2 * len x + 1 < fuel)%nat ->
  run pw fuel (6 + d) (prog_mul limb32 p64) "overflowing_iwide" [] [arr x; VI (IS (2 * W)) y] =
  let* (l, b) := smul_overflowing_iwide x y in Ok (VT [arr l; VB b]).
Proof. top prog_mul_eq (@t_overflowing_iwide) (@smul_overflowing_iwide). Qed.
Theorem C111_mul_widening : forall limb32 p64 (c : Cfg) pw fuel d, W = limb_bits limb32 p64 -> 32 <= pw -> forall x y,
  len y = len x -> digits W x -> digits W y -> Z.of_nat (len x) < 2 ^ 31 -> (2 * len x + 1 < fuel)%nat ->
  run pw fuel (6 + d) (prog_mul limb32 p64) "widening" [] [arr x; arr y] =
  let* (lo, hi) := mul_widening x y in Ok (VT [arr lo; arr hi]).
Proof. top prog_mul_eq (@t_widening) (@mul_widening). Qed.

(** A 64-bit number beside limbs of either width *)
Ltac top2 prog_eq t t' m m' :=
  intros limb32 p64 c pw fuel d HW Hpw x y; intros; unfold digits in *;
  rewrite prog_eq;
  change (limb_bits limb32 p64) with (ww (is64 limb32 p64)) in *;
  generalize dependent (is64 limb32 p64); clear limb32 p64; intros s HW; intros;
  pose proof (t c s HW pw Hpw fuel) as Hcall; pose proof (t' c s HW pw Hpw fuel) as Hcall'; rewrite ?HW;
  repeat match goal with H : context [W] |- _ => lazymatch H with HW => fail | Hcall => fail | Hcall' => fail | _ => rewrite HW in H end end;
  widths s HW; change (64 =? 64) with true; change (32 =? 64) with false; cbv iota; unfold v_arr, v_arrb in Hcall, Hcall';
  cbn [Nat.add]; change (2 * 32) with 64 in *; change (2 * 64) with 128 in *;
  (enter; sx;
   match goal with
   | |- context [m ?c ?x ?y] => destruct (m c x y) as [[? ?]| |] || destruct (m c x y) as [?| |]
   | |- context [m' ?c ?x ?y] => destruct (m' c x y) as [[? ?]| |] || destruct (m' c x y) as [?| |]
   end; reflexivity).
Theorem C111_mul_wrapping_scalar_u64 : forall limb32 p64 (c : Cfg) pw fuel d, W = limb_bits limb32 p64 -> 32 <= pw -> forall x y,
  0 <= y < 2 ^ 64 -> digits W x -> Z.of_nat (len x) < 2 ^ 31 -> (2 * len x + 1 < fuel)%nat ->
  run pw fuel (6 + d) (prog_mul limb32 p64) "wrapping_scalar_u64" [] [arr x; VI (IU 64) y] =
  let* l := (if limb_bits limb32 p64 =? 64 then mul_wrapping_limb x y else mul_wrapping_wide x y) in
  Ok (arr l).
Proof. top2 prog_mul_eq (@t_wrapping_limb) (@t_wrapping_wide) (@mul_wrapping_limb) (@mul_wrapping_wide). Qed.
Theorem C111_mul_wrapping_uscalar_i64 : forall limb32 p64 (c : Cfg) pw fuel d, W = limb_bits limb32 p64 -> 32 <= pw -> forall x y,
  0 <= y < 2 ^ 64 -> digits W x -> Z.of_nat (len x) < 2 ^ 31 -> (2 * len x + 1 < fuel)%nat ->
  run pw fuel (6 + d) (prog_mul limb32 p64) "wrapping_uscalar_i64" [] [arr x; VI (IU 64) y] =
  let* l := (if limb_bits limb32 p64 =? 64 then smul_wrapping_ulimb x y else smul_wrapping_uwide x y) in
  Ok (arr l).
Proof. top2 prog_mul_eq (@t_wrapping_ulimb) (@t_wrapping_uwide) (@smul_wrapping_ulimb) (@smul_wrapping_uwide). Qed.
Theorem C111_mul_wrapping_iscalar_i64 : forall limb32 p64 (c : Cfg) pw fuel d, W = limb_bits limb32 p64 -> 32 <= pw -> forall x y,
  digits W x -> Z.of_nat (len x) < 2 ^ 31 -> (2 * len x + 1 < fuel)%nat ->
  run pw fuel (6 + d) (prog_mul limb32 p64) "wrapping_iscalar_i64" [] [arr x; VI (IS 64) y] =
  let* l := (if limb_bits limb32 p64 =? 64 then smul_wrapping_ilimb x y else smul_wrapping_iwide x y) in
  Ok (arr l).
Proof. top2 prog_mul_eq (@t_wrapping_ilimb) (@t_wrapping_iwide) (@smul_wrapping_ilimb) (@smul_wrapping_iwide). Qed.
Theorem C111_mul_overflowing_scalar_u64 : forall limb32 p64 (c : Cfg) pw fuel d, W = limb_bits limb32 p64 -> 32 <= pw -> forall x y,
  0 <= y < 2 ^ 64 -> digits W x -> Z.of_nat (len x) < 2 ^ 31 -> (2 * len x + 1 < fuel)%nat ->
  run pw fuel (6 + d) (prog_mul limb32 p64) "overflowing_scalar_u64" [] [arr x; VI (IU 64) y] =
  let* (l, b) := (if limb_bits limb32 p64 =? 64 then mul_overflowing_limb x y else mul_overflowing_wide x y) in
  Ok (VT [arr l; VB b]).
Proof. top2 prog_mul_eq (@t_overflowing_limb) (@t_overflowing_wide) (@mul_overflowing_limb) (@mul_overflowing_wide). Qed.
Theorem C111_mul_overflowing_uscalar_i64 : forall limb32 p64 (c : Cfg) pw fuel d, W = limb_bits limb32 p64 -> 32 <= pw -> forall x y,
  (1 <= len x)%nat -> 0 <= y < 2 ^ 64 -> digits W x -> Z.of_nat (len x) < 2 ^ 31 -> (2 * len x + 1 < fuel)%nat ->
  run pw fuel (6 + d) (prog_mul limb32 p64) "overflowing_uscalar_i64" [] [arr x; VI (IU 64) y] =
  let* (l, b) := (if limb_bits limb32 p64 =? 64 then smul_overflowing_ulimb x y else smul_overflowing_uwide x y) in
  Ok (VT [arr l; VB b]).
Proof. top2 prog_mul_eq (@t_overflowing_ulimb) (@t_overflowing_uwide) (@smul_overflowing_ulimb) (@smul_overflowing_uwide). Qed.
Theorem C111_mul_overflowing_iscalar_i64 : forall limb32 p64 (c : Cfg) pw fuel d, W = limb_bits limb32 p64 -> 32 <= pw -> forall x y,
  (1 <= len x)%nat -> digits W x -> Z.of_nat (len x) < 2 ^ 31 -> (2 * len x + 1 < fuel)%nat ->
  run pw fuel (6 + d) (prog_mul limb32 p64) "overflowing_iscalar_i64" [] [arr x; VI (IS 64) y] =
  let* (l, b) := (if limb_bits limb32 p64 =? 64 then smul_overflowing_ilimb x y else smul_overflowing_iwide x y) in
  Ok (VT [arr l; VB b]).
Proof. top2 prog_mul_eq (@t_overflowing_ilimb) (@t_overflowing_iwide) (@smul_overflowing_ilimb) (@smul_overflowing_iwide). Qed.

(** ** Assumptions (each must print "Closed under the global context") *)

Print Assumptions C111_mul_wrapping_unsigned.
Print Assumptions C111_mul_wrapping_limb.
Print Assumptions C111_mul_wrapping_wide.
Print Assumptions C111_mul_wrapping_signed.
Print Assumptions C111_mul_wrapping_ulimb.
Print Assumptions C111_mul_wrapping_ilimb.
Print Assumptions C111_mul_wrapping_uwide.
Print Assumptions C111_mul_wrapping_iwide.
Print Assumptions C111_mul_overflowing_unsigned.
Print Assumptions C111_mul_overflowing_limb.
Print Assumptions C111_mul_overflowing_wide.
Print Assumptions C111_mul_overflowing_signed.
Print Assumptions C111_mul_overflowing_ulimb.
Print Assumptions C111_mul_overflowing_ilimb.
Print Assumptions C111_mul_overflowing_uwide.
Print Assumptions C111_mul_overflowing_iwide.
Print Assumptions C111_mul_widening.
Print Assumptions C111_mul_wrapping_scalar_u64.
Print Assumptions C111_mul_wrapping_uscalar_i64.
Print Assumptions C111_mul_wrapping_iscalar_i64.
Print Assumptions C111_mul_overflowing_scalar_u64.
Print Assumptions C111_mul_overflowing_uscalar_i64.
Print Assumptions C111_mul_overflowing_iscalar_i64.
