(** * Properties: addition, subtraction, multiplication, negation (C01-C06, C48)

    Every statement is about an arbitrary configuration [c] (limb width, number
    of limbs, overflow-check setting) satisfying [Valid].  Examples run the
    model on concrete values; [ofZ v] is the stored form of [v], well formed by
    [wf_ofZ], and the example configurations are [Valid] (PRet.v). *)

Require Import ZArith List Bool Lia.
From Verif Require Import Prim Spec Facts MAdd MMul MShift MCore PCore PBits PWide MArith PArith PArith2 PPow PMisc PRet.
Import ListNotations.
Local Open Scope Z_scope.

Notation E64 := (@ofZ c256_64).
Notation E32 := (@ofZ c256_32).
Notation E384 := (@ofZ c384_64).
Notation E512 := (@ofZ c512_32).
Example ex_hyps : (@Valid c256_64 /\ forall v, @wf c256_64 (E64 v)) /\ (@Valid c256_32 /\ forall v, @wf c256_32 (E32 v)) /\
  (@Valid c384_64 /\ forall v, @wf c384_64 (E384 v)) /\ (@Valid c512_32 /\ forall v, @wf c512_32 (E512 v)).
Proof.
  split; [split; [exact valid_c256_64|intro; exact (wf_ofZ valid_c256_64 _)]|].
  split; [split; [exact valid_c256_32|intro; exact (wf_ofZ valid_c256_32 _)]|].
  split; [split; [exact valid_c384_64|intro; exact (wf_ofZ valid_c384_64 _)]|].
  split; [exact valid_c512_32|intro; exact (wf_ofZ valid_c512_32 _)].
Qed.

(** ** C01: unsigned wrapping arithmetic *)

Theorem C01_wrapping_add : forall (c : Cfg) x y, Valid -> wf x -> wf y ->
  returns_u (wrapping_add false x y) ((uval x + uval y) mod 2 ^ BITS).
Proof. intros c x y HV Hx Hy. exact (retU HV _ _ (wrapping_add_ok HV false x y Hx Hy)). Qed.
Theorem C01_wrapping_sub : forall (c : Cfg) x y, Valid -> wf x -> wf y ->
  returns_u (wrapping_sub false x y) ((uval x - uval y) mod 2 ^ BITS).
Proof. intros c x y HV Hx Hy. exact (retU HV _ _ (wrapping_sub_ok HV false x y Hx Hy)). Qed.
Theorem C01_wrapping_mul : forall (c : Cfg) x y, Valid -> wf x -> wf y ->
  returns_u (wrapping_mul false x y) ((uval x * uval y) mod 2 ^ BITS).
Proof. intros c x y HV Hx Hy. exact (retU HV _ _ (wrapping_mul_ok HV false x y Hx Hy)). Qed.
Theorem C01_wrapping_neg : forall (c : Cfg) x, Valid -> wf x ->
  returns_u (u_wrapping_neg x) ((- uval x) mod 2 ^ BITS).
Proof. intros c x HV Hx. exact (retU HV _ _ (u_wrapping_neg_ok HV x Hx)). Qed.
Example C01_ex1 : @wrapping_add c256_64 false (E64 (2 ^ 256 - 1)) (E64 (2 ^ 192 + 5)) = Ok (E64 (2 ^ 192 + 4)).
Proof. vm_compute. reflexivity. Qed.
Example C01_ex2 : @wrapping_sub c256_32 false (E32 3) (E32 (2 ^ 200)) = Ok (E32 (2 ^ 256 + 3 - 2 ^ 200)).
Proof. vm_compute. reflexivity. Qed.
Example C01_ex3 : @wrapping_mul c384_64 false (E384 (2 ^ 200 + 7)) (E384 (2 ^ 190 + 9)) = Ok (E384 ((2 ^ 200 + 7) * (2 ^ 190 + 9))).
Proof. vm_compute. reflexivity. Qed.
Example C01_ex4 : @u_wrapping_neg c512_32 (E512 (2 ^ 64)) = Ok (E512 (2 ^ 512 - 2 ^ 64)).
Proof. vm_compute. reflexivity. Qed.

(** ** C02: unsigned overflow detection in addition and subtraction *)

Theorem C02_overflowing_add : forall (c : Cfg) x y, Valid -> wf x -> wf y ->
  returns_u_flag (overflowing_add false x y) ((uval x + uval y) mod 2 ^ BITS) (~ fits_u BITS (uval x + uval y)).
Proof. intros c x y HV Hx Hy. exact (flagU HV _ _ (overflowing_add_ok HV false x y Hx Hy)). Qed.
Theorem C02_overflowing_sub : forall (c : Cfg) x y, Valid -> wf x -> wf y ->
  returns_u_flag (overflowing_sub false x y) ((uval x - uval y) mod 2 ^ BITS) (~ fits_u BITS (uval x - uval y)).
Proof. intros c x y HV Hx Hy. exact (flagU HV _ _ (overflowing_sub_ok HV false x y Hx Hy)). Qed.
Theorem C02_checked_add : forall (c : Cfg) x y, Valid -> wf x -> wf y ->
  returns_u_opt (checked_add false x y) (fits_u BITS (uval x + uval y)) (uval x + uval y).
Proof. intros c x y HV Hx Hy. exact (optU HV _ _ (checked_add_ok HV false x y Hx Hy)). Qed.
Theorem C02_checked_sub : forall (c : Cfg) x y, Valid -> wf x -> wf y ->
  returns_u_opt (checked_sub false x y) (fits_u BITS (uval x - uval y)) (uval x - uval y).
Proof. intros c x y HV Hx Hy. exact (optU HV _ _ (checked_sub_ok HV false x y Hx Hy)). Qed.
Theorem C02_checked_neg : forall (c : Cfg) x, Valid -> wf x -> returns_u_opt (u_checked_neg x) (uval x = 0) 0.
Proof.
  intros c x HV Hx. rewrite (u_checked_neg_ok HV) by auto. destruct (Z.eqb_spec (uval x) 0) as [E|E]; [left|right]; split; auto.
  exists (ofZ 0). split; auto. split; [apply (wf_ofZ HV)|apply (uval_lit HV); lia].
Qed.
Theorem C02_strict_add : forall (c : Cfg) x y, Valid -> wf x -> wf y ->
  returns_u_or_panics (strict_add false x y) (fits_u BITS (uval x + uval y)) (uval x + uval y).
Proof. intros c x y HV Hx Hy. exact (panU HV _ _ (strict_add_ok HV false x y Hx Hy)). Qed.
Theorem C02_strict_sub : forall (c : Cfg) x y, Valid -> wf x -> wf y ->
  returns_u_or_panics (strict_sub false x y) (fits_u BITS (uval x - uval y)) (uval x - uval y).
Proof. intros c x y HV Hx Hy. exact (panU HV _ _ (strict_sub_ok HV false x y Hx Hy)). Qed.
Theorem C02_saturating_add : forall (c : Cfg) x y, Valid -> wf x -> wf y ->
  returns_u (u_saturating_add x y) (Z.max 0 (Z.min (2 ^ BITS - 1) (uval x + uval y))).
Proof. intros c x y HV Hx Hy. exact (satU HV _ _ (u_saturating_add_ok HV x y Hx Hy)). Qed.
Theorem C02_saturating_sub : forall (c : Cfg) x y, Valid -> wf x -> wf y ->
  returns_u (u_saturating_sub x y) (Z.max 0 (Z.min (2 ^ BITS - 1) (uval x - uval y))).
Proof. intros c x y HV Hx Hy. exact (satU HV _ _ (u_saturating_sub_ok HV x y Hx Hy)). Qed.
Example C02_ex1 : @overflowing_add c256_32 false (E32 (2 ^ 256 - 1)) (E32 1) = Ok (E32 0, true)
  /\ @overflowing_add c256_32 false (E32 (2 ^ 255)) (E32 (2 ^ 255 - 1)) = Ok (E32 (2 ^ 256 - 1), false).
Proof. vm_compute. auto. Qed.
Example C02_ex2 : @overflowing_sub c256_64 false (E64 0) (E64 1) = Ok (E64 (2 ^ 256 - 1), true).
Proof. vm_compute. auto. Qed.
Example C02_ex3 : @checked_add c256_64 false (E64 (2 ^ 256 - 1)) (E64 1) = Ok None
  /\ @checked_sub c256_64 false (E64 (2 ^ 256 - 1)) (E64 (2 ^ 256 - 1)) = Ok (Some (E64 0))
  /\ @u_checked_neg c256_64 (E64 0) = Ok (Some (E64 0)).
Proof. vm_compute. auto. Qed.
Example C02_ex4 : @strict_add c384_64 false (E384 (2 ^ 384 - 1)) (E384 1) = Panic
  /\ @strict_sub c384_64 false (E384 (2 ^ 384 - 1)) (E384 1) = Ok (E384 (2 ^ 384 - 2)).
Proof. vm_compute. auto. Qed.
Example C02_ex5 : @u_saturating_add c256_64 (E64 (2 ^ 256 - 1)) (E64 77) = Ok (E64 (2 ^ 256 - 1))
  /\ @u_saturating_sub c256_64 (E64 5) (E64 77) = Ok (E64 0).
Proof. vm_compute. auto. Qed.

(** ** C03: unsigned overflow detection in multiplication *)

Theorem C03_overflowing_mul : forall (c : Cfg) x y, Valid -> wf x -> wf y ->
  returns_u_flag (overflowing_mul false x y) ((uval x * uval y) mod 2 ^ BITS) (~ fits_u BITS (uval x * uval y)).
Proof. intros c x y HV Hx Hy. exact (flagU HV _ _ (overflowing_mul_ok HV false x y Hx Hy)). Qed.
Theorem C03_checked_mul : forall (c : Cfg) x y, Valid -> wf x -> wf y ->
  returns_u_opt (checked_mul false x y) (fits_u BITS (uval x * uval y)) (uval x * uval y).
Proof.
  intros c x y HV Hx Hy. apply (optU HV). rewrite (checked_mul_ok HV) by auto. rewrite mulf_u, negb_involutive. reflexivity.
Qed.
Theorem C03_strict_mul : forall (c : Cfg) x y, Valid -> wf x -> wf y ->
  returns_u_or_panics (strict_mul false x y) (fits_u BITS (uval x * uval y)) (uval x * uval y).
Proof.
  intros c x y HV Hx Hy. apply (panU HV). rewrite (strict_mul_ok HV) by auto. rewrite mulf_u, negb_involutive. reflexivity.
Qed.
Theorem C03_saturating_mul : forall (c : Cfg) x y, Valid -> wf x -> wf y ->
  returns_u (u_saturating_mul x y) (Z.max 0 (Z.min (2 ^ BITS - 1) (uval x * uval y))).
Proof. intros c x y HV Hx Hy. exact (satU HV _ _ (u_saturating_mul_ok HV x y Hx Hy)). Qed.
Example C03_ex1 : @overflowing_mul c256_64 false (E64 (2 ^ 128)) (E64 (2 ^ 128)) = Ok (E64 0, true)
  /\ @overflowing_mul c256_64 false (E64 (2 ^ 128 - 1)) (E64 (2 ^ 128 + 1)) = Ok (E64 (2 ^ 256 - 1), false).
Proof. vm_compute. auto. Qed.
Example C03_ex2 : @checked_mul c256_32 false (E32 (2 ^ 255 + 1)) (E32 2) = Ok None
  /\ @checked_mul c256_32 false (E32 (2 ^ 250 + 1)) (E32 63) = Ok (Some (E32 ((2 ^ 250 + 1) * 63))).
Proof. vm_compute. auto. Qed.
Example C03_ex3 : @strict_mul c256_64 false (E64 (2 ^ 200)) (E64 (2 ^ 56)) = Panic
  /\ @u_saturating_mul c256_64 (E64 (2 ^ 200)) (E64 (2 ^ 56)) = Ok (E64 (2 ^ 256 - 1)).
Proof. vm_compute. auto. Qed.

(** ** C04: signed wrapping arithmetic *)

Theorem C04_wrapping_add : forall (c : Cfg) x y, Valid -> wf x -> wf y ->
  returns_s (wrapping_add true x y) (swrap BITS (sval x + sval y)).
Proof. intros c x y HV Hx Hy. exact (retS HV _ _ (wrapping_add_ok HV true x y Hx Hy)). Qed.
Theorem C04_wrapping_sub : forall (c : Cfg) x y, Valid -> wf x -> wf y ->
  returns_s (wrapping_sub true x y) (swrap BITS (sval x - sval y)).
Proof. intros c x y HV Hx Hy. exact (retS HV _ _ (wrapping_sub_ok HV true x y Hx Hy)). Qed.
Theorem C04_wrapping_mul : forall (c : Cfg) x y, Valid -> wf x -> wf y ->
  returns_s (wrapping_mul true x y) (swrap BITS (sval x * sval y)).
Proof. intros c x y HV Hx Hy. exact (retS HV _ _ (wrapping_mul_ok HV true x y Hx Hy)). Qed.
Theorem C04_wrapping_neg : forall (c : Cfg) x, Valid -> wf x -> returns_s (s_wrapping_neg x) (swrap BITS (- sval x)).
Proof. intros c x HV Hx. exact (retS HV _ _ (s_wrapping_neg_ok HV x Hx)). Qed.
Theorem C04_wrapping_abs : forall (c : Cfg) x, Valid -> wf x -> returns_s (s_wrapping_abs x) (swrap BITS (Z.abs (sval x))).
Proof. intros c x HV Hx. exact (retS HV _ _ (s_wrapping_abs_ok HV x Hx)). Qed.
(** [swrap] is the unique representative: in range and congruent. *)
Theorem C04_swrap_unique : forall b v r, 1 <= b ->
  (swrap b v = r <-> - 2 ^ (b - 1) <= r < 2 ^ (b - 1) /\ exists k, v = r + k * 2 ^ b).
Proof.
  intros b v r Hb. split.
  - intros <-. split; [apply swrap_range; auto|]. destruct (swrap_cong b v Hb) as (k & E). exists (- k). rewrite E. ring.
  - intros (Hr & k & E). exact (swrap_unique b v r k Hb Hr E).
Qed.
Example C04_ex1 : @wrapping_add c256_64 true (E64 (2 ^ 255 - 1)) (E64 1) = Ok (E64 (- 2 ^ 255)).
Proof. vm_compute. auto. Qed.
Example C04_ex2 : @wrapping_sub c256_32 true (E32 (- 2 ^ 255)) (E32 1) = Ok (E32 (2 ^ 255 - 1)).
Proof. vm_compute. auto. Qed.
Example C04_ex3 : @wrapping_mul c384_64 true (E384 (- 3)) (E384 (2 ^ 200)) = Ok (E384 (- 3 * 2 ^ 200)).
Proof. vm_compute. auto. Qed.
Example C04_ex4 : @s_wrapping_neg c256_64 (E64 (- 2 ^ 255)) = Ok (E64 (- 2 ^ 255)) /\ @s_wrapping_abs c256_64 (E64 (- 5)) = Ok (E64 5).
Proof. vm_compute. auto. Qed.
Example C04_ex5 : swrap 8 200 = - 56.
Proof. reflexivity. Qed.

(** ** C05: signed overflow detection in addition and subtraction *)

Theorem C05_overflowing_add : forall (c : Cfg) x y, Valid -> wf x -> wf y ->
  returns_s_flag (overflowing_add true x y) (swrap BITS (sval x + sval y)) (~ fits_s BITS (sval x + sval y)).
Proof. intros c x y HV Hx Hy. exact (flagS HV _ _ (overflowing_add_ok HV true x y Hx Hy)). Qed.
Theorem C05_overflowing_sub : forall (c : Cfg) x y, Valid -> wf x -> wf y ->
  returns_s_flag (overflowing_sub true x y) (swrap BITS (sval x - sval y)) (~ fits_s BITS (sval x - sval y)).
Proof. intros c x y HV Hx Hy. exact (flagS HV _ _ (overflowing_sub_ok HV true x y Hx Hy)). Qed.
Theorem C05_overflowing_neg : forall (c : Cfg) x, Valid -> wf x ->
  returns_s_flag (s_overflowing_neg x) (swrap BITS (- sval x)) (~ fits_s BITS (- sval x)).
Proof. intros c x HV Hx. exact (flagS HV _ _ (s_overflowing_neg_ok HV x Hx)). Qed.
Theorem C05_checked_add : forall (c : Cfg) x y, Valid -> wf x -> wf y ->
  returns_s_opt (checked_add true x y) (fits_s BITS (sval x + sval y)) (sval x + sval y).
Proof. intros c x y HV Hx Hy. exact (optS HV _ _ (checked_add_ok HV true x y Hx Hy)). Qed.
Theorem C05_checked_sub : forall (c : Cfg) x y, Valid -> wf x -> wf y ->
  returns_s_opt (checked_sub true x y) (fits_s BITS (sval x - sval y)) (sval x - sval y).
Proof. intros c x y HV Hx Hy. exact (optS HV _ _ (checked_sub_ok HV true x y Hx Hy)). Qed.
Theorem C05_checked_neg : forall (c : Cfg) x, Valid -> wf x ->
  returns_s_opt (s_checked_neg x) (fits_s BITS (- sval x)) (- sval x).
Proof. intros c x HV Hx. exact (optS HV _ _ (s_checked_neg_ok HV x Hx)). Qed.
Theorem C05_strict_add : forall (c : Cfg) x y, Valid -> wf x -> wf y ->
  returns_s_or_panics (strict_add true x y) (fits_s BITS (sval x + sval y)) (sval x + sval y).
Proof. intros c x y HV Hx Hy. exact (panS HV _ _ (strict_add_ok HV true x y Hx Hy)). Qed.
Theorem C05_strict_sub : forall (c : Cfg) x y, Valid -> wf x -> wf y ->
  returns_s_or_panics (strict_sub true x y) (fits_s BITS (sval x - sval y)) (sval x - sval y).
Proof. intros c x y HV Hx Hy. exact (panS HV _ _ (strict_sub_ok HV true x y Hx Hy)). Qed.
Theorem C05_strict_neg : forall (c : Cfg) x, Valid -> wf x ->
  returns_s_or_panics (s_strict_neg x) (fits_s BITS (- sval x)) (- sval x).
Proof. intros c x HV Hx. exact (panS HV _ _ (s_strict_neg_ok HV x Hx)). Qed.
Theorem C05_saturating_add : forall (c : Cfg) x y, Valid -> wf x -> wf y ->
  returns_s (s_saturating_add x y) (Z.max (- 2 ^ (BITS - 1)) (Z.min (2 ^ (BITS - 1) - 1) (sval x + sval y))).
Proof. intros c x y HV Hx Hy. exact (satS HV _ _ (s_saturating_add_ok HV x y Hx Hy)). Qed.
Theorem C05_saturating_sub : forall (c : Cfg) x y, Valid -> wf x -> wf y ->
  returns_s (s_saturating_sub x y) (Z.max (- 2 ^ (BITS - 1)) (Z.min (2 ^ (BITS - 1) - 1) (sval x - sval y))).
Proof. intros c x y HV Hx Hy. exact (satS HV _ _ (s_saturating_sub_ok HV x y Hx Hy)). Qed.
Theorem C05_saturating_neg : forall (c : Cfg) x, Valid -> wf x ->
  returns_s (s_saturating_neg x) (Z.max (- 2 ^ (BITS - 1)) (Z.min (2 ^ (BITS - 1) - 1) (- sval x))).
Proof. intros c x HV Hx. exact (satS HV _ _ (s_saturating_neg_ok HV x Hx)). Qed.
Example C05_ex1 : @overflowing_add c256_64 true (E64 (2 ^ 255 - 1)) (E64 1) = Ok (E64 (- 2 ^ 255), true)
  /\ @overflowing_add c256_64 true (E64 (- 1)) (E64 1) = Ok (E64 0, false).
Proof. vm_compute. auto. Qed.
Example C05_ex2 : @overflowing_sub c256_32 true (E32 0) (E32 (- 2 ^ 255)) = Ok (E32 (- 2 ^ 255), true)
  /\ @s_overflowing_neg c256_32 (E32 (- 2 ^ 255)) = Ok (E32 (- 2 ^ 255), true).
Proof. vm_compute. auto. Qed.
Example C05_ex3 : @checked_add c384_64 true (E384 (- 2 ^ 383)) (E384 (- 1)) = Ok None
  /\ @checked_sub c384_64 true (E384 (- 2 ^ 383)) (E384 (- 1)) = Ok (Some (E384 (1 - 2 ^ 383)))
  /\ @s_checked_neg c384_64 (E384 7) = Ok (Some (E384 (- 7))).
Proof. vm_compute. auto. Qed.
Example C05_ex4 : @strict_add c256_64 true (E64 (2 ^ 255 - 1)) (E64 1) = Panic /\ @strict_sub c256_64 true (E64 3) (E64 10) = Ok (E64 (- 7))
  /\ @s_strict_neg c256_64 (E64 (- 2 ^ 255)) = Panic.
Proof. vm_compute. auto. Qed.
Example C05_ex5 : @s_saturating_add c256_64 (E64 (- 2 ^ 255)) (E64 (- 3)) = Ok (E64 (- 2 ^ 255))
  /\ @s_saturating_sub c256_64 (E64 (2 ^ 254)) (E64 (- 2 ^ 255)) = Ok (E64 (2 ^ 255 - 1))
  /\ @s_saturating_neg c256_64 (E64 (- 2 ^ 255)) = Ok (E64 (2 ^ 255 - 1)).
Proof. vm_compute. auto. Qed.

(** ** C06: signed overflow detection in multiplication

    Full statement: the flag of [overflowing_mul true x y] is true exactly when
    [sval x * sval y] does not fit.  That is false of the code; what holds is
    that the wrapped value is always right, that a fitting product is never
    flagged, and that the flag misses exactly the negative products whose
    magnitude is above 2^(BITS-1) but below 2^(BITS-1) + 2^(BITS-W). *)

Theorem C06_overflowing_mul_refuted : exists (c : Cfg) x y, Valid /\ wf x /\ wf y /\
  ~ returns_s_flag (overflowing_mul true x y) (swrap BITS (sval x * sval y)) (~ fits_s BITS (sval x * sval y)).
Proof.
  exists c256_64, (E64 (2 ^ 254 + 1)), (E64 (- 2)). split; [apply valid_c256_64|]. split; [apply wf_ofZ, valid_c256_64|].
  split; [apply wf_ofZ, valid_c256_64|]. intros (r & f & E & _ & _ & F).
  assert (E' : @overflowing_mul c256_64 true (E64 (2 ^ 254 + 1)) (E64 (- 2)) = Ok (E64 (2 ^ 255 - 2), false)) by (vm_compute; reflexivity).
  rewrite E' in E. injection E as <- <-. assert (X : false = true); [|discriminate X]. apply F.
  intros (H & _). vm_compute in H. apply H. reflexivity.
Qed.
(** The same for the derived operations: a non-fitting product is returned as
    [Some], does not panic, is not saturated. *)
Theorem C06_checked_mul_refuted : exists (c : Cfg) x y, Valid /\ wf x /\ wf y /\
  ~ fits_s BITS (sval x * sval y) /\ (exists r, checked_mul true x y = Ok (Some r)) /\ (exists r, strict_mul true x y = Ok r)
  /\ (chk = true /\ exists r, op_mul true x y = Ok r)
  /\ ~ returns_s (s_saturating_mul x y) (- 2 ^ (BITS - 1)).
Proof.
  exists c256_64, (E64 (2 ^ 254 + 1)), (E64 (- 2)). split; [apply valid_c256_64|]. split; [apply wf_ofZ, valid_c256_64|].
  split; [apply wf_ofZ, valid_c256_64|]. split; [|split; [|split; [|split]]].
  - intros (H & _). vm_compute in H. apply H. reflexivity.
  - eexists. vm_compute. reflexivity.
  - eexists. vm_compute. reflexivity.
  - split; [reflexivity|]. eexists. vm_compute. reflexivity.
  - intros (r & E & _ & V).
    assert (E' : @s_saturating_mul c256_64 (E64 (2 ^ 254 + 1)) (E64 (- 2)) = Ok (E64 (2 ^ 255 - 2))) by (vm_compute; reflexivity).
    rewrite E' in E. injection E as <-. vm_compute in V. discriminate V.
Qed.
(** Exact description of the flag. *)
Theorem C06_overflowing_mul_partial : forall (c : Cfg) x y, Valid -> wf x -> wf y ->
  returns_s_flag (overflowing_mul true x y) (swrap BITS (sval x * sval y))
    (2 ^ (BITS - 1) <= sval x * sval y \/ sval x * sval y <= - (2 ^ (BITS - 1) + 2 ^ (BITS - W))).
Proof.
  intros c x y HV Hx Hy. exists (ofZ (sval x * sval y)), (ovf true (sval x * sval y)).
  split; [rewrite (overflowing_mul_ok HV), (mulf_ovf HV) by auto; reflexivity|].
  split; [apply (wf_ofZ HV)|]. split; [apply (sval_ofZ HV)|]. apply ovf_s_spec.
Qed.
(** Correct outside the window. *)
Theorem C06_checked_mul_partial : forall (c : Cfg) x y, Valid -> wf x -> wf y ->
  fits_s BITS (sval x * sval y) \/ 2 ^ (BITS - 1) <= sval x * sval y \/ sval x * sval y <= - (2 ^ (BITS - 1) + 2 ^ (BITS - W)) ->
  returns_s_opt (checked_mul true x y) (fits_s BITS (sval x * sval y)) (sval x * sval y) /\
  returns_s_or_panics (strict_mul true x y) (fits_s BITS (sval x * sval y)) (sval x * sval y) /\
  returns_s (s_saturating_mul x y) (Z.max (- 2 ^ (BITS - 1)) (Z.min (2 ^ (BITS - 1) - 1) (sval x * sval y))).
Proof.
  intros c x y HV Hx Hy H.
  assert (E : ovf true (sval x * sval y) = negb (fitsb true (sval x * sval y))).
  { destruct (fitsb_reflect true (sval x * sval y)) as [F|F]; [apply (ovf_fits HV); auto|].
    apply ovf_s_spec. destruct H as [H|H]; [contradiction|exact H]. }
  pose proof (checked_mul_ok HV true x y Hx Hy) as A. pose proof (strict_mul_ok HV true x y Hx Hy) as B.
  pose proof (s_saturating_mul_ok HV x y Hx Hy) as D. rewrite (mulf_ovf HV) in A, B, D. cbn [val] in A, B.
  rewrite E in A, B, D. rewrite negb_involutive in A, B.
  split; [exact (optS HV _ _ A)|]. split; [exact (panS HV _ _ B)|]. apply (satS HV). rewrite D. do 2 f_equal.
  destruct (fitsb_reflect true (sval x * sval y)) as [F|F]; cbn [negb]; auto. symmetry. apply clamp_fits. auto.
Qed.
Example C06_ex1 : @overflowing_mul c256_64 true (E64 (2 ^ 254)) (E64 2) = Ok (E64 (- 2 ^ 255), true)
  /\ @overflowing_mul c256_64 true (E64 (2 ^ 254)) (E64 (- 2)) = Ok (E64 (- 2 ^ 255), false)
  /\ @overflowing_mul c256_64 true (E64 (2 ^ 254)) (E64 (- 3)) = Ok (E64 (2 ^ 254), true).
Proof. vm_compute. auto. Qed.
Example C06_ex2 : @checked_mul c256_32 true (E32 (2 ^ 254)) (E32 (- 3)) = Ok None
  /\ @checked_mul c256_32 true (E32 (2 ^ 253)) (E32 (- 3)) = Ok (Some (E32 (- 3 * 2 ^ 253)))
  /\ @s_saturating_mul c256_32 (E32 (2 ^ 254)) (E32 (- 3)) = Ok (E32 (- 2 ^ 255)).
Proof. vm_compute. auto. Qed.

(** ** C48: algebraic laws, as equality of stored values

    [u] ranges over both types: [sg = false] unsigned, [sg = true] signed. *)

Theorem C48_add_comm : forall (c : Cfg) sg x y, Valid -> wf x -> wf y -> wrapping_add sg x y = wrapping_add sg y x.
Proof. intros c sg x y HV Hx Hy. rewrite !(wrapping_add_ok HV) by auto. do 2 f_equal. apply Z.add_comm. Qed.
Theorem C48_mul_comm : forall (c : Cfg) sg x y, Valid -> wf x -> wf y -> wrapping_mul sg x y = wrapping_mul sg y x.
Proof. intros c sg x y HV Hx Hy. rewrite !(wrapping_mul_ok HV) by auto. do 2 f_equal. apply Z.mul_comm. Qed.
Theorem C48_add_assoc : forall (c : Cfg) sg x y z, Valid -> wf x -> wf y -> wf z ->
  (let* s := wrapping_add sg x y in wrapping_add sg s z) = (let* s := wrapping_add sg y z in wrapping_add sg x s).
Proof.
  intros c sg x y z HV Hx Hy Hz. run. rewrite !(val_ofZ HV), (ofZ_add_l HV), (ofZ_add_r HV). do 2 f_equal. ring.
Qed.
Theorem C48_mul_assoc : forall (c : Cfg) sg x y z, Valid -> wf x -> wf y -> wf z ->
  (let* s := wrapping_mul sg x y in wrapping_mul sg s z) = (let* s := wrapping_mul sg y z in wrapping_mul sg x s).
Proof.
  intros c sg x y z HV Hx Hy Hz. run. rewrite !(val_ofZ HV), (ofZ_mul_l HV), (ofZ_mul_r HV). do 2 f_equal. ring.
Qed.
Theorem C48_distrib : forall (c : Cfg) sg x y z, Valid -> wf x -> wf y -> wf z ->
  (let* s := wrapping_add sg y z in wrapping_mul sg x s) =
  (let* a := wrapping_mul sg x y in let* b := wrapping_mul sg x z in wrapping_add sg a b).
Proof.
  intros c sg x y z HV Hx Hy Hz. run. rewrite !(val_ofZ HV), (ofZ_mul_r HV), (ofZ_add_l HV), (ofZ_add_r HV). do 2 f_equal. ring.
Qed.
Theorem C48_sub_add : forall (c : Cfg) sg x y, Valid -> wf x -> wf y ->
  (let* s := wrapping_add sg x y in wrapping_sub sg s y) = Ok x.
Proof.
  intros c sg x y HV Hx Hy. run. rewrite (val_ofZ HV), (ofZ_sub_l HV). f_equal.
  replace (val sg x + val sg y - val sg y) with (val sg x) by ring. apply (ofZ_val HV); auto.
Qed.
Theorem C48_neg_inverse : forall (c : Cfg) x, Valid -> wf x ->
  (let* n := u_wrapping_neg x in wrapping_add false x n) = Ok (ofZ 0) /\
  (let* n := s_wrapping_neg x in wrapping_add true x n) = Ok (ofZ 0) /\ uval (ofZ 0) = 0.
Proof.
  intros c x HV Hx. rewrite (u_wrapping_neg_ok HV), (s_wrapping_neg_ok HV) by auto. run.
  rewrite !(val_ofZ HV), !(ofZ_add_r HV). cbn [val]. rewrite !Z.add_opp_diag_r. repeat split.
Qed.
Theorem C48_sub_is_add_neg : forall (c : Cfg) x y, Valid -> wf x -> wf y ->
  (let* n := u_wrapping_neg y in wrapping_add false x n) = wrapping_sub false x y /\
  (let* n := s_wrapping_neg y in wrapping_add true x n) = wrapping_sub true x y.
Proof.
  intros c x y HV Hx Hy. rewrite (u_wrapping_neg_ok HV), (s_wrapping_neg_ok HV) by auto. run.
  rewrite !(val_ofZ HV), !(ofZ_add_r HV). cbn [val]. rewrite !Z.add_opp_r. auto.
Qed.
Theorem C48_units : forall (c : Cfg) sg x, Valid -> wf x ->
  (let* z := from_u8 0 in wrapping_add sg x z) = Ok x /\ (let* o := from_u8 1 in wrapping_mul sg x o) = Ok x
  /\ (let* z := from_u8 0 in wrapping_mul sg x z) = from_u8 0.
Proof.
  intros c sg x HV Hx. run. rewrite ?(val_lit HV sg 0), ?(val_lit HV sg 1) by lia.
  rewrite Z.add_0_r, Z.mul_1_r, Z.mul_0_r, (ofZ_val HV) by auto. auto.
Qed.
(** Signed and unsigned wrapping arithmetic act identically on the stored limbs. *)
Theorem C48_sign_agnostic : forall (c : Cfg) x y, Valid -> wf x -> wf y ->
  wrapping_add false x y = wrapping_add true x y /\ wrapping_sub false x y = wrapping_sub true x y
  /\ wrapping_mul false x y = wrapping_mul true x y.
Proof.
  intros c x y HV Hx Hy. rewrite !(wrapping_add_ok HV), !(wrapping_sub_ok HV), !(wrapping_mul_ok HV) by auto.
  cbn [val]. pose proof (ofZ_add_uval HV true x y Hx Hy) as A. pose proof (ofZ_sub_uval HV true x y Hx Hy) as B.
  pose proof (ofZ_mul_uval HV true x y Hx Hy) as D. cbn [val] in *. rewrite A, B, D. auto.
Qed.
Example C48_ex1 : (let* s := @wrapping_add c256_64 true (E64 (2 ^ 255 - 1)) (E64 12) in @wrapping_sub c256_64 true s (E64 12)) = Ok (E64 (2 ^ 255 - 1)).
Proof. vm_compute. auto. Qed.
Example C48_ex2 : (let* s := @wrapping_add c256_32 false (E32 (2 ^ 255)) (E32 (2 ^ 255 + 3)) in @wrapping_mul c256_32 false (E32 (2 ^ 254 + 1)) s) =
  (let* a := @wrapping_mul c256_32 false (E32 (2 ^ 254 + 1)) (E32 (2 ^ 255)) in
   let* b := @wrapping_mul c256_32 false (E32 (2 ^ 254 + 1)) (E32 (2 ^ 255 + 3)) in @wrapping_add c256_32 false a b).
Proof. vm_compute. auto. Qed.

(** ** Assumptions (each must print "Closed under the global context") *)

Print Assumptions C01_wrapping_add.
Print Assumptions C01_wrapping_sub.
Print Assumptions C01_wrapping_mul.
Print Assumptions C01_wrapping_neg.
Print Assumptions C02_overflowing_add.
Print Assumptions C02_overflowing_sub.
Print Assumptions C02_checked_add.
Print Assumptions C02_checked_sub.
Print Assumptions C02_checked_neg.
Print Assumptions C02_strict_add.
Print Assumptions C02_strict_sub.
Print Assumptions C02_saturating_add.
Print Assumptions C02_saturating_sub.
Print Assumptions C03_overflowing_mul.
Print Assumptions C03_checked_mul.
Print Assumptions C03_strict_mul.
Print Assumptions C03_saturating_mul.
Print Assumptions C04_wrapping_add.
Print Assumptions C04_wrapping_sub.
Print Assumptions C04_wrapping_mul.
Print Assumptions C04_wrapping_neg.
Print Assumptions C04_wrapping_abs.
Print Assumptions C04_swrap_unique.
Print Assumptions C05_overflowing_add.
Print Assumptions C05_overflowing_sub.
Print Assumptions C05_overflowing_neg.
Print Assumptions C05_checked_add.
Print Assumptions C05_checked_sub.
Print Assumptions C05_checked_neg.
Print Assumptions C05_strict_add.
Print Assumptions C05_strict_sub.
Print Assumptions C05_strict_neg.
Print Assumptions C05_saturating_add.
Print Assumptions C05_saturating_sub.
Print Assumptions C05_saturating_neg.
Print Assumptions C06_overflowing_mul_refuted.
Print Assumptions C06_checked_mul_refuted.
Print Assumptions C06_overflowing_mul_partial.
Print Assumptions C06_checked_mul_partial.
Print Assumptions C48_add_comm.
Print Assumptions C48_mul_comm.
Print Assumptions C48_add_assoc.
Print Assumptions C48_mul_assoc.
Print Assumptions C48_distrib.
Print Assumptions C48_sub_add.
Print Assumptions C48_neg_inverse.
Print Assumptions C48_sub_is_add_neg.
Print Assumptions C48_units.
Print Assumptions C48_sign_agnostic.
