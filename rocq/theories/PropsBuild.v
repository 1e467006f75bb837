(** * Properties: what the overflow-check setting changes (C59)

    [debug c] and [release c] are the same build with overflow checks on and
    off.  The setting reaches the code in two ways: the operators and inherent
    methods test it ([cfg!(have_overflow_checks)]), and every primitive [+], [-],
    [*], [<<], [>>] inside the crate panics or wraps according to it.  The
    theorems say that the second way never shows, and that the first only turns
    answers into panics. *)

Require Import ZArith List Bool Lia.
From Verif Require Import Prim Spec Facts MAdd MMul MShift MCore PCore PBits PWide MArith PArith PArith2 PPow PMisc PBits2 PRot PRet
  MDiv DivSpec MApi PApi PApi2 PApi3 PIlog MScalar PScalar PScalarDiv TextSpec MParse PParse MWrite PWrite PWrite2 PParse2 PropsParse PropsWrite MTraits PTraits PropsDiv PropsCoherent.
Import ListNotations.
Local Open Scope Z_scope.

(** ** Vocabulary *)

Definition with_checks (b : bool) (c : Cfg) : Cfg := {| W := @W c; N := @N c; chk := b; dbg := @dbg c |}.
Definition debug : Cfg -> Cfg := with_checks true.
Definition release : Cfg -> Cfg := with_checks false.

(** The same result in both builds. *)
Definition steady1 {A} (c : Cfg) (f : forall c : Cfg, list Z -> res A) : Prop :=
  forall x, @wf c x -> f (debug c) x = f (release c) x.
Definition steady2 {A} (c : Cfg) (f : forall c : Cfg, list Z -> list Z -> res A) : Prop :=
  forall x y, @wf c x -> @wf c y -> f (debug c) x y = f (release c) x y.
(** Checks on: the same result, or a panic. *)
Definition only_panics {A} (d r : res A) : Prop := d = r \/ d = Panic.
Definition guarded1 {A} (c : Cfg) (f : forall c : Cfg, list Z -> res A) : Prop :=
  forall x, @wf c x -> only_panics (f (debug c) x) (f (release c) x).
Definition guarded2 {A} (c : Cfg) (f : forall c : Cfg, list Z -> list Z -> res A) : Prop :=
  forall x y, @wf c x -> @wf c y -> only_panics (f (debug c) x y) (f (release c) x y).

Ltac side := first [assumption | lia | exact (fun x => x)].
Ltac st1 L := match goal with HV : Valid |- @steady1 _ ?c _ =>
  let x := fresh "x" in let Hx := fresh "Hx" in intros x Hx;
  rewrite (L (debug c) HV) by side; rewrite (L (release c) HV) by side; reflexivity end.
Ltac st2 L := match goal with HV : Valid |- @steady2 _ ?c _ =>
  let x := fresh "x" in let y := fresh "y" in let Hx := fresh "Hx" in let Hy := fresh "Hy" in intros x y Hx Hy;
  rewrite (L (debug c) HV) by side; rewrite (L (release c) HV) by side; reflexivity end.
Ltac gfin := unfold op_result, opd; cbn [chk debug release with_checks andb];
  match goal with
  | |- only_panics (if ?b then Panic else _) _ => destruct b; [right|left]; reflexivity
  end.
Ltac gu1 L := match goal with HV : Valid |- @guarded1 _ ?c _ =>
  let x := fresh "x" in let Hx := fresh "Hx" in intros x Hx;
  rewrite (L (debug c) HV) by side; rewrite (L (release c) HV) by side; gfin end.
Ltac gu2 L := match goal with HV : Valid |- @guarded2 _ ?c _ =>
  let x := fresh "x" in let y := fresh "y" in let Hx := fresh "Hx" in let Hy := fresh "Hy" in intros x y Hx Hy;
  rewrite (L (debug c) HV) by side; rewrite (L (release c) HV) by side; gfin end.

(** ** C59: the named forms do not depend on the setting *)

Theorem C59_arith : forall (c : Cfg) sg, Valid ->
  steady2 c (fun c => @wrapping_add c sg) /\ steady2 c (fun c => @wrapping_sub c sg) /\
  steady2 c (fun c => @wrapping_mul c sg) /\ steady2 c (fun c => @overflowing_add c sg) /\
  steady2 c (fun c => @overflowing_sub c sg) /\ steady2 c (fun c => @overflowing_mul c sg) /\
  steady2 c (fun c => @checked_add c sg) /\ steady2 c (fun c => @checked_sub c sg) /\ steady2 c (fun c => @checked_mul c sg) /\
  steady2 c (fun c => @strict_add c sg) /\ steady2 c (fun c => @strict_sub c sg) /\ steady2 c (fun c => @strict_mul c sg) /\
  steady2 c (fun c => @abs_diff c sg) /\ steady2 c (@u_saturating_add) /\ steady2 c (@u_saturating_sub) /\
  steady2 c (@u_saturating_mul) /\ steady2 c (@s_saturating_add) /\ steady2 c (@s_saturating_sub) /\
  steady2 c (@s_saturating_mul) /\ steady2 c (@u_wrapping_add_signed) /\ steady2 c (@u_overflowing_add_signed) /\
  steady2 c (@u_overflowing_sub_signed) /\ steady2 c (@u_checked_add_signed) /\ steady2 c (@u_strict_add_signed) /\
  steady2 c (@u_saturating_add_signed) /\ steady2 c (@u_checked_signed_diff) /\ steady2 c (@s_wrapping_sub_unsigned) /\
  steady2 c (@s_overflowing_add_unsigned) /\ steady2 c (@s_overflowing_sub_unsigned) /\ steady2 c (@s_checked_add_unsigned) /\
  steady2 c (@s_checked_sub_unsigned) /\ steady2 c (@s_strict_add_unsigned) /\ steady2 c (@s_strict_sub_unsigned) /\
  steady2 c (@s_saturating_add_unsigned) /\ steady2 c (@s_saturating_sub_unsigned) /\ steady2 c (@widening_mul) /\
  steady2 c (@high_mul) /\ steady2 c (@u_midpoint) /\ steady2 c (@s_midpoint).
Proof.
  intros.
  split; [st2 @wrapping_add_ok|].
  split; [st2 @wrapping_sub_ok|].
  split; [st2 @wrapping_mul_ok|].
  split; [st2 @overflowing_add_ok|].
  split; [st2 @overflowing_sub_ok|].
  split; [st2 @overflowing_mul_ok|].
  split; [st2 @checked_add_ok|].
  split; [st2 @checked_sub_ok|].
  split; [st2 @checked_mul_ok|].
  split; [st2 @strict_add_ok|].
  split; [st2 @strict_sub_ok|].
  split; [st2 @strict_mul_ok|].
  split; [st2 @abs_diff_ok|].
  split; [st2 @u_saturating_add_ok|].
  split; [st2 @u_saturating_sub_ok|].
  split; [st2 @u_saturating_mul_ok|].
  split; [st2 @s_saturating_add_ok|].
  split; [st2 @s_saturating_sub_ok|].
  split; [st2 @s_saturating_mul_ok|].
  split; [st2 @u_wrapping_add_signed_ok|].
  split; [st2 @u_overflowing_add_signed_ok|].
  split; [st2 @u_overflowing_sub_signed_ok|].
  split; [st2 @u_checked_add_signed_ok|].
  split; [st2 @u_strict_add_signed_ok|].
  split; [st2 @u_saturating_add_signed_ok|].
  split; [st2 @u_checked_signed_diff_ok|].
  split; [st2 @s_wrapping_sub_unsigned_ok|].
  split; [st2 @s_overflowing_add_unsigned_ok|].
  split; [st2 @s_overflowing_sub_unsigned_ok|].
  split; [st2 @s_checked_add_unsigned_ok|].
  split; [st2 @s_checked_sub_unsigned_ok|].
  split; [st2 @s_strict_add_unsigned_ok|].
  split; [st2 @s_strict_sub_unsigned_ok|].
  split; [st2 @s_saturating_add_unsigned_ok|].
  split; [st2 @s_saturating_sub_unsigned_ok|].
  split; [st2 @widening_mul_ok|].
  split; [st2 @high_mul_ok|].
  split; [st2 @u_midpoint_ok|].
  st2 @s_midpoint_ok.
Qed.
Theorem C59_unary : forall (c : Cfg), Valid ->
  steady1 c (@u_wrapping_neg) /\ steady1 c (@u_checked_neg) /\ steady1 c (@s_wrapping_neg) /\ steady1 c (@s_overflowing_neg) /\
  steady1 c (@s_checked_neg) /\ steady1 c (@s_strict_neg) /\ steady1 c (@s_saturating_neg) /\ steady1 c (@s_wrapping_abs) /\
  steady1 c (@s_overflowing_abs) /\ steady1 c (@s_checked_abs) /\ steady1 c (@s_strict_abs) /\ steady1 c (@s_abs) /\
  steady1 c (@s_saturating_abs) /\ steady1 c (@unsigned_abs) /\ steady1 c (@signum) /\ steady1 c (@not_const) /\
  steady1 c (@count_ones) /\ steady1 c (@count_zeros) /\ steady1 c (@leading_zeros) /\ steady1 c (@wrapping_next_power_of_two) /\ steady1 c (@checked_next_power_of_two) /\ steady1 c (@low) /\ steady1 c (@high).
Proof.
  intros.
  split; [st1 @u_wrapping_neg_ok|].
  split; [st1 @u_checked_neg_ok|].
  split; [st1 @s_wrapping_neg_ok|].
  split; [st1 @s_overflowing_neg_ok|].
  split; [st1 @s_checked_neg_ok|].
  split; [st1 @s_strict_neg_ok|].
  split; [st1 @s_saturating_neg_ok|].
  split; [st1 @s_wrapping_abs_ok|].
  split; [st1 @s_overflowing_abs_ok|].
  split; [st1 @s_checked_abs_ok|].
  split; [st1 @s_strict_abs_ok|].
  split; [st1 @s_abs_ok|].
  split; [st1 @s_saturating_abs_ok|].
  split; [st1 @unsigned_abs_ok|].
  split; [st1 @signum_ok|].
  split; [st1 @not_const_ok|].
  split; [st1 @count_ones_ok|].
  split; [st1 @count_zeros_ok|].
  split; [st1 @leading_zeros_ok|].
  split; [st1 @wrapping_next_power_of_two_ok|].
  split; [st1 @checked_next_power_of_two_ok|].
  split; [st1 @low_ok|].
  st1 @high_ok.
Qed.
Theorem C59_pow_shift : forall (c : Cfg) sg e, Valid -> 0 <= e < 2 ^ 32 ->
  steady1 c (fun c x => @wrapping_pow c sg x e) /\ steady1 c (fun c x => @overflowing_pow c sg x e) /\
  steady1 c (fun c x => @checked_pow c sg x e) /\ steady1 c (fun c x => @strict_pow c sg x e) /\
  steady1 c (fun c x => @u_saturating_pow c x e) /\ steady1 c (fun c x => @s_saturating_pow c x e) /\
  steady1 c (fun c x => @wrapping_shl c x e) /\ steady1 c (fun c x => @wrapping_shr c sg x e) /\
  steady1 c (fun c x => @checked_shl c x e) /\ steady1 c (fun c x => @checked_shr c sg x e) /\
  steady1 c (fun c x => @strict_shl c x e) /\ steady1 c (fun c x => @strict_shr c sg x e) /\
  steady1 c (fun c x => @unbounded_shl c x e) /\ steady1 c (fun c x => @unbounded_shr c sg x e) /\
  steady1 c (fun c x => @s_overflowing_shl c x e) /\ steady1 c (fun c x => @s_overflowing_shr c x e) /\
  steady1 c (fun c x => @rotate_left c x e) /\ steady1 c (fun c x => @rotate_right c x e).
Proof.
  intros.
  split; [st1 @wrapping_pow_ok|].
  split; [st1 @overflowing_pow_ok|].
  split; [st1 @checked_pow_ok|].
  split; [st1 @strict_pow_ok|].
  split; [st1 @u_saturating_pow_ok|].
  split; [st1 @s_saturating_pow_ok|].
  split; [st1 @wrapping_shl_ok|].
  split; [st1 @wrapping_shr_ok|].
  split; [st1 @checked_shl_ok|].
  split; [st1 @checked_shr_ok|].
  split; [st1 @strict_shl_ok|].
  split; [st1 @strict_shr_ok|].
  split; [st1 @unbounded_shl_ok|].
  split; [st1 @unbounded_shr_ok|].
  split; [st1 @s_overflowing_shl_ok|].
  split; [st1 @s_overflowing_shr_ok|].
  split; [st1 @rotate_left_ok|].
  st1 @rotate_right_ok.
Qed.
Theorem C59_compare : forall (c : Cfg) sg, Valid ->
  steady2 c (@bitand_const) /\ steady2 c (@bitor_const) /\ steady2 c (@bitxor_const) /\ steady2 c (@eq_const) /\
  steady2 c (fun c => @lt_const c sg) /\ steady2 c (fun c => @le_const c sg) /\ steady2 c (fun c => @gt_const c sg) /\
  steady2 c (fun c => @ge_const c sg) /\ steady2 c (fun c => @cmp_const c sg).
Proof.
  intros.
  split; [st2 @bitand_ok|].
  split; [st2 @bitor_ok|].
  split; [st2 @bitxor_ok|].
  split; [st2 @eq_const_ok|].
  split; [st2 @lt_const_ok|].
  split; [st2 @le_const_ok|].
  split; [st2 @gt_const_ok|].
  split; [st2 @ge_const_ok|].
  st2 @cmp_const_ok.
Qed.
Theorem C59_div : forall (c : Cfg) sg, Valid ->
  steady2 c (fun c => @wrapping_div_rem c sg) /\ steady2 c (fun c => @wrapping_div c sg) /\
  steady2 c (fun c => @wrapping_rem c sg) /\ steady2 c (fun c => @wrapping_div_euclid c sg) /\
  steady2 c (fun c => @wrapping_rem_euclid c sg) /\ steady2 c (fun c => @overflowing_div_rem c sg) /\
  steady2 c (fun c => @overflowing_div c sg) /\ steady2 c (fun c => @overflowing_rem c sg) /\
  steady2 c (fun c => @overflowing_div_euclid c sg) /\ steady2 c (fun c => @overflowing_rem_euclid c sg) /\
  steady2 c (fun c => @checked_div_rem c sg) /\ steady2 c (fun c => @checked_div c sg) /\
  steady2 c (fun c => @checked_rem c sg) /\ steady2 c (fun c => @checked_div_euclid c sg) /\
  steady2 c (fun c => @checked_rem_euclid c sg) /\ steady2 c (fun c => @strict_div c sg) /\
  steady2 c (fun c => @strict_rem c sg) /\ steady2 c (fun c => @strict_div_euclid c sg) /\
  steady2 c (fun c => @strict_rem_euclid c sg) /\ steady2 c (fun c => @saturating_div c sg).
Proof.
  intros.
  split; [st2 @wrapping_div_rem_ok|].
  split; [st2 @wrapping_div_ok|].
  split; [st2 @wrapping_rem_ok|].
  split; [st2 @wrapping_div_euclid_ok|].
  split; [st2 @wrapping_rem_euclid_ok|].
  split; [st2 @overflowing_div_rem_ok|].
  split; [st2 @overflowing_div_ok|].
  split; [st2 @overflowing_rem_ok|].
  split; [st2 @overflowing_div_euclid_ok|].
  split; [st2 @overflowing_rem_euclid_ok|].
  split; [st2 @checked_div_rem_ok|].
  split; [st2 @checked_div_ok|].
  split; [st2 @checked_rem_ok|].
  split; [st2 @checked_div_euclid_ok|].
  split; [st2 @checked_rem_euclid_ok|].
  split; [st2 @strict_div_ok|].
  split; [st2 @strict_rem_ok|].
  split; [st2 @strict_div_euclid_ok|].
  split; [st2 @strict_rem_euclid_ok|].
  st2 @saturating_div_ok.
Qed.
(** ** C59: the operators only gain panics *)

Theorem C59_operators : forall (c : Cfg) sg, Valid ->
  guarded2 c (fun c => @op_add c sg) /\ guarded2 c (fun c => @op_sub c sg) /\ guarded2 c (fun c => @op_mul c sg) /\
  guarded2 c (fun c => @op_div c sg) /\ guarded2 c (fun c => @op_rem c sg) /\ guarded2 c (fun c => @div_euclid c sg) /\
  guarded2 c (fun c => @rem_euclid c sg) /\ guarded2 c (fun c => @div_rem c sg).
Proof.
  intros.
  split; [gu2 @op_add_ok|].
  split; [gu2 @op_sub_ok|].
  split; [gu2 @op_mul_ok|].
  split; [gu2 @op_div_ok|].
  split; [gu2 @op_rem_ok|].
  split; [gu2 @div_euclid_ok|].
  split; [gu2 @rem_euclid_ok|].
  gu2 @div_rem_ok.
Qed.

Theorem C59_unary_operators : forall (c : Cfg), Valid ->
  guarded1 c (@op_neg) /\ guarded1 c (@next_power_of_two) /\
  (forall sg e, 0 <= e < 2 ^ 32 -> guarded1 c (fun c x => @pow c sg x e)).
Proof.
  intros. split; [gu1 @op_neg_ok|]. split; [gu1 @next_power_of_two_ok|]. intros sg e He. gu1 @pow_ok.
Qed.
Theorem C59_shift_operators : forall (c : Cfg) sg ps, Valid ->
  (forall pw o, 1 <= pw -> guarded1 c (fun c x => @op_shl c ps pw x o)) /\
  (forall pw o, 1 <= pw -> guarded1 c (fun c x => @op_shr c sg ps pw x o)) /\
  guarded2 c (fun c => @op_shl_big c ps) /\ guarded2 c (fun c => @op_shr_big c sg ps) /\
  steady2 c (@op_shl_self) /\ steady2 c (fun c => @op_shr_self c sg).
Proof.
  intros. split; [intros pw o Ho; gu1 @op_shl_ok|]. split; [intros pw o Ho; gu1 @op_shr_ok|].
  split; [gu2 @op_shl_big_ok|]. split; [gu2 @op_shr_big_ok|]. split; [st2 @op_shl_self_ok|st2 @op_shr_self_ok].
Qed.

(** ** C59: operations with a scalar *)

Theorem C59_scalar_u : forall (c : Cfg) o k sg x n, Valid -> wf x -> fits_u (kbits k) n ->
  @wrapping_us (debug c) o k sg x n = @wrapping_us (release c) o k sg x n /\
  @overflowing_us (debug c) o k sg x n = @overflowing_us (release c) o k sg x n /\
  @checked_us (debug c) o k sg x n = @checked_us (release c) o k sg x n /\
  only_panics (@plain_us (debug c) o k sg x n) (@plain_us (release c) o k sg x n).
Proof.
  intros c o k sg x n HV Hx Hn.
  assert (E : @wrapping_us (debug c) o k sg x n = @wrapping_us (release c) o k sg x n /\
              @overflowing_us (debug c) o k sg x n = @overflowing_us (release c) o k sg x n).
  { assert (D : (sg = true /\ swapped k) \/ (sg = true -> ~ swapped k)).
    { destruct sg; [|right; discriminate]. destruct (swapped_dec HV k); auto. }
    destruct D as [(-> & -> & E)|D].
    - destruct o.
      + destruct (@swapped_add (debug c) HV SAdd x n E Hx Hn ltac:(discriminate)) as (-> & ->).
        destruct (@swapped_add (release c) HV SAdd x n E Hx Hn ltac:(discriminate)) as (-> & ->). auto.
      + destruct (@swapped_add (debug c) HV SSub x n E Hx Hn ltac:(discriminate)) as (-> & ->).
        destruct (@swapped_add (release c) HV SSub x n E Hx Hn ltac:(discriminate)) as (-> & ->). auto.
      + destruct (@swapped_mul (debug c) HV x n E Hx Hn) as (-> & ->).
        destruct (@swapped_mul (release c) HV x n E Hx Hn) as (-> & ->). auto.
    - rewrite (@wrapping_us_ok (debug c) HV), (@wrapping_us_ok (release c) HV), (@overflowing_us_ok (debug c) HV), (@overflowing_us_ok (release c) HV) by side.
      auto. }
  destruct E as (E1 & E2). split; [exact E1|]. split; [exact E2|]. unfold checked_us, plain_us. cbn [chk debug release with_checks negb].
  unfold checked_us. rewrite E2. split; [reflexivity|].
  destruct (C58_scalar_u (release c) o k sg x n HV Hx Hn) as [(-> & -> & _)|(v & f & -> & -> & _)]; [left; reflexivity|].
  destruct f; [right|left]; reflexivity.
Qed.
Theorem C59_scalar_s : forall (c : Cfg) o k x n, Valid -> wf x -> fits_s (kbits k) n ->
  @wrapping_is (debug c) o k x n = @wrapping_is (release c) o k x n /\
  @overflowing_is (debug c) o k x n = @overflowing_is (release c) o k x n /\
  @checked_is (debug c) o k x n = @checked_is (release c) o k x n /\
  only_panics (@plain_is (debug c) o k x n) (@plain_is (release c) o k x n).
Proof.
  intros c o k x n HV Hx Hn.
  assert (E : @wrapping_is (debug c) o k x n = @wrapping_is (release c) o k x n /\
              @overflowing_is (debug c) o k x n = @overflowing_is (release c) o k x n).
  { destruct (swapped_dec HV k) as [(-> & E)|D].
    - destruct o.
      + destruct (@swapped_add_i (debug c) HV SAdd x n E Hx Hn ltac:(discriminate)) as (-> & ->).
        destruct (@swapped_add_i (release c) HV SAdd x n E Hx Hn ltac:(discriminate)) as (-> & ->). auto.
      + destruct (@swapped_add_i (debug c) HV SSub x n E Hx Hn ltac:(discriminate)) as (-> & ->).
        destruct (@swapped_add_i (release c) HV SSub x n E Hx Hn ltac:(discriminate)) as (-> & ->). auto.
      + destruct (@swapped_mul_i (debug c) HV x n E Hx Hn) as (-> & ->).
        destruct (@swapped_mul_i (release c) HV x n E Hx Hn) as (-> & ->). auto.
    - rewrite (@wrapping_is_ok (debug c) HV), (@wrapping_is_ok (release c) HV), (@overflowing_is_ok (debug c) HV), (@overflowing_is_ok (release c) HV) by side.
      auto. }
  destruct E as (E1 & E2). split; [exact E1|]. split; [exact E2|]. unfold checked_is, plain_is. cbn [chk debug release with_checks negb].
  unfold checked_is. rewrite E2. split; [reflexivity|].
  destruct (C58_scalar_s (release c) o k x n HV Hx Hn) as [(-> & -> & _)|(v & f & -> & -> & _)]; [left; reflexivity|].
  destruct f; [right|left]; reflexivity.
Qed.

Lemma only_panics_bind : forall A B (m1 m2 : res A) (k1 k2 : A -> res B),
  only_panics m1 m2 -> (forall a, m1 = Ok a -> only_panics (k1 a) (k2 a)) -> only_panics (bind m1 k1) (bind m2 k2).
Proof. intros A B m1 m2 k1 k2 [->| ->] H; [|right; reflexivity]. destruct m2; cbn [bind]; auto; left; reflexivity. Qed.
Lemma only_panics_refl : forall A (m : res A), only_panics m m.
Proof. left. reflexivity. Qed.
Lemma usub_guard : forall (c : Cfg) w a b, only_panics (@usub (debug c) w a b) (@usub (release c) w a b).
Proof. intros. unfold usub, uchk. destruct (in_u w (a - b)); [left|right]; reflexivity. Qed.

(** Division by a scalar: all inputs.  The named forms of the signed type do a
    plain subtraction on the remainder, which a wrong remainder (finding 14)
    can make panic in one build only. *)
Theorem C59_scalar_div_u : forall (c : Cfg) k sg x n, Valid -> wf x -> fits_u (kbits k) n ->
  only_panics (@wrapping_div_rem_us (debug c) k sg x n) (@wrapping_div_rem_us (release c) k sg x n) /\
  only_panics (@overflowing_div_rem_us (debug c) k sg x n) (@overflowing_div_rem_us (release c) k sg x n) /\
  only_panics (@checked_div_rem_us (debug c) k sg x n) (@checked_div_rem_us (release c) k sg x n) /\
  only_panics (@div_rem_us (debug c) k sg x n) (@div_rem_us (release c) k sg x n) /\
  (sg = false \/ (n <> 0 /\ exact_scalar W N (kbits k) (Z.abs (val sg x)) n) ->
   @wrapping_div_rem_us (debug c) k sg x n = @wrapping_div_rem_us (release c) k sg x n).
Proof.
  intros c k sg x n HV Hx Hn.
  assert (G : only_panics (@wrapping_div_rem_us (debug c) k sg x n) (@wrapping_div_rem_us (release c) k sg x n)).
  { destruct sg.
    - unfold wrapping_div_rem_us. apply only_panics_bind; [|intros [q r] _; apply only_panics_refl].
      change (@route (debug c) k) with (@route c k). change (@route (release c) k) with (@route c k).
      change (@dbits (debug c)) with (@dbits c). change (@dbits (release c)) with (@dbits c).
      rewrite (ucast_d HV) by auto. unfold s_div_rem_u.
      rewrite (@unsigned_abs_ok (debug c) HV), (@unsigned_abs_ok (release c) HV) by side. cbn [bind].
      rewrite (@div_by_ok (debug c) HV k), (@div_by_ok (release c) HV k) by (try apply (@wf_ofZ c HV); exact Hn).
      change (@lift2 (debug c)) with (@lift2 c). change (@lift2 (release c)) with (@lift2 c).
      apply only_panics_bind; [apply only_panics_refl|]. intros [q r] Hq.
      assert (Wq : @wf c q).
      { match type of Hq with lift2 ?o = _ => destruct o as [[q' r']|]; inversion Hq; subst; apply (wf_ofZ HV) end. }
      rewrite (@is_negative_ok (debug c) HV), (@is_negative_ok (release c) HV) by side.
      rewrite (@mk_ok (debug c) HV), (@mk_ok (release c) HV). cbn [bind].
      change (@sval (debug c) x) with (@sval c x). change (@sval (release c) x) with (@sval c x).
      destruct (sval x <? 0); cbn [andb bind]; [|apply only_panics_refl].
      rewrite (@s_wrapping_neg_ok (debug c) HV), (@s_wrapping_neg_ok (release c) HV) by side. cbn [bind].
      destruct (negb (r =? 0)); [|apply only_panics_refl].
      assert (F1 : fits_u 8 1) by (unfold fits_u; lia).
      rewrite (@from_u8_ok (debug c) HV), (@from_u8_ok (release c) HV) by exact F1. cbn [bind].
      rewrite (@op_sub_ok (debug c) HV), (@op_sub_ok (release c) HV) by apply (@wf_ofZ c HV).
      apply only_panics_bind; [gfin|]. intros q1 _. apply only_panics_bind; [apply usub_guard|]. intros. apply only_panics_refl.
    - left. rewrite (@u_wrapping_div_rem_us_all (debug c) HV), (@u_wrapping_div_rem_us_all (release c) HV) by side. reflexivity. }
  split; [exact G|]. split; [unfold overflowing_div_rem_us; apply only_panics_bind; [exact G|intros; apply only_panics_refl]|].
  assert (K : only_panics (@checked_div_rem_us (debug c) k sg x n) (@checked_div_rem_us (release c) k sg x n)).
  { unfold checked_div_rem_us. destruct (n =? 0); [apply only_panics_refl|]. apply only_panics_bind; [exact G|intros; apply only_panics_refl]. }
  split; [exact K|]. split.
  - unfold div_rem_us. cbn [chk debug release with_checks negb]. unfold checked_div_rem_us. destruct (n =? 0); [right; reflexivity|].
    destruct G as [G|G]; rewrite G; [left|right]; [|reflexivity]. destruct (@wrapping_div_rem_us (release c) k sg x n); reflexivity.
  - intros [->|(H0 & HE)].
    + rewrite (@u_wrapping_div_rem_us_all (debug c) HV), (@u_wrapping_div_rem_us_all (release c) HV) by side. reflexivity.
    + assert (0 < n) by (unfold fits_u in Hn; lia).
      rewrite (@wrapping_div_rem_us_ok (debug c) HV), (@wrapping_div_rem_us_ok (release c) HV) by side. reflexivity.
Qed.
(** … as it does here. *)
Theorem C59_scalar_div_refuted : exists (c : Cfg) x n q r, Valid /\ wf x /\ fits_u (kbits K128) n /\ n <> 0 /\
  @wrapping_div_rem_us (debug c) K128 true x n = Panic /\ @wrapping_div_rem_us (release c) K128 true x n = Ok (q, r) /\ n <= r.
Proof.
  exists c256_32, (E32 (- 2 ^ 95)), (2 ^ 63 + 2 ^ 32 - 1), (E32 (- 4294967295)), 340282366920938463454151235386323501057.
  split; [exact valid_c256_32|]. split; [apply (wf_ofZ valid_c256_32)|].
  split; [vm_compute; split; discriminate || reflexivity|]. split; [lia|]. split; [vm_compute; reflexivity|]. split; [vm_compute; reflexivity|lia].
Qed.
Theorem C59_scalar_div_s : forall (c : Cfg) k x n, Valid -> wf x -> fits_s (kbits k) n ->
  @wrapping_div_rem_is (debug c) k x n = @wrapping_div_rem_is (release c) k x n /\
  @overflowing_div_rem_is (debug c) k x n = @overflowing_div_rem_is (release c) k x n /\
  @checked_div_rem_is (debug c) k x n = @checked_div_rem_is (release c) k x n /\
  only_panics (@div_rem_is (debug c) k x n) (@div_rem_is (release c) k x n).
Proof.
  intros c k x n HV Hx Hn.
  assert (G : @wrapping_div_rem_is (debug c) k x n = @wrapping_div_rem_is (release c) k x n).
  { unfold wrapping_div_rem_is, s_div_rem_i.
    change (@route (debug c) k) with (@route c k). change (@route (release c) k) with (@route c k).
    change (@dbits (debug c)) with (@dbits c). change (@dbits (release c)) with (@dbits c).
    rewrite (scast_d HV) by auto.
    rewrite (@unsigned_abs_ok (debug c) HV), (@unsigned_abs_ok (release c) HV) by side. cbn [bind].
    assert (Ha : 0 <= Z.abs n < 2 ^ kbits k).
    { pose proof (dbits_1 HV k). assert (Hh : 2 ^ kbits k = 2 * 2 ^ (kbits k - 1)) by (apply pow2_half; lia).
      assert (0 < 2 ^ (kbits k - 1)) by (apply pow2_pos; lia). unfold fits_s in Hn. lia. }
    rewrite (@div_by_ok (debug c) HV k), (@div_by_ok (release c) HV k) by (try apply (@wf_ofZ c HV); exact Ha).
    change (@lift2 (debug c)) with (@lift2 c). change (@lift2 (release c)) with (@lift2 c).
    change (@uval (debug c)) with (@uval c). change (@uval (release c)) with (@uval c).
    change (@ofZ (debug c)) with (@ofZ c). change (@ofZ (release c)) with (@ofZ c).
    change (@sval (debug c)) with (@sval c). change (@sval (release c)) with (@sval c).
    change (@W (debug c)) with (@W c). change (@W (release c)) with (@W c).
    change (@N (debug c)) with (@N c). change (@N (release c)) with (@N c).
    destruct (scalar_outcome W N (kbits k) (uval (ofZ (Z.abs (sval x)))) (Z.abs n)) as [[q r]|]; cbn [lift2 bind]; [|reflexivity].
    rewrite (@is_negative_ok (debug c) HV), (@is_negative_ok (release c) HV) by side.
    rewrite (@mk_ok (debug c) HV), (@mk_ok (release c) HV). cbn [bind].
    change (@sval (debug c)) with (@sval c). change (@sval (release c)) with (@sval c).
    rewrite (@s_wrapping_neg_ok (debug c) HV), (@s_wrapping_neg_ok (release c) HV) by apply (@wf_ofZ c HV). reflexivity. }
  assert (O : @overflowing_div_rem_is (debug c) k x n = @overflowing_div_rem_is (release c) k x n).
  { unfold overflowing_div_rem_is. rewrite G, (@s_min_value_ok (debug c) HV), (@s_min_value_ok (release c) HV). cbn [bind].
    rewrite (@eq_const_ok (debug c) HV), (@eq_const_ok (release c) HV) by (try assumption; apply (@wf_ofZ c HV)). reflexivity. }
  split; [exact G|]. split; [exact O|].
  assert (K : @checked_div_rem_is (debug c) k x n = @checked_div_rem_is (release c) k x n).
  { unfold checked_div_rem_is. rewrite O. reflexivity. }
  split; [exact K|].
  unfold div_rem_is. cbn [chk debug release with_checks negb]. rewrite K. unfold checked_div_rem_is, overflowing_div_rem_is.
  destruct (n =? 0); [right; reflexivity|].
  rewrite (@s_min_value_ok (release c) HV). cbn [bind]. rewrite (@eq_const_ok (release c) HV) by (try assumption; apply (@wf_ofZ c HV)). cbn [bind].
  destruct (_ && _); [right; reflexivity|left]. destruct (@wrapping_div_rem_is (release c) k x n) as [[q r]| |]; reflexivity.
Qed.

(** ** C59: rounding division, numbers in text form, conversions *)

Theorem C59_rounding : forall (c : Cfg), Valid ->
  steady2 c (@u_div_floor) /\ steady2 c (@u_div_ceil) /\ steady2 c (@s_div_floor) /\ steady2 c (@s_div_ceil).
Proof.
  intros. split; [unfold u_div_floor; st2 @wrapping_div_ok|]. split; [st2 @u_div_ceil_ok|]. split; [st2 @s_div_floor_ok|st2 @s_div_ceil_ok].
Qed.

Theorem C59_parse : forall (c : Cfg) sg s radix small, Valid -> bytes s ->
  @from_str_radix (debug c) sg s radix = @from_str_radix (release c) sg s radix /\
  @from_str (debug c) small sg s = @from_str (release c) small sg s.
Proof.
  intros c sg s radix small HV Hs.
  assert (R : forall radix, @from_str_radix (debug c) sg s radix = @from_str_radix (release c) sg s radix).
  { intros r. assert (D : 2 <= r <= 36 \/ ~ 2 <= r <= 36) by lia. destruct D.
    - rewrite (@from_str_radix_ok (debug c) HV), (@from_str_radix_ok (release c) HV) by assumption. reflexivity.
    - rewrite !from_str_radix_panic by assumption. reflexivity. }
  split; [apply R|]. destruct (PeanoNat.Nat.lt_ge_cases (length s) 39).
  - rewrite (@from_str_short (debug c) HV), (@from_str_short (release c) HV) by assumption. reflexivity.
  - rewrite !from_str_long by assumption. apply R.
Qed.

Lemma writes_same : forall m1 m2 buffer (p : list Z -> Prop), (forall s t, p s -> p t -> s = t) ->
  writes m1 buffer p -> writes m2 buffer p -> m1 = m2.
Proof.
  intros m1 m2 buffer p U (i & s & E & L & P) (j & t & E' & L' & P'). assert (s = t) by auto. subst t.
  assert (i = j) by lia. subst j. congruence.
Qed.
Theorem C59_to_str_unsigned : forall (c : Cfg) x buffer radix, Valid -> wf x ->
  @to_str_radix (debug c) false x buffer radix = @to_str_radix (release c) false x buffer radix.
Proof.
  intros c x buffer radix HV Hx.
  assert (D : (2 <= radix <= 36 /\ @BITS c <= Z.of_nat (length buffer)) \/ ~ (2 <= radix <= 36 /\ @BITS c <= Z.of_nat (length buffer))) by lia.
  destruct D as [(Hr & HL)|D].
  - apply (writes_same _ _ buffer (upper_numeral radix (@uval c x))).
    + intros s t. apply C29_unique. lia.
    + apply (C29_unsigned (debug c)); auto.
    + apply (C29_unsigned (release c)); auto.
  - assert (D' : ~ (2 <= radix <= 36 /\ @BITS c + 0 <= Z.of_nat (length buffer))) by lia.
    rewrite (proj2 (C29_panics (debug c) false x buffer radix HV Hx ltac:(discriminate)) D'),
      (proj2 (C29_panics (release c) false x buffer radix HV Hx ltac:(discriminate)) D'). reflexivity.
Qed.
Theorem C59_to_str_signed : forall (c : Cfg) x buffer radix, Valid -> wf x ->
  (0 <= sval x -> @to_str_radix (debug c) true x buffer radix = @to_str_radix (release c) true x buffer radix) /\
  (2 <= radix <= 36 -> BITS + 1 <= Z.of_nat (length buffer) ->
   only_panics (@to_str_radix (debug c) true x buffer radix) (@to_str_radix (release c) true x buffer radix)).
Proof.
  intros c x buffer radix HV Hx.
  assert (A : 0 <= sval x -> @to_str_radix (debug c) true x buffer radix = @to_str_radix (release c) true x buffer radix).
  { intros Hp.
    assert (D : (2 <= radix <= 36 /\ @BITS c + 1 <= Z.of_nat (length buffer)) \/ ~ (2 <= radix <= 36 /\ @BITS c + 1 <= Z.of_nat (length buffer))) by lia.
    destruct D as [(Hr & HL)|D].
    - apply (writes_same _ _ buffer (upper_numeral radix (@sval c x))).
      + intros s t. apply C29_unique. lia.
      + apply (C29_signed_nonnegative (debug c)); auto.
      + apply (C29_signed_nonnegative (release c)); auto.
    - rewrite (proj2 (C29_panics (debug c) true x buffer radix HV Hx (fun _ => Hp)) D),
        (proj2 (C29_panics (release c) true x buffer radix HV Hx (fun _ => Hp)) D). reflexivity. }
  split; [exact A|]. intros Hr HL. assert (D : 0 <= @sval c x \/ @sval c x < 0) by lia. destruct D as [D|D]; [left; auto|].
  destruct (C29_negative (debug c) x buffer radix HV Hx D Hr HL) as [(_ & _ & ->)|(_ & H1)]; [right; reflexivity|left].
  destruct (C29_negative (release c) x buffer radix HV Hx D Hr HL) as [(F & _)|(_ & H2)]; [discriminate|].
  eapply writes_same; [|exact H1|exact H2]. intros s t <- <-. reflexivity.
Qed.
Theorem C59_format : forall (c : Cfg) x f tag, Valid -> wf x ->
  @u_display (debug c) x = @u_display (release c) x /\ @s_display (debug c) x f = @s_display (release c) x f /\
  @u_binary (debug c) x f = @u_binary (release c) x f /\ @s_binary (debug c) x f = @s_binary (release c) x f /\
  @u_octal (debug c) x f = @u_octal (release c) x f /\ @s_octal (debug c) x f = @s_octal (release c) x f /\
  @u_lower_hex (debug c) x f = @u_lower_hex (release c) x f /\ @s_lower_hex (debug c) x f = @s_lower_hex (release c) x f /\
  @u_upper_hex (debug c) x f = @u_upper_hex (release c) x f /\ @s_upper_hex (debug c) x f = @s_upper_hex (release c) x f /\
  @u_exp (debug c) tag x = @u_exp (release c) tag x /\ @s_exp (debug c) tag x f = @s_exp (release c) tag x f.
Proof.
  intros c x f tag HV Hx.
  pose proof (fun y b r Hy => C59_to_str_unsigned c y b r HV Hy) as R.
  assert (H1 : forall y, @wf c y -> @u_display (debug c) y = @u_display (release c) y).
  { intros y Hy. unfold u_display. rewrite R by assumption. reflexivity. }
  assert (H2 : forall r t, @u_binary_octal (debug c) r t x f = @u_binary_octal (release c) r t x f).
  { intros r t. unfold u_binary_octal. rewrite R by assumption. reflexivity. }
  assert (H3 : forall k, @u_hex (debug c) k x f = @u_hex (release c) k x f).
  { intros k. unfold u_hex. rewrite R by assumption. reflexivity. }
  assert (H4 : forall y, @wf c y -> @u_exp (debug c) tag y = @u_exp (release c) tag y).
  { intros y Hy. unfold u_exp. rewrite R by assumption. reflexivity. }
  assert (S : forall g1 g2, (forall y, @wf c y -> g1 y = g2 y) -> @s_signed (debug c) g1 x f = @s_signed (release c) g2 x f).
  { intros g1 g2 Hg. rewrite (@s_signed_ok (debug c) HV), (@s_signed_ok (release c) HV) by assumption.
    rewrite Hg by apply (@wf_ofZ c HV). reflexivity. }
  assert (Wr : forall g1 g2, g1 x f = g2 x f -> @s_wrapping (debug c) g1 x f = @s_wrapping (release c) g2 x f).
  { intros g1 g2 Hg. rewrite (@s_wrapping_ok (debug c) HV), (@s_wrapping_ok (release c) HV) by assumption. exact Hg. }
  split; [auto|]. split; [apply S; auto|]. split; [apply H2|]. split; [apply Wr, H2|]. split; [apply H2|]. split; [apply Wr, H2|].
  split; [apply H3|]. split; [apply Wr, H3|]. split; [apply H3|]. split; [apply Wr, H3|]. split; [auto|apply S; auto].
Qed.

Theorem C59_conversions : forall (c : Cfg) (sg sg' ps : bool) p, Valid -> prim_ok p ->
  steady1 c (fun c => @as_prim c ps p) /\ steady1 c (fun c => @to_primitive c sg ps p) /\ steady1 c (@u_try_from_signed) /\
  steady1 c (@s_try_from_unsigned) /\ steady1 c (fun c => @num_cast_big c sg sg') /\
  (forall v, pfits ps p v -> @from_prim (debug c) ps p v = @from_prim (release c) ps p v /\
     @from_primitive (debug c) sg ps p v = @from_primitive (release c) sg ps p v) /\
  (forall v, pfits true p v -> @u_try_from_prim (debug c) p v = @u_try_from_prim (release c) p v) /\
  (forall v, @num_cast_prim (debug c) sg v = @num_cast_prim (release c) sg v).
Proof.
  intros c sg sg' ps p HV Hp.
  split. { intros x Hx. rewrite (@as_prim_ok (debug c) HV false), (@as_prim_ok (release c) HV false) by assumption. reflexivity. }
  split; [st1 @to_primitive_ok|]. split; [st1 @u_try_from_signed_ok|]. split; [st1 @s_try_from_unsigned_ok|]. split; [st1 @num_cast_big_ok|].
  split. { intros v Hv. rewrite (@from_prim_ok (debug c) HV), (@from_prim_ok (release c) HV), (@from_primitive_ok (debug c) HV), (@from_primitive_ok (release c) HV) by assumption. auto. }
  split. { intros v Hv. rewrite (@u_try_from_prim_ok (debug c) HV), (@u_try_from_prim_ok (release c) HV) by assumption. reflexivity. }
  intros v. rewrite (@num_cast_prim_ok (debug c) HV), (@num_cast_prim_ok (release c) HV). reflexivity.
Qed.

(** The exception: writing a negative number with [to_str_radix] adds the digit
    to a letter with a plain [+], so the same call panics in one build and
    writes a wrong string in the other (finding 3). *)
Theorem C59_to_str_refuted : exists (c : Cfg) x buffer radix, Valid /\ wf x /\ 2 <= radix <= 36 /\
  BITS + 1 <= Z.of_nat (length buffer) /\
  @to_str_radix (debug c) true x buffer radix = Panic /\
  @to_str_radix (release c) true x buffer radix = Ok (firstn 255 buffer ++ [45; 47], 255%nat).
Proof.
  exists c256_64, (E64 (-1)), (repeat 0 257), 10. split; [exact valid_c256_64|]. split; [apply (wf_ofZ valid_c256_64)|].
  split; [lia|]. split; [vm_compute; discriminate|]. vm_compute. auto.
Qed.

Example C59_ex1 : @op_add (debug c256_64) false (E64 (2 ^ 256 - 1)) (E64 1) = Panic
  /\ @op_add (release c256_64) false (E64 (2 ^ 256 - 1)) (E64 1) = Ok (E64 0)
  /\ @op_shl (debug c256_64) true 32 (E64 1) (-1) = Panic /\ @op_shl (release c256_64) true 32 (E64 1) (-1) = Ok (E64 (2 ^ 255)).
Proof. vm_compute. auto. Qed.
Example C59_ex2 : @div_rem_us (debug c256_64) K64 true (E64 (-7)) 2 = @div_rem_us (release c256_64) K64 true (E64 (-7)) 2
  /\ @plain_us (debug c256_32) SMul K32 false (E32 (2 ^ 255)) 2 = Panic
  /\ @plain_us (release c256_32) SMul K32 false (E32 (2 ^ 255)) 2 = Ok (E32 0).
Proof. vm_compute. auto. Qed.
Example C59_ex3 : @u_display (debug c256_64) (E64 48879) = Ok (Some [52; 56; 56; 55; 57])
  /\ @from_str_radix (debug c512_32) true [45; 49] 10 = @from_str_radix (release c512_32) true [45; 49] 10
  /\ @from_str_radix (debug c512_32) true [45; 49] 10 = Ok (POk (E512 (-1))).
Proof. vm_compute. auto. Qed.

(** ** C60: the documented panics of the signed rounding divisions

    shared/docs.rs 65-73 promises for [div_euclid], [rem_euclid], [div_floor] and
    [div_ceil] of the signed types (int/ops.rs 78-167) a panic when the divisor is
    zero or the division is MIN / -1, whatever the overflow-check setting. *)

Theorem C60_zero_partial : forall (c : Cfg) x y, Valid -> wf x -> wf y -> sval y = 0 -> sval x <> 0 ->
  div_euclid true x y = Panic /\ rem_euclid true x y = Panic /\ s_div_floor x y = Panic /\ s_div_ceil x y = Panic.
Proof.
  intros c x y HV Hx Hy H0 H1. rewrite (s_div_floor_ok HV), (s_div_ceil_ok HV), H0, soutcome_0 by assumption.
  destruct (Z.eqb_spec (sval x) 0); [contradiction|]. cbn [option_map lift1].
  assert (U : uval y = 0 /\ uval x <> 0).
  { rewrite <- (sval_mod HV y Hy), H0, <- (sval_mod HV x Hx). split; [reflexivity|]. intros E.
    pose proof (sval_range HV x Hx) as R. pose proof (pBhalf HV) as PB. pose proof (pBh HV). unfold fits_s in R.
    assert (D : 0 < sval x \/ sval x < 0) by lia. destruct D as [D|D].
    - rewrite Z.mod_small in E by lia. lia.
    - rewrite <- (Z.mod_add (sval x) 1), Z.mod_small in E by lia. lia. }
  destruct U as (Uy & Ux). destruct (C10_wrapping_zero_partial c x y HV Hx Hy Uy Ux) as (_ & _ & G). destruct (G true) as (_ & _ & _ & _ & _ & _ & _ & _ & _ & _ & _ & D1 & D2).
  auto.
Qed.
(** missing: 0 / 0, and MIN / -1 where the setting matters *)
Theorem C60_zero_over_zero : forall (c : Cfg) x y, Valid -> wf x -> wf y -> sval y = 0 -> sval x = 0 ->
  returns_s (s_div_floor x y) 1 /\ returns_s (s_div_ceil x y) 1.
Proof.
  intros c x y HV Hx Hy H0 H1. rewrite (s_div_floor_ok HV), (s_div_ceil_ok HV), H0, H1, soutcome_0 by assumption.
  cbn [option_map lift1]. assert (F : fits true 1). { cbn. pose proof (pB_big HV). pose proof (pBhalf HV). pose proof (pBh HV). unfold fits_s. lia. }
  split; apply (retS1 HV); auto.
Qed.
Theorem C60_min_over_m1 : forall (c : Cfg) x y, Valid -> wf x -> wf y -> min_over_m1 x y ->
  returns_s (s_div_floor x y) (- 2 ^ (BITS - 1)) /\ returns_s (s_div_ceil x y) (- 2 ^ (BITS - 1)) /\
  (chk = true -> div_euclid true x y = Panic /\ rem_euclid true x y = Panic) /\
  (chk = false -> returns_s (div_euclid true x y) (- 2 ^ (BITS - 1)) /\ returns_s (rem_euclid true x y) 0).
Proof.
  intros c x y HV Hx Hy HM. pose proof HM as (Ex & Ey). pose proof (pBh HV) as PH. pose proof (pBhalf HV) as PB.
  assert (H0 : sval y <> 0) by lia. assert (HE : exact_division W N (Z.abs (sval x)) (Z.abs (sval y))).
  { rewrite Ey. apply (exact_m1 HV). }
  destruct (C13_floor_ceil_s c x y HV Hx Hy H0 HE) as (F & G & _).
  assert (S : swrap BITS (2 ^ (BITS - 1)) = - 2 ^ (BITS - 1)).
  { unfold swrap. replace (2 ^ (BITS - 1) + 2 ^ (BITS - 1)) with (1 * 2 ^ BITS) by lia. rewrite Z.mod_mul by lia. lia. }
  assert (Q : sval x / sval y = 2 ^ (BITS - 1) /\ - ((- sval x) / sval y) = 2 ^ (BITS - 1)).
  { rewrite Ex, Ey. split; [symmetry; apply (Z.div_unique_exact _ (-1)); lia|].
    assert (A : - 2 ^ (BITS - 1) = - - 2 ^ (BITS - 1) / -1) by (apply Z.div_unique_exact; lia). lia. }
  destruct Q as (Q1 & Q2). rewrite Q1, S in F. rewrite Q2, S in G. split; [exact F|]. split; [exact G|].
  split; intros E.
  - destruct (C10_panics_s c x y HV Hx Hy (or_intror HM)) as (_ & _ & _ & _ & P). destruct (P E) as (_ & _ & P1 & P2 & _). auto.
  - destruct (C12_min_over_m1 c x y HV Hx Hy HM) as (P1 & P2 & _). unfold div_euclid, rem_euclid. rewrite E. cbn [negb]. auto.
Qed.
Theorem C60_documented_refuted :
  (exists (c : Cfg) x y, Valid /\ wf x /\ wf y /\ sval y = 0 /\ chk = true /\ s_div_floor x y = Ok (ofZ 1) /\ s_div_ceil x y = Ok (ofZ 1)) /\
  (exists (c : Cfg) x y, Valid /\ wf x /\ wf y /\ min_over_m1 x y /\ chk = true /\ s_div_floor x y = Ok x /\ s_div_ceil x y = Ok x) /\
  (exists (c : Cfg) x y, Valid /\ wf x /\ wf y /\ min_over_m1 x y /\ div_euclid true x y = Ok x /\ rem_euclid true x y = Ok (ofZ 0)) /\
  (exists (c : Cfg) x y, Valid /\ wf x /\ wf y /\ sval y = 0 /\ div_euclid true x y = Ok (ofZ 1) /\ rem_euclid true x y = Ok (ofZ 0)).
Proof.
  split; [|split; [|split]].
  - exists c256_64, (E64 0), (E64 0). split; [exact valid_c256_64|]. split; [apply (wf_ofZ valid_c256_64)|]. split; [apply (wf_ofZ valid_c256_64)|].
    vm_compute. auto.
  - exists c256_64, (E64 (- 2 ^ 255)), (E64 (-1)). split; [exact valid_c256_64|]. split; [apply (wf_ofZ valid_c256_64)|]. split; [apply (wf_ofZ valid_c256_64)|].
    unfold min_over_m1. vm_compute. auto.
  - exists c512_32, (E512 (- 2 ^ 511)), (E512 (-1)). split; [exact valid_c512_32|]. split; [apply (wf_ofZ valid_c512_32)|]. split; [apply (wf_ofZ valid_c512_32)|].
    unfold min_over_m1. vm_compute. auto.
  - exists c512_32, (E512 0), (E512 0). split; [exact valid_c512_32|]. split; [apply (wf_ofZ valid_c512_32)|]. split; [apply (wf_ofZ valid_c512_32)|].
    vm_compute. auto.
Qed.
Example C60_ex1 : @div_euclid c512_32 true (E512 7) (E512 0) = Panic /\ @s_div_floor c256_64 (E64 7) (E64 0) = Panic
  /\ @div_euclid c256_64 true (E64 (- 2 ^ 255)) (E64 (-1)) = Panic.
Proof. vm_compute. auto. Qed.

(** ** Assumptions (each must print "Closed under the global context") *)

Print Assumptions C59_arith.
Print Assumptions C59_unary.
Print Assumptions C59_pow_shift.
Print Assumptions C59_compare.
Print Assumptions C59_div.
Print Assumptions C59_operators.
Print Assumptions C59_unary_operators.
Print Assumptions C59_shift_operators.
Print Assumptions C59_scalar_u.
Print Assumptions C59_scalar_s.
Print Assumptions C59_scalar_div_u.
Print Assumptions C59_scalar_div_refuted.
Print Assumptions C59_scalar_div_s.
Print Assumptions C59_rounding.
Print Assumptions C59_parse.
Print Assumptions C59_to_str_unsigned.
Print Assumptions C59_to_str_signed.
Print Assumptions C59_format.
Print Assumptions C59_conversions.
Print Assumptions C59_to_str_refuted.
Print Assumptions C60_zero_partial.
Print Assumptions C60_zero_over_zero.
Print Assumptions C60_min_over_m1.
Print Assumptions C60_documented_refuted.
