(** * The code with its defects corrected: division

    The division of two values (C07-C14, C34) and by a wide scalar (C50) goes wrong on the
    inputs described there.  MFix.v rewrites the routine in which each error
    arises and leaves every caller as it is.  These theorems are about the
    rewritten routines: the corrections suffice, nothing else stands in the way.
    They say nothing of the code as published. *)

Require Import ZArith List Bool Lia.
From Verif Require Import Prim Spec Facts MAdd MMul MShift MCore PCore PBits PWide MArith PArith PArith2 PPow PMisc PBits2 PRet
  MDiv DivSpec PDiv PKnuth PDivFull PDivExact MApi PApi PApi2 PApi3 PIlog PropsDiv PropsDivAll MScalar PScalar PScalarDiv MFix PFixDiv PFixApi PFixScalar.
Import ListNotations.
Local Open Scope Z_scope.

(** ** The forms, over any division *)
Section Forms.
Context {c : Cfg}.
Variable dr : bool -> list Z -> list Z -> res (list Z * list Z).
Definition quotient_by (f : variant) (sg : bool) (x y : list Z) : res (list Z) :=
  match f with
  | Wrapping => d_wrapping_div dr sg x y | Operator => d_op_div dr sg x y | Checked => of_option (d_checked_div dr sg x y)
  | Strict => d_strict_div dr sg x y | Overflowing => of_flag (d_overflowing_div dr sg x y) end.
Definition remainder_by (f : variant) (sg : bool) (x y : list Z) : res (list Z) :=
  match f with
  | Wrapping => d_wrapping_rem dr sg x y | Operator => d_op_rem dr sg x y | Checked => of_option (d_checked_rem dr sg x y)
  | Strict => d_strict_rem dr sg x y | Overflowing => of_flag (d_overflowing_rem dr sg x y) end.
Definition euclid_quotient_by (f : variant) (sg : bool) (x y : list Z) : res (list Z) :=
  match f with
  | Wrapping => d_wrapping_div_euclid dr sg x y | Operator => d_div_euclid dr sg x y | Checked => of_option (d_checked_div_euclid dr sg x y)
  | Strict => d_strict_div_euclid dr sg x y | Overflowing => of_flag (d_overflowing_div_euclid dr sg x y) end.
Definition euclid_remainder_by (f : variant) (sg : bool) (x y : list Z) : res (list Z) :=
  match f with
  | Wrapping => d_wrapping_rem_euclid dr sg x y | Operator => d_rem_euclid dr sg x y | Checked => of_option (d_checked_rem_euclid dr sg x y)
  | Strict => d_strict_rem_euclid dr sg x y | Overflowing => of_flag (d_overflowing_rem_euclid dr sg x y) end.
End Forms.

Section P.
Context {c : Cfg}.
Hypothesis HV : Valid.
Local Notation fdr := fix_wrapping_div_rem.
Local Notation Hdr := (fix_wrapping_div_rem_ok HV).

Ltac side := first [assumption|exact HV|exact Hdr].
Ltac fform f L1 L2 L3 L4 L5 D1 D2 :=
  destruct f; cbn; [rewrite L1 by side|rewrite L2 by side; unfold opd; rewrite D1, andb_false_r|rewrite L3 by side; unfold chko; rewrite D1, o_opt|rewrite L4 by side; rewrite D1|rewrite L5 by side; rewrite D2, o_flag]; reflexivity.
Lemma fquotient_eq : forall f sg x y, wf x -> wf y -> divisible sg (val sg x) (val sg y) -> quotient_by fdr f sg x y = lift1 (tq (val sg x) (val sg y)).
Proof.
  intros f sg x y Hx Hy D. destruct (no_dnone sg _ _ D) as (D1 & D2).
  fform f d_wrapping_div_ok d_op_div_ok d_checked_div_ok d_strict_div_ok d_overflowing_div_ok D1 D2.
Qed.
Lemma fremainder_eq : forall f sg x y, wf x -> wf y -> divisible sg (val sg x) (val sg y) -> remainder_by fdr f sg x y = lift1 (tr (val sg x) (val sg y)).
Proof.
  intros f sg x y Hx Hy D. destruct (no_dnone sg _ _ D) as (D1 & D2).
  fform f d_wrapping_rem_ok d_op_rem_ok d_checked_rem_ok d_strict_rem_ok d_overflowing_rem_ok D1 D2.
Qed.
Lemma fequotient_eq : forall f sg x y, wf x -> wf y -> divisible sg (val sg x) (val sg y) -> euclid_quotient_by fdr f sg x y = lift1 (teq sg (val sg x) (val sg y)).
Proof.
  intros f sg x y Hx Hy D. destruct (no_dnone sg _ _ D) as (D1 & D2).
  fform f d_wrapping_div_euclid_ok d_div_euclid_ok d_checked_div_euclid_ok d_strict_div_euclid_ok d_overflowing_div_euclid_ok D1 D2.
Qed.
Lemma feremainder_eq : forall f sg x y, wf x -> wf y -> divisible sg (val sg x) (val sg y) -> euclid_remainder_by fdr f sg x y = lift1 (ter sg (val sg x) (val sg y)).
Proof.
  intros f sg x y Hx Hy D. destruct (no_dnone sg _ _ D) as (D1 & D2).
  fform f d_wrapping_rem_euclid_ok d_rem_euclid_ok d_checked_rem_euclid_ok d_strict_rem_euclid_ok d_overflowing_rem_euclid_ok D1 D2.
Qed.
Lemma sval_zero : forall y, wf y -> uval y = 0 -> forall sg, val sg y = 0.
Proof. intros y Hy E sg. rewrite <- (ofZ_uval HV y Hy), E. apply (val_ofZ_small HV). apply (fits_0 HV). Qed.
End P.

(** ** C84 *)

(** The definitions with the hole are the code's, once the hole is filled with the
    division as published. *)
Theorem C84_same_code : forall (c : Cfg),
  d_wrapping_div_rem div_full = wrapping_div_rem /\
  (forall f, quotient_by wrapping_div_rem f = quotient f) /\ (forall f, remainder_by wrapping_div_rem f = remainder f) /\
  (forall f, euclid_quotient_by wrapping_div_rem f = euclid_quotient f) /\ (forall f, euclid_remainder_by wrapping_div_rem f = euclid_remainder f) /\
  d_checked_div wrapping_div_rem = checked_div /\ d_checked_rem wrapping_div_rem = checked_rem /\
  d_checked_div_euclid wrapping_div_rem = checked_div_euclid /\ d_checked_rem_euclid wrapping_div_rem = checked_rem_euclid /\
  d_checked_div_rem wrapping_div_rem = checked_div_rem /\ d_overflowing_div_rem wrapping_div_rem = overflowing_div_rem /\
  d_overflowing_div wrapping_div_rem = overflowing_div /\ d_overflowing_rem wrapping_div_rem = overflowing_rem /\
  d_overflowing_div_euclid wrapping_div_rem = overflowing_div_euclid /\ d_overflowing_rem_euclid wrapping_div_rem = overflowing_rem_euclid /\
  d_saturating_div wrapping_div_rem = saturating_div /\ d_div_rem wrapping_div_rem = div_rem /\
  d_u_div_floor wrapping_div_rem = u_div_floor /\ d_s_div_floor wrapping_div_rem = s_div_floor /\
  d_u_div_ceil wrapping_div_rem = u_div_ceil /\ d_s_div_ceil wrapping_div_rem = s_div_ceil /\
  d_u_next_multiple_of wrapping_div_rem = u_next_multiple_of /\ d_s_next_multiple_of wrapping_div_rem = s_next_multiple_of /\
  d_u_checked_next_multiple_of wrapping_div_rem = u_checked_next_multiple_of /\ d_s_checked_next_multiple_of wrapping_div_rem = s_checked_next_multiple_of /\
  d_u_is_multiple_of wrapping_div_rem = u_is_multiple_of /\
  d_wrapping_div_rem_us div_by = wrapping_div_rem_us /\ d_wrapping_div_rem_is div_by = wrapping_div_rem_is /\
  d_overflowing_div_rem_us div_by = overflowing_div_rem_us /\ d_overflowing_div_rem_is div_by = overflowing_div_rem_is /\
  d_checked_div_rem_us div_by = checked_div_rem_us /\ d_checked_div_rem_is div_by = checked_div_rem_is /\
  d_div_rem_us div_by = div_rem_us /\ d_div_rem_is div_by = div_rem_is.
Proof.
  intros c. repeat match goal with |- _ /\ _ => split end; try (intros []); reflexivity.
Qed.

(** Every form of the quotient and the remainder, for every divisor but 0 and
    MIN / -1. *)
Theorem C84_division : forall (c : Cfg) f sg x y, Valid -> wf x -> wf y -> divisible sg (num sg x) (num sg y) ->
  right sg (quotient_by fix_wrapping_div_rem f sg x y) (Z.quot (num sg x) (num sg y)) /\
  right sg (remainder_by fix_wrapping_div_rem f sg x y) (Z.rem (num sg x) (num sg y)) /\
  right sg (euclid_quotient_by fix_wrapping_div_rem f sg x y) (Z.sgn (num sg y) * (num sg x / Z.abs (num sg y))) /\
  right sg (euclid_remainder_by fix_wrapping_div_rem f sg x y) (num sg x mod Z.abs (num sg y)).
Proof.
  intros c f sg x y HV Hx Hy D. rewrite (fquotient_eq HV), (fremainder_eq HV), (fequotient_eq HV), (feremainder_eq HV) by auto.
  change (val sg x) with (num sg x). change (val sg y) with (num sg y).
  pose proof D as (H0 & _). pose proof (quot_in HV sg x y Hx Hy D) as Q. pose proof (rem_in HV sg x y Hx Hy H0) as R.
  assert (NN : sg = false -> 0 <= num sg x /\ 0 <= num sg y).
  { intros ->. cbn [num]. pose proof (uval_range HV x Hx). pose proof (uval_range HV y Hy). lia. }
  destruct (teq_nz sg _ _ H0 NN) as (-> & ->). rewrite tq_nz, tr_nz by auto.
  assert (EQ : fits sg (Z.sgn (num sg y) * (num sg x / Z.abs (num sg y))) /\ fits sg (num sg x mod Z.abs (num sg y))).
  { destruct sg; cbn [num fits] in *.
    - destruct D as (_ & D). pose proof (sval_range HV x Hx) as Rx. pose proof (sval_range HV y Hy) as Ry.
      split; [apply (ediv_fits HV); auto; unfold min_over_m1; tauto|apply emod_fits; auto].
    - pose proof (uval_range HV y Hy) as Ry. destruct (divmod_fits HV x y Hx H0 Ry) as (F1 & F2).
      rewrite Z.abs_eq, Z.sgn_pos, Z.mul_1_l by lia. auto. }
  repeat split; apply (right_lift HV); tauto || auto.
Qed.
(** The pairs, and the saturating quotient. *)
Theorem C84_pairs : forall (c : Cfg) sg x y, Valid -> wf x -> wf y -> divisible sg (num sg x) (num sg y) ->
  exists q r, wf q /\ wf r /\ num sg q = Z.quot (num sg x) (num sg y) /\ num sg r = Z.rem (num sg x) (num sg y) /\
    fix_wrapping_div_rem sg x y = Ok (q, r) /\ d_div_rem fix_wrapping_div_rem sg x y = Ok (q, r) /\
    d_checked_div_rem fix_wrapping_div_rem sg x y = Ok (Some (q, r)) /\ d_overflowing_div_rem fix_wrapping_div_rem sg x y = Ok (q, r, false) /\
    d_saturating_div fix_wrapping_div_rem sg x y = Ok q.
Proof.
  intros c sg x y HV Hx Hy D. pose proof (fix_wrapping_div_rem_ok HV) as Hdr. pose proof D as (H0 & _).
  exists (ofZ (Z.quot (num sg x) (num sg y))), (ofZ (Z.rem (num sg x) (num sg y))).
  split; [apply (wf_ofZ HV)|]. split; [apply (wf_ofZ HV)|].
  split; [apply (val_ofZ_small HV); apply (quot_in HV); auto|]. split; [apply (val_ofZ_small HV); apply (rem_in HV); auto|].
  destruct (no_dnone sg _ _ D) as (D1 & D2). change (num sg) with (val sg) in *.
  rewrite Hdr by auto.
  rewrite d_div_rem_ok by (assumption || exact Hdr). rewrite d_checked_div_rem_ok by (assumption || exact Hdr).
  rewrite d_overflowing_div_rem_ok by (assumption || exact Hdr). rewrite d_saturating_div_ok by (assumption || exact Hdr).
  rewrite D1, D2, andb_false_r, tdiv_nz, tq_nz by auto. cbn. auto.
Qed.
(** A zero divisor: the checked forms answer None, all others panic, whatever the
    numerator and whether or not overflow is checked. *)
Theorem C84_zero : forall (c : Cfg) sg x y, Valid -> wf x -> wf y -> uval y = 0 ->
  (forall f, quotient_by fix_wrapping_div_rem f sg x y = Panic /\ remainder_by fix_wrapping_div_rem f sg x y = Panic /\
     euclid_quotient_by fix_wrapping_div_rem f sg x y = Panic /\ euclid_remainder_by fix_wrapping_div_rem f sg x y = Panic) /\
  fix_wrapping_div_rem sg x y = Panic /\ d_div_rem fix_wrapping_div_rem sg x y = Panic /\ d_saturating_div fix_wrapping_div_rem sg x y = Panic /\
  d_checked_div fix_wrapping_div_rem sg x y = Ok None /\ d_checked_rem fix_wrapping_div_rem sg x y = Ok None /\
  d_checked_div_euclid fix_wrapping_div_rem sg x y = Ok None /\ d_checked_rem_euclid fix_wrapping_div_rem sg x y = Ok None /\
  d_checked_div_rem fix_wrapping_div_rem sg x y = Ok None.
Proof.
  intros c sg x y HV Hx Hy E. pose proof (fix_wrapping_div_rem_ok HV) as Hdr. pose proof (sval_zero HV y Hy E sg) as V0.
  assert (DN : dnone sg (val sg x) 0 = true) by (destruct sg; reflexivity).
  assert (DV : dovf sg (val sg x) 0 = false) by (destruct sg; unfold dovf; rewrite ?andb_false_r; reflexivity).
  assert (C : d_checked_div fix_wrapping_div_rem sg x y = Ok None /\ d_checked_rem fix_wrapping_div_rem sg x y = Ok None /\
    d_checked_div_euclid fix_wrapping_div_rem sg x y = Ok None /\ d_checked_rem_euclid fix_wrapping_div_rem sg x y = Ok None /\
    d_checked_div_rem fix_wrapping_div_rem sg x y = Ok None).
  { rewrite d_checked_div_ok, d_checked_rem_ok, d_checked_div_euclid_ok, d_checked_rem_euclid_ok, d_checked_div_rem_ok by (assumption || exact Hdr).
    rewrite V0. unfold chko. rewrite DN. auto. }
  destruct C as (C1 & C2 & C3 & C4 & C5).
  assert (T : tdiv (val sg x) 0 = None /\ tq (val sg x) 0 = None /\ tr (val sg x) 0 = None /\ teq sg (val sg x) 0 = None /\ ter sg (val sg x) 0 = None)
    by (destruct sg; cbn; auto).
  destruct T as (T1 & T2 & T3 & T4 & T5).
  split.
  - intros []; cbn; unfold d_strict_div, d_strict_rem, d_strict_div_euclid, d_strict_rem_euclid; rewrite ?C1, ?C2, ?C3, ?C4; cbn; auto.
    + rewrite d_wrapping_div_ok, d_wrapping_rem_ok, d_wrapping_div_euclid_ok, d_wrapping_rem_euclid_ok by (assumption || exact Hdr).
      rewrite V0, T2, T3, T4, T5. auto.
    + rewrite d_op_div_ok, d_op_rem_ok, d_div_euclid_ok, d_rem_euclid_ok by (assumption || exact Hdr).
      rewrite V0, T2, T3, T4, T5. unfold opd. destruct (chk && _); auto.
    + rewrite d_overflowing_div_ok, d_overflowing_rem_ok, d_overflowing_div_euclid_ok, d_overflowing_rem_euclid_ok by (assumption || exact Hdr).
      rewrite V0, T2, T3, T4, T5, DV. auto.
  - rewrite Hdr by auto. rewrite d_div_rem_ok, d_saturating_div_ok by (assumption || exact Hdr). rewrite V0, T1, T2, DV.
    destruct (chk && _); cbn; auto 10.
Qed.
(** MIN / -1: wrapped, flagged, refused or clamped. *)
Theorem C84_min_over_m1 : forall (c : Cfg) x y, Valid -> wf x -> wf y -> min_over_m1 x y ->
  returns_s (d_wrapping_div fix_wrapping_div_rem true x y) (- 2 ^ (BITS - 1)) /\ returns_s (d_wrapping_rem fix_wrapping_div_rem true x y) 0 /\
  returns_s_flag (d_overflowing_div fix_wrapping_div_rem true x y) (- 2 ^ (BITS - 1)) True /\ returns_s_flag (d_overflowing_rem fix_wrapping_div_rem true x y) 0 True /\
  d_checked_div fix_wrapping_div_rem true x y = Ok None /\ d_checked_rem fix_wrapping_div_rem true x y = Ok None /\
  returns_s (d_saturating_div fix_wrapping_div_rem true x y) (2 ^ (BITS - 1) - 1) /\
  (chk = true -> d_op_div fix_wrapping_div_rem true x y = Panic /\ d_op_rem fix_wrapping_div_rem true x y = Panic).
Proof.
  intros c x y HV Hx Hy HM. pose proof (fix_wrapping_div_rem_ok HV) as Hdr. pose proof HM as (Ex & Ey). pose proof (pBh HV) as PH. pose proof (pBhalf HV) as PB.
  pose proof (proj2 (dovf_iff _ _) HM) as DV.
  assert (DN : dnone true (sval x) (sval y) = true) by (apply dnone_true; auto).
  assert (F0 : fits_s BITS 0) by (unfold fits_s; lia). assert (FM : fits_s BITS (- 2 ^ (BITS - 1))) by (unfold fits_s; lia).
  assert (FX : fits_s BITS (2 ^ (BITS - 1) - 1)) by (unfold fits_s; lia).
  rewrite d_wrapping_div_ok, d_wrapping_rem_ok, d_overflowing_div_ok, d_overflowing_rem_ok, d_checked_div_ok, d_checked_rem_ok,
    d_saturating_div_ok, d_op_div_ok, d_op_rem_ok by (assumption || exact Hdr).
  cbn [val]. unfold chko, opd. rewrite DN, DV. rewrite tq_nz, tr_nz by lia. cbn [lift1].
  assert (Q : Z.quot (sval x) (sval y) = 2 ^ (BITS - 1)).
  { rewrite Ex, Ey. change (-1) with (- (1)). rewrite Z.quot_opp_opp, Z.quot_1_r by lia. reflexivity. }
  assert (R : Z.rem (sval x) (sval y) = 0) by (rewrite Ex, Ey; change (-1) with (- (1)); rewrite Z.rem_opp_opp, Z.rem_1_r by lia; reflexivity).
  rewrite Q, R. split; [apply (retS1 HV); auto; rewrite (ofZ_min HV); reflexivity|]. split; [apply (retS1 HV); auto|].
  assert (FL : forall v, fits_s BITS v -> returns_s_flag (Ok (ofZ v, true)) v True).
  { intros v Hv. exists (ofZ v), true. split; [reflexivity|]. split; [apply (wf_ofZ HV)|]. split; [exact (val_ofZ_small HV true v Hv)|tauto]. }
  split; [apply FL; auto|]. split; [apply FL; auto|]. split; [reflexivity|]. split; [reflexivity|].
  split; [apply (retS1 HV); auto|]. intros ->. auto.
Qed.
(** The quotients rounded down and up. *)
Theorem C84_rounding : forall (c : Cfg) sg x y, Valid -> wf x -> wf y -> divisible sg (num sg x) (num sg y) ->
  right sg (if (sg : bool) then d_s_div_floor fix_wrapping_div_rem x y else d_u_div_floor fix_wrapping_div_rem x y) (num sg x / num sg y) /\
  right sg (if (sg : bool) then d_s_div_ceil fix_wrapping_div_rem x y else d_u_div_ceil fix_wrapping_div_rem x y) (- (- num sg x / num sg y)).
Proof.
  intros c sg x y HV Hx Hy D. pose proof (fix_wrapping_div_rem_ok HV) as Hdr. pose proof D as (H0 & H1).
  destruct sg; cbn [num] in *.
  - pose proof (sval_range HV x Hx) as Rx. pose proof (sval_range HV y Hy) as Ry.
    rewrite d_s_div_floor_ok, d_s_div_ceil_ok by (assumption || exact Hdr). rewrite tdiv_nz by auto. cbn [option_map].
    rewrite (floor_num (sval x) (sval y)), (ceil_num (sval x) (sval y)) by auto.
    split; apply (right_lift HV); auto; [apply (floor_fits HV)|apply (ceil_fits HV)]; tauto || auto.
  - pose proof (uval_range HV x Hx) as Rx. pose proof (uval_range HV y Hy) as Ry.
    unfold d_u_div_floor. rewrite d_wrapping_div_ok, d_u_div_ceil_ok by (assumption || exact Hdr). cbn [val]. rewrite tdiv_nz, tq_nz by auto. cbn [option_map].
    rewrite (ceil_num (uval x) (uval y)) by auto. rewrite Z.quot_div_nonneg by lia.
    destruct (divmod_fits HV x y Hx H0 Ry) as (F1 & F2).
    split; apply (right_lift HV); auto.
    cbn. unfold fits_u in *. assert (E : - uval x / uval y <= 0) by (apply Z.div_le_upper_bound; lia).
    assert (E' : - uval x <= - uval x / uval y) by (apply Z.div_le_lower_bound; nia). lia.
Qed.
(** Multiples. *)
Theorem C84_multiples : forall (c : Cfg) x y, Valid -> wf x -> wf y ->
  (exists b, d_u_is_multiple_of fix_wrapping_div_rem x y = Ok b /\ (b = true <-> (uval y | uval x))) /\
  (uval y <> 0 -> exists m, next_multiple (uval x) (uval y) m /\
    returns_u_opt (d_u_checked_next_multiple_of fix_wrapping_div_rem x y) (fits_u BITS m) m /\
    (chk = true -> returns_u_or_panics (d_u_next_multiple_of fix_wrapping_div_rem x y) (fits_u BITS m) m) /\
    (chk = false -> returns_u (d_u_next_multiple_of fix_wrapping_div_rem x y) (m mod 2 ^ BITS))) /\
  (sval y <> 0 -> exists m, next_multiple (sval x) (sval y) m /\
    returns_s_opt (d_s_checked_next_multiple_of fix_wrapping_div_rem x y) (fits_s BITS m) m /\
    (chk = true -> returns_s_or_panics (d_s_next_multiple_of fix_wrapping_div_rem x y) (fits_s BITS m) m) /\
    (chk = false -> returns_s (d_s_next_multiple_of fix_wrapping_div_rem x y) (swrap BITS m))) /\
  (uval y = 0 -> d_u_checked_next_multiple_of fix_wrapping_div_rem x y = Ok None /\ d_s_checked_next_multiple_of fix_wrapping_div_rem x y = Ok None).
Proof.
  intros c x y HV Hx Hy. pose proof (fix_wrapping_div_rem_ok HV) as Hdr. split; [|split; [|split]].
  - rewrite d_u_is_multiple_of_ok by (assumption || exact Hdr). eexists. split; [reflexivity|].
    destruct (Z.eqb_spec (uval y) 0) as [E|E].
    + rewrite E, Z.eqb_eq. split; [intros ->; apply Z.divide_0_r|apply Z.divide_0_l].
    + rewrite Z.eqb_eq. apply Z.mod_divide. auto.
  - intros H0. pose proof (uval_range HV y Hy) as Ry. exists (nm (uval x) (uval y)). split.
    + assert (P : 0 < uval y) by lia. destruct (nm_pos (uval x) _ P). repeat split; auto; lia.
    + split; [|apply (opU HV), d_u_next_multiple_of_ok; assumption || exact Hdr]. apply (optU HV).
      rewrite d_u_checked_next_multiple_of_ok by (assumption || exact Hdr). destruct (Z.eqb_spec (uval y) 0); [contradiction|reflexivity].
  - intros H0. exists (nm (sval x) (sval y)). split.
    + destruct (Z.lt_trichotomy (sval y) 0) as [L|[L|L]]; [|contradiction|].
      * destruct (nm_neg (sval x) _ L). repeat split; auto; lia.
      * destruct (nm_pos (sval x) _ L). repeat split; auto; lia.
    + split; [|apply (opS HV), d_s_next_multiple_of_ok; assumption || exact Hdr]. apply (optS HV).
      rewrite d_s_checked_next_multiple_of_ok by (assumption || exact Hdr). destruct (Z.eqb_spec (sval y) 0); [contradiction|reflexivity].
  - intros H0. pose proof (sval_zero HV y Hy H0 true) as S0. cbn [val] in S0.
    rewrite d_u_checked_next_multiple_of_ok, d_s_checked_next_multiple_of_ok by (assumption || exact Hdr). rewrite H0, S0. auto.
Qed.
(** The logarithm, once the power is compared before it is divided and a base
    below 2 refused. *)
Theorem C84_ilog : forall (c : Cfg) sg x b, Valid -> wf x -> wf b ->
  let m := if (sg : bool) then fix_s_checked_ilog fix_wrapping_div_rem x b else fix_u_checked_ilog fix_wrapping_div_rem x b in
  (forall k, m = Ok (Some k) <-> 1 <= num sg x /\ 2 <= num sg b /\ 0 <= k /\ num sg b ^ k <= num sg x < num sg b ^ (k + 1)) /\
  (m = Ok None <-> num sg x < 1 \/ num sg b < 2).
Proof.
  intros c sg x b HV Hx Hb m. pose proof (fix_wrapping_div_rem_ok HV) as Hdr.
  assert (H : if (1 <=? num sg x) && (2 <=? num sg b)
    then exists k, m = Ok (Some k) /\ 0 <= k < BITS /\ num sg b ^ k <= num sg x < num sg b ^ (k + 1) else m = Ok None).
  { destruct sg; cbn [num]; unfold m; [apply fix_s_checked_ilog_ok|apply fix_u_checked_ilog_ok]; assumption || exact Hdr. }
  clearbody m. destruct (Z.leb_spec 1 (num sg x)); cbn [andb] in H; [destruct (Z.leb_spec 2 (num sg b))|].
  - destruct H as (k & -> & K & L). split.
    + intros k'. split; [intros E; inversion E; subst; repeat split; auto; lia|].
      intros (_ & _ & K' & L'). repeat f_equal.
      assert (M : forall i j, 0 <= i -> 0 <= j -> num sg b ^ i < num sg b ^ j -> i < j).
      { intros i j Hi Hj Hl. apply (Z.pow_lt_mono_r_iff (num sg b)); lia. }
      assert (k < k' + 1) by (apply M; lia). assert (k' < k + 1) by (apply M; lia). lia.
    + split; [discriminate|lia].
  - rewrite H. split; [intros k; split; [discriminate|lia]|]. split; [lia|auto].
  - rewrite H. split; [intros k; split; [discriminate|lia]|]. split; [lia|auto].
Qed.
(** Division by a scalar of any width: rounded down by an unsigned one, towards 0 by a
    signed one. *)
Theorem C84_scalar_u : forall (c : Cfg) k sg x n, Valid -> wf x -> fits_u (kbits k) n ->
  (n = 0 -> d_wrapping_div_rem_us fix_div_by k sg x n = Panic /\ d_div_rem_us fix_div_by k sg x n = Panic /\
     d_overflowing_div_rem_us fix_div_by k sg x n = Panic /\ d_checked_div_rem_us fix_div_by k sg x n = Ok None) /\
  (n <> 0 -> exists q, wf q /\ num sg q = num sg x / n /\
     d_wrapping_div_rem_us fix_div_by k sg x n = Ok (q, num sg x mod n) /\ d_div_rem_us fix_div_by k sg x n = Ok (q, num sg x mod n) /\
     d_overflowing_div_rem_us fix_div_by k sg x n = Ok (q, num sg x mod n, false) /\
     d_checked_div_rem_us fix_div_by k sg x n = Ok (Some (q, num sg x mod n))).
Proof.
  intros c k sg x n HV Hx Hn. split.
  - intros ->. unfold d_overflowing_div_rem_us. rewrite (d_wrapping_div_rem_us_0 HV), (d_div_rem_us_0 HV), (d_checked_div_rem_us_ok HV) by auto. auto.
  - intros H0. unfold fits_u in Hn. assert (P : 0 < n) by lia. exists (ofZ (num sg x / n)). split; [apply (wf_ofZ HV)|]. split.
    + apply (val_ofZ_small HV). pose proof (Z.div_mod (num sg x) n H0) as E. pose proof (Z.mod_pos_bound (num sg x) n P) as M.
      destruct sg; cbn [num fits] in *.
      * pose proof (sval_range HV x Hx) as R. unfold fits_s in *.
        set (q := sval x / n) in *. pose proof (pow2_pos (BITS - 1)). split; nia.
      * pose proof (uval_range HV x Hx) as R. unfold fits_u. set (q := uval x / n) in *. split; nia.
    + unfold d_overflowing_div_rem_us. rewrite (d_wrapping_div_rem_us_ok HV), (d_div_rem_us_ok HV), (d_checked_div_rem_us_ok HV) by (auto; unfold fits_u; lia).
      destruct (Z.eqb_spec n 0); [contradiction|]. auto.
Qed.
Theorem C84_scalar_i : forall (c : Cfg) k x n, Valid -> wf x -> fits_s (kbits k) n ->
  (n = 0 -> d_wrapping_div_rem_is fix_div_by k x n = Panic /\ d_div_rem_is fix_div_by k x n = Panic /\ d_checked_div_rem_is fix_div_by k x n = Ok None) /\
  (n <> 0 -> exists q, wf q /\ sval q = swrap BITS (Z.quot (sval x) n) /\ d_wrapping_div_rem_is fix_div_by k x n = Ok (q, Z.rem (sval x) n) /\
     let over := sval x = - 2 ^ (BITS - 1) /\ n = -1 in
     (exists f, d_overflowing_div_rem_is fix_div_by k x n = Ok (q, Z.rem (sval x) n, f) /\ (f = true <-> over)) /\
     (over -> d_checked_div_rem_is fix_div_by k x n = Ok None /\ (chk = true -> d_div_rem_is fix_div_by k x n = Panic)) /\
     (~ over -> sval q = Z.quot (sval x) n /\ d_checked_div_rem_is fix_div_by k x n = Ok (Some (q, Z.rem (sval x) n)) /\
        d_div_rem_is fix_div_by k x n = Ok (q, Z.rem (sval x) n))).
Proof.
  intros c k x n HV Hx Hn. split.
  - intros ->. rewrite (d_wrapping_div_rem_is_0 HV), (d_div_rem_is_0 HV), (d_checked_div_rem_is_ok HV) by auto. auto.
  - intros H0. exists (ofZ (Z.quot (sval x) n)). split; [apply (wf_ofZ HV)|]. split; [exact (val_ofZ HV true _)|].
    rewrite (d_wrapping_div_rem_is_ok HV), (d_overflowing_div_rem_is_ok HV), (d_checked_div_rem_is_ok HV), (d_div_rem_is_ok HV) by auto.
    split; [reflexivity|]. cbv zeta. pose proof (sval_range HV x Hx) as R. pose proof (pBh HV) as PH. unfold fits_s in R.
    assert (I : fitsb true (Z.quot (sval x) n) = false <-> sval x = - 2 ^ (BITS - 1) /\ n = -1).
    { destruct (fitsb_reflect true (Z.quot (sval x) n)) as [F|F]; split; try discriminate; try reflexivity.
      - intros (Ex & En). exfalso. rewrite Ex, En in F. change (-1) with (- (1)) in F. rewrite Z.quot_opp_opp, Z.quot_1_r in F by lia. cbn in F. unfold fits_s in F. lia.
      - intros _. destruct (Z.eq_dec n (-1)) as [En|En].
        + split; [|auto]. destruct (Z.eq_dec (sval x) (- 2 ^ (BITS - 1))) as [|Ex]; [auto|]. exfalso. apply F. rewrite En.
          change (-1) with (- (1)). rewrite Z.quot_opp_r, Z.quot_1_r by lia. cbn. unfold fits_s. lia.
        + exfalso. apply F. destruct (Z.eq_dec n 1) as [->|]; [rewrite Z.quot_1_r; exact R|].
          destruct (quot_abs (sval x) n H0) as (Eq & _).
          assert (Z.abs (sval x) / Z.abs n <= Z.abs (sval x) / 2) by (apply Z.div_le_compat_l; lia).
          assert (Z.abs (sval x) / 2 <= 2 ^ (BITS - 1) / 2) by (apply Z.div_le_mono; lia).
          assert (Hd2 : 2 ^ (BITS - 1) / 2 < 2 ^ (BITS - 1)) by (apply Z.div_lt; lia).
          assert (0 <= Z.abs (sval x) / Z.abs n) by (apply Z.div_pos; lia).
          cbn. unfold fits_s. rewrite Eq. destruct (xorb _ _); lia. }
    destruct (fitsb true (Z.quot (sval x) n)) eqn:F; cbn [negb].
    + assert (NO : ~ (sval x = - 2 ^ (BITS - 1) /\ n = -1)) by (intros O; apply I in O; discriminate).
      apply fitsb_spec in F. split; [eexists; split; [reflexivity|split; [discriminate|tauto]]|]. split; [tauto|]. intros _.
      destruct (Z.eqb_spec n 0); [contradiction|]. rewrite andb_false_r. split; [exact (val_ofZ_small HV true _ F)|]. auto.
    + assert (O : sval x = - 2 ^ (BITS - 1) /\ n = -1) by (apply I; auto).
      split; [eexists; split; [reflexivity|tauto]|]. split; [|tauto]. intros _. rewrite orb_true_r. split; [reflexivity|]. intros ->. reflexivity.
Qed.
(** The divisions refuted in C07, C10, C14, C34 and C50, put right. *)
Example C84_ex1 : let y := 2 ^ 126 + 2 ^ 63 - 1 in let q := (2 ^ 64 - 2) * 2 ^ 64 + 100 in
  divisible (c := c256_64) false (q * y) y /\ @op_rem c256_64 false (E64 (q * y)) (E64 y) <> Ok (E64 0) /\
  @d_op_rem c256_64 (@fix_wrapping_div_rem c256_64) false (E64 (q * y)) (E64 y) = Ok (E64 0) /\
  @d_s_div_floor c256_64 (@fix_wrapping_div_rem c256_64) (E64 (- (q * y))) (E64 y) = Ok (E64 (- q)) /\
  @d_u_is_multiple_of c256_64 (@fix_wrapping_div_rem c256_64) (E64 (q * y)) (E64 y) = Ok true.
Proof. cbv zeta. split; [split; [discriminate|intros (E & _); discriminate]|]. split; [vm_compute; discriminate|]. vm_compute. auto. Qed.
Example C84_ex2 : @op_div c256_64 false (E64 (2 ^ 193 + 1)) (E64 (2 ^ 192 + 1)) = Panic /\
  @fix_wrapping_div_rem c256_64 false (E64 (2 ^ 193 + 1)) (E64 (2 ^ 192 + 1)) = Ok (E64 1, E64 (2 ^ 192)) /\
  @wrapping_div c256_64 false (E64 0) (E64 0) = Ok (E64 1) /\ d_wrapping_div (@fix_wrapping_div_rem c256_64) false (E64 0) (E64 0) = Panic.
Proof. vm_compute. auto. Qed.
Example C84_ex3 : @fix_u_checked_ilog c256_64 (@fix_wrapping_div_rem c256_64) (E64 5) (E64 10) = Ok (Some 0) /\
  @fix_u_checked_ilog c256_64 (@fix_wrapping_div_rem c256_64) (E64 1000) (E64 10) = Ok (Some 3) /\ @fix_u_checked_ilog c256_64 (@fix_wrapping_div_rem c256_64) (E64 5) (E64 1) = Ok None /\
  @fix_s_checked_ilog c256_32 (@fix_wrapping_div_rem c256_32) (E32 (2 ^ 254)) (E32 2) = Ok (Some 254).
Proof. vm_compute. auto. Qed.
(** By a scalar: a wide one, for which the code panics or answers otherwise. *)
Example C84_ex4 : let y := 2 ^ 126 + 2 ^ 63 - 1 in let q := (2 ^ 64 - 2) * 2 ^ 64 + 100 in
  fits_u 128 y /\ @wrapping_div_rem_us c256_64 K128 false (E64 (q * y + 7)) y <> Ok (E64 q, 7) /\
  @d_wrapping_div_rem_us c256_64 (@fix_div_by c256_64) K128 false (E64 (q * y + 7)) y = Ok (E64 q, 7) /\
  @d_wrapping_div_rem_us c256_64 (@fix_div_by c256_64) K128 true (E64 (- 7)) y = Ok (E64 (-1), y - 7) /\
  @d_checked_div_rem_is c256_64 (@fix_div_by c256_64) K128 (E64 (- 7)) (- 2) = Ok (Some (E64 3, -1)).
Proof. cbv zeta. split; [vm_compute; split; [discriminate|reflexivity]|]. split; [vm_compute; discriminate|]. vm_compute. auto. Qed.

(** ** Assumptions (each must print "Closed under the global context") *)

Print Assumptions C84_same_code.
Print Assumptions C84_division.
Print Assumptions C84_pairs.
Print Assumptions C84_zero.
Print Assumptions C84_min_over_m1.
Print Assumptions C84_rounding.
Print Assumptions C84_multiples.
Print Assumptions C84_ilog.
Print Assumptions C84_scalar_u.
Print Assumptions C84_scalar_i.
