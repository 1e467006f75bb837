(** * Proofs about MApi.v: rounding division, multiples, logarithm *)

Require Import ZArith List Bool Lia.
From Verif Require Import Prim Spec Facts MAdd PAdd MMul MShift MCore PCore PBits PWide MArith PArith PArith2 PPow PMisc
  MDiv DivSpec PDiv PKnuth PDivFull MApi PApi PApi2.
Import ListNotations.
Local Open Scope Z_scope.

Section P.
Context {c : Cfg}.
Hypothesis HV : Valid.
Local Notation W0 := (W_nonneg HV).

(** ** Rounding *)

Definition fl_of (x y : Z) (qr : Z * Z) : Z := if snd qr =? 0 then fst qr else fst qr - b2z (xorb (x <? 0) (y <? 0)).
Definition ce_of (x y : Z) (qr : Z * Z) : Z := if snd qr =? 0 then fst qr else fst qr + (1 - b2z (xorb (x <? 0) (y <? 0))).

Lemma eqb0 : forall sg x, wf x -> (uval x =? uval (ofZ 0)) = (val sg x =? 0).
Proof. intros. apply (eqb_ofZ HV); auto. apply (fits_0 HV). Qed.

Lemma s_div_floor_ok : forall x y, wf x -> wf y ->
  s_div_floor x y = lift1 (option_map (fl_of (sval x) (sval y)) (soutcome (sval x) (sval y))).
Proof.
  intros x y Hx Hy. unfold s_div_floor. rewrite (wrapping_div_rem_ok HV) by auto. cbn [val].
  destruct (soutcome _ _) as [[q r]|] eqn:E; cbn [lift_qr bind option_map lift1]; auto.
  pose proof (soutcome_rfits HV _ _ _ _ (sval_range HV x Hx) (sval_range HV y Hy) E) as Fr.
  rewrite !(is_negative_ok HV) by auto. cbn [bind]. rewrite (from_u8_ok HV) by wfauto. cbn [bind].
  rewrite (eq_const_ok HV) by wfauto. cbn [bind]. rewrite (eqb0 true) by wfauto. cbn [val].
  rewrite (sval_ofZ_fits HV) by auto. unfold fl_of. cbn [fst snd].
  destruct (r =? 0); cbn [negb]; auto. rewrite (wrapping_sub_ulimb_ok HV) by wfauto.
  rewrite (val_ofZ HV), (ofZ_sub_l HV). reflexivity.
Qed.

Lemma sign_div : forall v, fits_s BITS v -> v / 2 ^ (BITS - 1) = - b2z (v <? 0).
Proof.
  intros v (H1 & H2). pose proof (pBh HV). destruct (Z.ltb_spec v 0); cbn [b2z].
  - symmetry. apply Z.div_unique with (v + 2 ^ (BITS - 1)); lia.
  - apply Z.div_small. lia.
Qed.
Lemma xor_sign_div : forall x y, fits_s BITS x -> fits_s BITS y ->
  Z.lxor x y / 2 ^ (BITS - 1) = - b2z (xorb (x <? 0) (y <? 0)).
Proof.
  intros x y Hx Hy. pose proof (BITS_pos HV). rewrite <- Z.shiftr_div_pow2, Z.shiftr_lxor, !Z.shiftr_div_pow2 by lia.
  rewrite !sign_div by auto. destruct (x <? 0), (y <? 0); reflexivity.
Qed.

Lemma s_div_ceil_ok : forall x y, wf x -> wf y ->
  s_div_ceil x y = lift1 (option_map (ce_of (sval x) (sval y)) (soutcome (sval x) (sval y))).
Proof.
  intros x y Hx Hy. unfold s_div_ceil. rewrite (wrapping_div_rem_ok HV) by auto. cbn [val].
  destruct (soutcome _ _) as [[q r]|] eqn:E; cbn [lift_qr bind option_map lift1]; auto.
  pose proof (sval_range HV x Hx) as Rx. pose proof (sval_range HV y Hy) as Ry.
  pose proof (soutcome_rfits HV _ _ _ _ Rx Ry E) as Fr.
  rewrite (from_u8_ok HV) by wfauto. cbn [bind]. rewrite (bitxor_ok HV) by auto. cbn [bind].
  rewrite (tbits1 HV). cbn [bind]. rewrite (op_shr_ok HV) by (try lia; wfauto).
  pose proof (BITS_ge HV). pose proof (BITS_lt31 HV).
  assert (S : shift_ok false 32 (BITS - 1) = true).
  { unfold shift_ok. rewrite Z.mod_small by lia. apply andb_true_iff. split; [apply Z.ltb_lt|apply Z.leb_le]; lia. }
  rewrite S, andb_false_r. cbn [bind].
  rewrite (ofZ_lxor_s HV) by auto. cbn [val].
  rewrite (sval_ofZ_fits HV) by (apply lxor_fits_s; auto; lia).
  rewrite (Z.mod_small (BITS - 1) (2 ^ 32)), Z.mod_small by lia. rewrite xor_sign_div by auto.
  rewrite (op_add_ok HV) by wfauto. cbn [val].
  assert (F : forall b, fits_s BITS (- b2z b)).
  { intros []; cbn [b2z]; [apply (fits_m1 HV)|apply (fits_0 HV true)]. }
  rewrite (sval_ofZ_fits HV (- b2z _)), (sval_lit HV) by (auto; lia).
  rewrite op_result_fits.
  2:{ apply (fits_small HV). destruct (xorb _ _); cbn [b2z]; lia. }
  cbn [bind]. rewrite (from_u8_ok HV) by wfauto. cbn [bind]. rewrite (eq_const_ok HV) by wfauto. cbn [bind]. rewrite (eqb0 true) by wfauto. cbn [val].
  rewrite (sval_ofZ_fits HV) by auto. unfold ce_of. cbn [fst snd].
  destruct (r =? 0); cbn [negb]; auto. rewrite (wrapping_add_ok HV) by wfauto.
  rewrite !(val_ofZ HV), (ofZ_add_l HV), (ofZ_add_r HV). reflexivity.
Qed.

Lemma u_div_ceil_ok : forall x y, wf x -> wf y ->
  u_div_ceil x y = lift1 (option_map (ce_of (uval x) (uval y)) (soutcome (uval x) (uval y))).
Proof.
  intros x y Hx Hy. unfold u_div_ceil. rewrite (wrapping_div_rem_ok HV) by auto. cbn [val].
  pose proof (uval_range HV x Hx) as Rx. pose proof (uval_range HV y Hy) as Ry.
  rewrite soutcome_u by lia.
  destruct (div_outcome _ _ _ _) as [[q r]|] eqn:E; cbn [lift_qr bind option_map lift1]; auto.
  destruct (outcome_range HV _ _ _ _ Rx Ry E) as (R & _).
  rewrite (from_u8_ok HV) by wfauto. cbn [bind]. rewrite (eq_const_ok HV) by wfauto. cbn [bind].
  rewrite (eqb0 false) by wfauto. rewrite (val_ofZ_small HV false r) by exact R.
  unfold ce_of. cbn [fst snd]. destruct (r =? 0); cbn [negb]; auto.
  rewrite (wrapping_add_ulimb_ok HV) by wfauto. rewrite (val_ofZ HV), (ofZ_add_l HV).
  destruct (Z.ltb_spec (uval x) 0); [lia|]. destruct (Z.ltb_spec (uval y) 0); [lia|]. reflexivity.
Qed.

Lemma floor_num : forall x y, y <> 0 -> fl_of x y (Z.quot x y, Z.rem x y) = x / y.
Proof.
  intros x y Hy. unfold fl_of. cbn [fst snd].
  pose proof (Z.quot_rem' x y) as E. pose proof (Z.rem_bound_abs x y Hy) as R.
  pose proof (Z.rem_sign_nz x y Hy) as S. 
  set (q := Z.quot x y) in *. set (r := Z.rem x y) in *. clearbody q r.
  destruct (Z.eqb_spec r 0) as [E0|].
  - apply Z.div_unique_exact; auto. lia.
  - specialize (S ltac:(auto)). destruct (Z.ltb_spec x 0), (Z.ltb_spec y 0); cbn [xorb b2z].
    + apply Z.div_unique with r; lia.
    + assert (r < 0) by (destruct x, r; cbn in S; lia). apply Z.div_unique with (r + y); lia.
    + assert (0 < r) by (destruct x, r; cbn in S; try lia; discriminate). apply Z.div_unique with (r + y); lia.
    + assert (0 < r) by (destruct x, r; cbn in S; try lia; discriminate). apply Z.div_unique with r; lia.
Qed.
Lemma ceil_num : forall x y, y <> 0 -> ce_of x y (Z.quot x y, Z.rem x y) = - ((- x) / y).
Proof.
  intros x y Hy. pose proof (floor_num x y Hy) as F. unfold fl_of, ce_of in *. cbn [fst snd] in *.
  destruct (Z.eqb_spec (Z.rem x y) 0) as [E|E].
  - pose proof (Z.quot_rem' x y) as Q. rewrite E in Q. rewrite Q at 2. replace (- (y * Z.quot x y + 0)) with ((- Z.quot x y) * y) by ring.
    rewrite Z.div_mul by auto. ring.
  - assert (x mod y <> 0). { intros M. apply E. apply Z.rem_divide; auto. apply Z.mod_divide in M; auto. }
    rewrite Z.div_opp_l_nz by auto. rewrite <- F. ring.
Qed.

(** ** Multiples *)

Lemma fu : forall v, 0 <= v < 2 ^ BITS -> fits false v.
Proof. intros v H. exact H. Qed.
Definition nm (x y : Z) : Z := if x mod y =? 0 then x else x + (y - x mod y).

Lemma u_next_multiple_of_ok : forall x y, wf x -> wf y -> uval y <> 0 -> exact_division W N (uval x) (uval y) ->
  u_next_multiple_of x y = op_result false (nm (uval x) (uval y)).
Proof.
  intros x y Hx Hy Hy0 HU. pose proof (uval_range HV x Hx) as Rx. pose proof (uval_range HV y Hy) as Ry.
  unfold u_next_multiple_of. rewrite (op_rem_ok HV) by auto. cbn [val].
  rewrite sr_exact by (rewrite ?Z.abs_eq by lia; auto). unfold opd, dnone, dovf. cbn [andb orb].
  destruct (Z.eqb_spec (uval y) 0); [lia|]. cbn [orb andb]. rewrite andb_false_r. cbn [lift1 bind].
  rewrite Z.rem_mod_nonneg by lia. assert (Py : 0 < uval y) by lia. pose proof (Z.mod_pos_bound (uval x) (uval y) Py) as Rm.
  rewrite (u_min_value_ok HV). cbn [bind]. rewrite (derived_eq_ok HV) by wfauto. rewrite (eqb0 false) by wfauto.
  rewrite (val_ofZ_small HV false (uval x mod uval y)) by (apply fu; lia). unfold nm.
  destruct (uval x mod uval y =? 0).
  - rewrite op_result_fits by exact Rx. rewrite (ofZ_uv HV) by auto. reflexivity.
  - rewrite (op_sub_ok HV) by wfauto. cbn [val]. change (uval (ofZ (uval x mod uval y))) with (val false (ofZ (uval x mod uval y))).
    rewrite (val_ofZ_small HV false (uval x mod uval y)) by (apply fu; lia).
    rewrite op_result_fits by (apply fu; lia). cbn [bind]. rewrite (op_add_ok HV) by wfauto.
    rewrite (val_ofZ_small HV false (uval y - uval x mod uval y)) by (apply fu; lia). reflexivity.
Qed.
Lemma u_checked_next_multiple_of_ok : forall x y, wf x -> wf y -> exact_division W N (uval x) (uval y) ->
  u_checked_next_multiple_of x y =
  Ok (if uval y =? 0 then None else some_if (fitsb false (nm (uval x) (uval y))) (nm (uval x) (uval y))).
Proof.
  intros x y Hx Hy HU. pose proof (uval_range HV x Hx) as Rx. pose proof (uval_range HV y Hy) as Ry.
  unfold u_checked_next_multiple_of. rewrite (checked_rem_ok HV) by auto. cbn [val]. unfold chko, dnone, dovf. cbn [andb].
  rewrite orb_false_r. destruct (Z.eqb_spec (uval y) 0); [reflexivity|].
  rewrite sr_exact by (rewrite ?Z.abs_eq by lia; auto). cbn [lift_o bind].
  rewrite Z.rem_mod_nonneg by lia. assert (Py : 0 < uval y) by lia. pose proof (Z.mod_pos_bound (uval x) (uval y) Py) as Rm.
  rewrite (u_min_value_ok HV). cbn [bind]. rewrite (derived_eq_ok HV) by wfauto. rewrite (eqb0 false) by wfauto.
  rewrite (val_ofZ_small HV false (uval x mod uval y)) by (apply fu; lia). unfold nm.
  destruct (uval x mod uval y =? 0).
  - destruct (fitsb_reflect false (uval x)) as [F|F]; [|exfalso; apply F; exact Rx]. unfold some_if. rewrite (ofZ_uv HV) by auto. reflexivity.
  - rewrite (wrapping_sub_ok HV) by wfauto. cbn [bind val]. change (uval (ofZ (uval x mod uval y))) with (val false (ofZ (uval x mod uval y))).
    rewrite (val_ofZ_small HV false (uval x mod uval y)) by (apply fu; lia).
    rewrite (checked_add_ok HV) by wfauto. rewrite (val_ofZ_small HV false (uval y - uval x mod uval y)) by (apply fu; lia). reflexivity.
Qed.
Lemma u_is_multiple_of_ok : forall x y, wf x -> wf y -> exact_division W N (uval x) (uval y) ->
  u_is_multiple_of x y = Ok (if uval y =? 0 then uval x =? 0 else uval x mod uval y =? 0).
Proof.
  intros x y Hx Hy HU. pose proof (uval_range HV x Hx) as Rx. pose proof (uval_range HV y Hy) as Ry.
  unfold u_is_multiple_of. rewrite (u_min_value_ok HV). cbn [bind]. rewrite (derived_eq_ok HV) by wfauto.
  rewrite (eqb0 false) by auto. cbn [val]. destruct (Z.eqb_spec (uval y) 0).
  - rewrite (eq_const_ok HV) by wfauto. rewrite (eqb0 false) by auto. reflexivity.
  - rewrite (wrapping_rem_ok HV) by auto. cbn [val]. rewrite sr_exact by (rewrite ?Z.abs_eq by lia; auto). cbn [lift1 bind].
    rewrite Z.rem_mod_nonneg by lia. assert (Py : 0 < uval y) by lia. pose proof (Z.mod_pos_bound (uval x) (uval y) Py) as Rm.
    rewrite (eq_const_ok HV) by wfauto. rewrite (eqb0 false) by wfauto.
    rewrite (val_ofZ_small HV false (uval x mod uval y)) by (apply fu; lia). reflexivity.
Qed.

(** floor remainder from the truncated one *)
Lemma mod_of_rem : forall x y, y <> 0 ->
  x mod y = (if ((0 <? Z.rem x y) && (y <? 0)) || ((Z.rem x y <? 0) && (0 <? y)) then Z.rem x y + y else Z.rem x y).
Proof.
  intros x y Hy. pose proof (Z.quot_rem' x y) as E. pose proof (Z.rem_bound_abs x y Hy) as R.
  set (q := Z.quot x y) in *. set (r := Z.rem x y) in *. clearbody q r.
  destruct (Z.ltb_spec 0 r), (Z.ltb_spec y 0), (Z.ltb_spec r 0), (Z.ltb_spec 0 y); cbn [andb orb]; try lia;
    symmetry; ((apply Z.mod_unique with (q - 1); lia) || (apply Z.mod_unique with q; lia)).
Qed.

Lemma s_mod_facts : forall x y, fits_s BITS x -> fits_s BITS y -> y <> 0 ->
  fits_s BITS (Z.rem x y) /\ fits_s BITS (x mod y) /\ fits_s BITS (y - x mod y) .
Proof.
  intros x y Hx Hy H0. unfold fits_s in *. pose proof (Z.rem_bound_abs x y H0).
  destruct (Z.le_gt_cases 0 y); [pose proof (Z.mod_pos_bound x y ltac:(lia))|pose proof (Z.mod_neg_bound x y ltac:(lia))]; lia.
Qed.

Lemma dnone_m1 : forall x y, y <> 0 -> y <> -1 -> dnone true x y = false.
Proof.
  intros x y H0 H1. unfold dnone, dovf. apply Z.eqb_neq in H0, H1. rewrite H0, H1. rewrite andb_false_r. reflexivity.
Qed.
Lemma nm_m1 : forall x, nm x (-1) = x.
Proof. intros x. unfold nm. replace (x mod -1) with 0; auto. apply Z.mod_unique with (- x); lia. Qed.

Lemma s_next_multiple_of_ok : forall x y, wf x -> wf y -> sval y <> 0 -> exact_division W N (Z.abs (sval x)) (Z.abs (sval y)) ->
  s_next_multiple_of x y = op_result true (nm (sval x) (sval y)).
Proof.
  intros x y Hx Hy H0 HU. pose proof (sval_range HV x Hx) as Rx. pose proof (sval_range HV y Hy) as Ry.
  unfold s_next_multiple_of. rewrite (from_i8_ok HV) by wfauto. cbn [bind]. rewrite (eq_const_ok HV) by wfauto. cbn [bind].
  rewrite (eqb_ofZ HV true) by (auto; apply (fits_m1 HV)). cbn [val].
  destruct (Z.eqb_spec (sval y) (-1)) as [E|E].
  { rewrite E, nm_m1, op_result_fits by exact Rx. rewrite (ofZ_sval HV) by auto. reflexivity. }
  rewrite (from_u8_ok HV) by wfauto. cbn [bind]. rewrite (op_rem_ok HV) by auto. cbn [val].
  rewrite sr_exact by auto. unfold opd. rewrite dnone_m1, andb_false_r by auto. cbn [lift1 bind].
  destruct (s_mod_facts _ _ Rx Ry H0) as (F1 & F2 & F3).
  rewrite (gt_const_ok HV) by wfauto. cbn [bind val]. rewrite (lt_const_ok HV) by wfauto. cbn [bind val].
  rewrite (lt_const_ok HV) by wfauto. cbn [bind val]. rewrite (gt_const_ok HV) by wfauto. cbn [bind val].
  rewrite !(sval_ofZ_fits HV (Z.rem _ _)), !(sval_lit HV 0) by (auto; lia).
  assert (M : (if ((0 <? Z.rem (sval x) (sval y)) && (sval y <? 0)) || ((Z.rem (sval x) (sval y) <? 0) && (0 <? sval y))
               then op_add true (ofZ (Z.rem (sval x) (sval y))) y else Ok (ofZ (Z.rem (sval x) (sval y)))) = Ok (ofZ (sval x mod sval y))).
  { pose proof (mod_of_rem (sval x) (sval y) H0) as MR. destruct (_ || _).
    - rewrite (op_add_ok HV) by wfauto. cbn [val]. rewrite (sval_ofZ_fits HV) by auto. rewrite <- MR.
      apply op_result_fits. exact F2.
    - rewrite MR. reflexivity. }
  rewrite M. cbn [bind]. rewrite (eq_const_ok HV) by wfauto. cbn [bind]. rewrite (eqb0 true) by wfauto. cbn [val].
  rewrite (sval_ofZ_fits HV) by auto. unfold nm. destruct (sval x mod sval y =? 0).
  - rewrite op_result_fits by exact Rx. rewrite (ofZ_sval HV) by auto. reflexivity.
  - rewrite (op_sub_ok HV) by wfauto. cbn [val]. rewrite (sval_ofZ_fits HV) by auto. rewrite op_result_fits by exact F3.
    cbn [bind]. rewrite (op_add_ok HV) by wfauto. cbn [val]. rewrite (sval_ofZ_fits HV) by auto. reflexivity.
Qed.
Lemma s_checked_next_multiple_of_ok : forall x y, wf x -> wf y -> exact_division W N (Z.abs (sval x)) (Z.abs (sval y)) ->
  s_checked_next_multiple_of x y =
  Ok (if sval y =? 0 then None else some_if (fitsb true (nm (sval x) (sval y))) (nm (sval x) (sval y))).
Proof.
  intros x y Hx Hy HU. pose proof (sval_range HV x Hx) as Rx. pose proof (sval_range HV y Hy) as Ry.
  unfold s_checked_next_multiple_of. rewrite (from_i8_ok HV) by wfauto. cbn [bind]. rewrite (eq_const_ok HV) by wfauto. cbn [bind].
  rewrite (eqb_ofZ HV true) by (auto; apply (fits_m1 HV)). cbn [val].
  assert (FX : fitsb true (sval x) = true) by (apply fitsb_spec; exact Rx).
  destruct (Z.eqb_spec (sval y) (-1)) as [E|E].
  { rewrite E, nm_m1. cbn [Z.eqb]. rewrite FX. unfold some_if. rewrite (ofZ_sval HV) by auto. reflexivity. }
  rewrite (from_u8_ok HV) by wfauto. cbn [bind]. rewrite (checked_rem_ok HV) by auto. cbn [val]. unfold chko.
  destruct (Z.eqb_spec (sval y) 0) as [E0|H0].
  { unfold dnone. rewrite E0. reflexivity. }
  rewrite dnone_m1 by auto. rewrite sr_exact by auto. cbn [lift_o bind].
  destruct (s_mod_facts _ _ Rx Ry H0) as (F1 & F2 & F3).
  rewrite (is_positive_ok HV) by wfauto. cbn [bind]. rewrite (is_negative_ok HV) by wfauto. cbn [bind].
  rewrite (is_negative_ok HV) by wfauto. cbn [bind]. rewrite (is_positive_ok HV) by wfauto. cbn [bind].
  rewrite ?(sval_ofZ_fits HV (Z.rem _ _)) by auto.
  assert (M : (if ((0 <? Z.rem (sval x) (sval y)) && (sval y <? 0)) || ((Z.rem (sval x) (sval y) <? 0) && (0 <? sval y))
               then op_add true (ofZ (Z.rem (sval x) (sval y))) y else Ok (ofZ (Z.rem (sval x) (sval y)))) = Ok (ofZ (sval x mod sval y))).
  { pose proof (mod_of_rem (sval x) (sval y) H0) as MR. destruct (_ || _).
    - rewrite (op_add_ok HV) by wfauto. cbn [val]. rewrite (sval_ofZ_fits HV) by auto. rewrite <- MR.
      apply op_result_fits. exact F2.
    - rewrite MR. reflexivity. }
  rewrite M. cbn [bind]. rewrite (eq_const_ok HV) by wfauto. cbn [bind]. rewrite (eqb0 true) by wfauto. cbn [val].
  rewrite (sval_ofZ_fits HV) by auto. unfold nm. destruct (sval x mod sval y =? 0).
  - rewrite FX. unfold some_if. rewrite (ofZ_sval HV) by auto. reflexivity.
  - rewrite (op_sub_ok HV) by wfauto. cbn [val]. rewrite (sval_ofZ_fits HV) by auto. rewrite op_result_fits by exact F3.
    cbn [bind]. rewrite (checked_add_ok HV) by wfauto. cbn [val]. rewrite (sval_ofZ_fits HV) by auto. reflexivity.
Qed.
(** what the number is *)
Lemma nm_pos : forall x y, 0 < y -> (y | nm x y) /\ x <= nm x y < x + y.
Proof.
  intros x y Hy. pose proof (Z.mod_pos_bound x y Hy). pose proof (Z.div_mod x y ltac:(lia)). unfold nm.
  destruct (Z.eqb_spec (x mod y) 0).
  - split; [exists (x / y); lia|lia].
  - split; [exists (x / y + 1); lia|lia].
Qed.
Lemma nm_neg : forall x y, y < 0 -> (y | nm x y) /\ x + y < nm x y <= x.
Proof.
  intros x y Hy. pose proof (Z.mod_neg_bound x y Hy). pose proof (Z.div_mod x y ltac:(lia)). unfold nm.
  destruct (Z.eqb_spec (x mod y) 0).
  - split; [exists (x / y); lia|lia].
  - split; [exists (x / y + 1); lia|lia].
Qed.
End P.
