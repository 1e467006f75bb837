(** * Proofs about MArith.v: checked, strict and operator forms, negation,
      absolute value, mixed-sign operations, saturation *)

Require Import ZArith List Bool Lia.
From Verif Require Import Prim Spec Facts MAdd PAdd PAddS MMul PMul PMulS MShift PShift PRot MCore PCore PBits PWide MArith PArith.
Import ListNotations.
Local Open Scope Z_scope.

Lemma fits_u_b2z : forall {c : Cfg}, Valid -> forall b, fits_u W (b2z b).
Proof. intros c HV b. pose proof (b2z_range b). pose proof (pow2_ge2 W ltac:(destruct (W_cases HV); lia)). unfold fits_u. lia. Qed.
Lemma fits_u_small : forall {c : Cfg}, Valid -> forall v, 0 <= v < 2 ^ 32 -> fits_u W v.
Proof. intros c HV v H. unfold fits_u. pose proof (pow_W_le HV 32 ltac:(lia)). lia. Qed.
#[global] Hint Resolve fits_u_b2z : wfdb.
#[global] Hint Extern 2 (fits_u W _) => (apply fits_u_small; [assumption|lia]) : wfdb.

Section P.
Context {c : Cfg}.
Hypothesis HV : Valid.

Lemma val_lit : forall sg v, 0 <= v < 2 ^ 255 -> val sg (ofZ v) = v.
Proof. intros. apply (val_ofZ_small HV). apply (fits_small HV). auto. Qed.
Lemma uval_lit : forall v, 0 <= v < 2 ^ 255 -> uval (ofZ v) = v.
Proof. intros. apply (val_lit false). auto. Qed.
Lemma sval_lit : forall v, 0 <= v < 2 ^ 255 -> sval (ofZ v) = v.
Proof. intros. apply (val_lit true). auto. Qed.
Lemma ofZ_uv : forall x, wf x -> ofZ (uval x) = x.
Proof. intros. apply (ofZ_uval HV); auto. Qed.
End P.
#[global] Hint Rewrite @val_lit @uval_lit @sval_lit using (solve [auto | lia]) : mon.

Section P2.
Context {c : Cfg}.
Hypothesis HV : Valid.
Local Notation W0 := (W_nonneg HV).

(** The outcome of an operator whose mathematical result is [v]. *)
Definition op_result (sg : bool) (v : Z) : res (list Z) :=
  if chk && negb (fitsb sg v) then Panic else Ok (ofZ v).
Definition some_if (b : bool) (v : Z) : option (list Z) := if b then Some (ofZ v) else None.
Definition ok_if (b : bool) (v : Z) : res (list Z) := if b then Ok (ofZ v) else Panic.

Lemma unwrap_some_if : forall b v, unwrap (Ok (some_if b v)) = ok_if b v.
Proof. intros [] v; reflexivity. Qed.
Lemma op_result_eq : forall sg v m,
  m = Ok (some_if (fitsb sg v) v) ->
  (if negb chk then Ok (ofZ v) else unwrap m) = op_result sg v.
Proof.
  intros sg v m ->. unfold op_result. destruct chk; cbn [negb andb]; auto. rewrite unwrap_some_if.
  destruct (fitsb sg v); reflexivity.
Qed.

Lemma checked_add_ok : forall sg x y, wf x -> wf y ->
  checked_add sg x y = Ok (some_if (fitsb sg (val sg x + val sg y)) (val sg x + val sg y)).
Proof. intros. unfold checked_add. run. rewrite opt_eq, negb_involutive. reflexivity. Qed.
Lemma checked_sub_ok : forall sg x y, wf x -> wf y ->
  checked_sub sg x y = Ok (some_if (fitsb sg (val sg x - val sg y)) (val sg x - val sg y)).
Proof. intros. unfold checked_sub. run. rewrite opt_eq, negb_involutive. reflexivity. Qed.
Lemma checked_add_ulimb_ok : forall sg x n, wf x -> fits_u W n ->
  checked_add_ulimb sg x n = Ok (some_if (fitsb sg (val sg x + n)) (val sg x + n)).
Proof. intros. unfold checked_add_ulimb. run. rewrite opt_eq, negb_involutive. reflexivity. Qed.
Lemma checked_sub_ulimb_ok : forall sg x n, wf x -> fits_u W n ->
  checked_sub_ulimb sg x n = Ok (some_if (fitsb sg (val sg x - n)) (val sg x - n)).
Proof. intros. unfold checked_sub_ulimb. run. rewrite opt_eq, negb_involutive. reflexivity. Qed.
Lemma strict_add_ok : forall sg x y, wf x -> wf y ->
  strict_add sg x y = ok_if (fitsb sg (val sg x + val sg y)) (val sg x + val sg y).
Proof. intros. unfold strict_add. rewrite checked_add_ok by auto. apply unwrap_some_if. Qed.
Lemma strict_sub_ok : forall sg x y, wf x -> wf y ->
  strict_sub sg x y = ok_if (fitsb sg (val sg x - val sg y)) (val sg x - val sg y).
Proof. intros. unfold strict_sub. rewrite checked_sub_ok by auto. apply unwrap_some_if. Qed.
Lemma op_add_ok : forall sg x y, wf x -> wf y -> op_add sg x y = op_result sg (val sg x + val sg y).
Proof. intros. unfold op_add. run. apply op_result_eq. apply checked_add_ok; auto. Qed.
Lemma op_sub_ok : forall sg x y, wf x -> wf y -> op_sub sg x y = op_result sg (val sg x - val sg y).
Proof. intros. unfold op_sub. run. apply op_result_eq. apply checked_sub_ok; auto. Qed.
Lemma add_ulimb_ok : forall sg x n, wf x -> fits_u W n -> add_ulimb sg x n = op_result sg (val sg x + n).
Proof. intros. unfold add_ulimb. run. apply op_result_eq. apply checked_add_ulimb_ok; auto. Qed.
Lemma sub_ulimb_ok : forall sg x n, wf x -> fits_u W n -> sub_ulimb sg x n = op_result sg (val sg x - n).
Proof. intros. unfold sub_ulimb. run. apply op_result_eq. apply checked_sub_ulimb_ok; auto. Qed.
Lemma op_result_fits : forall sg v, fits sg v -> op_result sg v = Ok (ofZ v).
Proof. intros sg v H. unfold op_result. apply fitsb_spec in H. rewrite H. cbn. rewrite andb_false_r. auto. Qed.

(** ** Integer logarithm base 2 and checked multiplication *)

Lemma tbits1 : usub 32 tbits 1 = Ok (BITS - 1).
Proof. unfold usub. rewrite tbits_BITS. pose proof (BITS_ge HV). pose proof (BITS_lt HV). apply uchk_ok. lia. Qed.

Lemma val_pos_uval : forall sg x, wf x -> 0 <= val sg x -> val sg x = uval x.
Proof.
  intros [] x Hx H; auto. cbn in *. unfold sval in *. pose proof (uval_range HV x Hx).
  destruct (Z.ltb_spec (uval x) (2 ^ (BITS - 1))); lia.
Qed.

Lemma log2_range : forall v, 0 < v < 2 ^ BITS -> 0 <= Z.log2 v < BITS.
Proof. intros v H. split; [apply Z.log2_nonneg|]. apply Z.log2_lt_pow2; lia. Qed.

Lemma checked_ilog2_ok : forall sg x, wf x ->
  checked_ilog2 sg x = Ok (if val sg x <=? 0 then None else Some (Z.log2 (val sg x))).
Proof.
  intros sg x Hx. unfold checked_ilog2. run. destruct (Z.leb_spec (val sg x) 0); auto.
  rewrite (leading_zeros_ok HV) by auto. cbn [bind]. rewrite tbits1. cbn [bind].
  pose proof (val_pos_uval sg x Hx ltac:(lia)) as Ev. rewrite Ev in *. pose proof (uval_range HV x Hx).
  assert (0 <= Z.log2 (uval x) < BITS) by (apply log2_range; lia). pose proof (BITS_lt HV).
  unfold lz_of. destruct (Z.eqb_spec (uval x) 0); [lia|]. unfold usub. rewrite uchk_ok by lia. cbn [bind].
  do 2 f_equal. lia.
Qed.

Lemma checked_mul_ok : forall sg x y, wf x -> wf y ->
  checked_mul sg x y = Ok (some_if (negb (mulf sg (val sg x) (val sg y))) (val sg x * val sg y)).
Proof.
  intros sg x y Hx Hy. unfold checked_mul. destruct sg; cbn [negb].
  - run. rewrite opt_eq. reflexivity.
  - rewrite !checked_ilog2_ok by auto. cbn [bind]. cbn [val].
    pose proof (uval_range HV x Hx) as Rx. pose proof (uval_range HV y Hy) as Ry.
    assert (Z0 : forall a b, a * b = 0 -> Ok (Some (ofZ 0)) = Ok (some_if (negb (mulf false a b)) (a * b))).
    { intros a b E. rewrite mulf_fits; rewrite ?E; auto. apply (fits_0 HV). }
    run.
    destruct (Z.leb_spec (uval x) 0); [rewrite <- Z0; auto; lia|].
    destruct (Z.leb_spec (uval y) 0); [rewrite <- Z0; auto; nia|].
    assert (0 <= Z.log2 (uval x) < BITS) by (apply log2_range; lia).
    assert (0 <= Z.log2 (uval y) < BITS) by (apply log2_range; lia). pose proof (BITS_lt31 HV).
    unfold uadd. rewrite uchk_ok by lia. cbn [bind]. rewrite tbits1. cbn [bind].
    destruct (Z.ltb_spec (BITS - 1) (Z.log2 (uval x) + Z.log2 (uval y))).
    + assert (2 ^ BITS <= uval x * uval y).
      { pose proof (Z.log2_spec (uval x) H) as S1. pose proof (Z.log2_spec (uval y) H0) as S2.
        apply Z.le_trans with (2 ^ (Z.log2 (uval x) + Z.log2 (uval y))); [apply pow2_le_mono; pose proof (BITS_pos HV); lia|].
        rewrite Z.pow_add_r by lia. apply Z.mul_le_mono_nonneg; try lia; apply pow2_pos'. }
      unfold mulf. destruct (fitsb_reflect false (uval x * uval y)) as [F|F]; auto.
      cbn in F. unfold fits_u in F. lia.
    + run. rewrite opt_eq. reflexivity.
Qed.
Lemma strict_mul_ok : forall sg x y, wf x -> wf y ->
  strict_mul sg x y = ok_if (negb (mulf sg (val sg x) (val sg y))) (val sg x * val sg y).
Proof. intros. unfold strict_mul. rewrite checked_mul_ok by auto. apply unwrap_some_if. Qed.
Lemma op_mul_ok : forall sg x y, wf x -> wf y ->
  op_mul sg x y = if chk && mulf sg (val sg x) (val sg y) then Panic else Ok (ofZ (val sg x * val sg y)).
Proof.
  intros sg x y Hx Hy. unfold op_mul. rewrite checked_mul_ok by auto. run. destruct chk; cbn [negb andb]; auto.
  rewrite unwrap_some_if. unfold ok_if. destruct (mulf _ _ _); reflexivity.
Qed.
Lemma op_mul_fits : forall sg x y, wf x -> wf y -> fits sg (val sg x * val sg y) ->
  op_mul sg x y = Ok (ofZ (val sg x * val sg y)).
Proof. intros. rewrite op_mul_ok by auto. rewrite mulf_fits by auto. rewrite andb_false_r. auto. Qed.

(** ** carrying_add, borrowing_sub *)

Lemma big_carrying_add_ok : forall sg x y cy, wf x -> wf y ->
  big_carrying_add sg x y cy = Ok (ofZ (val sg x + val sg y + b2z cy),
    negb (fitsb sg (val sg x + val sg y)) || negb (fitsb sg (wrapz sg (val sg x + val sg y) + b2z cy))).
Proof.
  intros sg x y cy Hx Hy. unfold big_carrying_add. run. rewrite val_ofZ by auto. rewrite ofZ_add_l by auto. auto.
Qed.
Lemma big_borrowing_sub_ok : forall sg x y cy, wf x -> wf y ->
  big_borrowing_sub sg x y cy = Ok (ofZ (val sg x - val sg y - b2z cy),
    negb (fitsb sg (val sg x - val sg y)) || negb (fitsb sg (wrapz sg (val sg x - val sg y) - b2z cy))).
Proof.
  intros sg x y cy Hx Hy. unfold big_borrowing_sub. run. rewrite val_ofZ by auto. rewrite ofZ_sub_l by auto. auto.
Qed.
(** For the unsigned type the flag is exactly the carry out. *)
Lemma carry_flag_u : forall a b cy, fits false a -> fits false b ->
  negb (fitsb false (a + b)) || negb (fitsb false (wrapz false (a + b) + b2z cy)) = negb (fitsb false (a + b + b2z cy)).
Proof.
  intros a b cy Ha Hb. cbn in Ha, Hb. unfold fits_u in *. pose proof (b2z_range cy).
  destruct (fitsb_reflect false (a + b)) as [F|F]; cbn [negb orb].
  - rewrite (wrapz_small HV) by auto. auto.
  - destruct (fitsb_reflect false (a + b + b2z cy)) as [G|G]; auto. cbn in F, G. unfold fits_u in *. lia.
Qed.
Lemma borrow_flag_u : forall a b cy, fits false a -> fits false b ->
  negb (fitsb false (a - b)) || negb (fitsb false (wrapz false (a - b) - b2z cy)) = negb (fitsb false (a - b - b2z cy)).
Proof.
  intros a b cy Ha Hb. cbn in Ha, Hb. unfold fits_u in *. pose proof (b2z_range cy).
  destruct (fitsb_reflect false (a - b)) as [F|F]; cbn [negb orb].
  - rewrite (wrapz_small HV) by auto. auto.
  - destruct (fitsb_reflect false (a - b - b2z cy)) as [G|G]; auto. cbn in F, G. unfold fits_u in *. lia.
Qed.
(** For the signed type it can be set although the sum fits, in exactly one
    situation: the two operands overflow by one and the carry undoes it. *)
Lemma carry_flag_s : forall a b cy, fits true a -> fits true b ->
  negb (fitsb true (a + b)) || negb (fitsb true (wrapz true (a + b) + b2z cy)) =
  (negb (fitsb true (a + b + b2z cy)) || (cy && (a + b =? - 2 ^ (BITS - 1) - 1))).
Proof.
  intros a b cy Ha Hb. cbn in Ha, Hb. unfold fits_s in *. pose proof (pBh HV). pose proof (pBhalf HV).
  destruct (fitsb_reflect true (a + b)) as [F|F]; cbn [negb orb].
  - rewrite (wrapz_small HV) by auto. cbn in F. unfold fits_s in F.
    destruct (Z.eqb_spec (a + b) (- 2 ^ (BITS - 1) - 1)); [lia|]. rewrite andb_false_r, orb_false_r. auto.
  - symmetry. destruct (fitsb_reflect true (a + b + b2z cy)) as [G|G]; auto. cbn in F, G. unfold fits_s in *.
    destruct cy; cbn [b2z negb orb andb] in *; [apply Z.eqb_eq|]; lia.
Qed.
Lemma borrow_flag_s : forall a b cy, fits true a -> fits true b ->
  negb (fitsb true (a - b)) || negb (fitsb true (wrapz true (a - b) - b2z cy)) =
  (negb (fitsb true (a - b - b2z cy)) || (cy && (a - b =? 2 ^ (BITS - 1)))).
Proof.
  intros a b cy Ha Hb. cbn in Ha, Hb. unfold fits_s in *. pose proof (pBh HV). pose proof (pBhalf HV).
  destruct (fitsb_reflect true (a - b)) as [F|F]; cbn [negb orb].
  - rewrite (wrapz_small HV) by auto. cbn in F. unfold fits_s in F.
    destruct (Z.eqb_spec (a - b) (2 ^ (BITS - 1))); [lia|]. rewrite andb_false_r, orb_false_r. auto.
  - symmetry. destruct (fitsb_reflect true (a - b - b2z cy)) as [G|G]; auto. cbn in F, G. unfold fits_s in *.
    destruct cy; cbn [b2z negb orb andb] in *; [apply Z.eqb_eq|]; lia.
Qed.

(** ** Negation and absolute value *)

Lemma eqb_uval_s : forall x v, wf x -> fits_s BITS v -> (uval x =? uval (ofZ v)) = (sval x =? v).
Proof.
  intros x v Hx Hv. rewrite (uval_eqb_val HV true) by wfauto. cbn [val]. f_equal.
  apply (val_ofZ_small HV true). auto.
Qed.
Lemma eqb_uval_lit : forall x v, wf x -> 0 <= v < 2 ^ 255 -> (uval x =? uval (ofZ v)) = (uval x =? v).
Proof. intros. rewrite (uval_lit HV) by auto. auto. Qed.
Lemma uval_zero : forall sg x, wf x -> (uval x =? 0) = (val sg x =? 0).
Proof.
  intros sg x Hx. assert (E : uval (ofZ 0) = 0) by (apply (uval_lit HV); lia).
  transitivity (uval x =? uval (ofZ 0)); [rewrite E; auto|]. rewrite (uval_eqb_val HV sg) by wfauto.
  rewrite (val_lit HV) by lia. auto.
Qed.

Lemma u_wrapping_neg_ok : forall x, wf x -> u_wrapping_neg x = Ok (ofZ (- uval x)).
Proof. intros. unfold u_wrapping_neg. run. cbn [val]. run. reflexivity. Qed.
Lemma u_checked_neg_ok : forall x, wf x -> u_checked_neg x = Ok (some_if (uval x =? 0) 0).
Proof.
  intros x Hx. unfold u_checked_neg. run. destruct (Z.eqb_spec (uval x) 0) as [E|E]; auto.
  unfold some_if. rewrite <- E, (ofZ_uv HV) by auto. auto.
Qed.
Lemma s_wrapping_neg_ok : forall x, wf x -> s_wrapping_neg x = Ok (ofZ (- sval x)).
Proof.
  intros x Hx. unfold s_wrapping_neg. run. cbn [val]. run.
  assert (E : ofZ (0 - sval x) = ofZ (sval (ofZ (-1 - uval x)) + 1)).
  { change (sval (ofZ (-1 - uval x))) with (val true (ofZ (-1 - uval x))). rewrite (val_ofZ HV), (ofZ_add_l HV).
    destruct (val_cong HV true x Hx) as (k & E). cbn in E. rewrite E. apply (ofZ_cong2 HV). exists (- k). ring. }
  rewrite E, Z.eqb_refl, dassert_true. cbn [bind]. rewrite <- E. reflexivity.
Qed.
Lemma min_fits : fits_s BITS (- 2 ^ (BITS - 1)).
Proof. pose proof (pBh HV). unfold fits_s. lia. Qed.
Lemma ofZ_min : ofZ (- 2 ^ (BITS - 1)) = ofZ (2 ^ (BITS - 1)).
Proof. apply (ofZ_cong HV) with (-1). pose proof (pBhalf HV). lia. Qed.
Lemma fits_neg : forall x, wf x -> fitsb true (- sval x) = negb (sval x =? - 2 ^ (BITS - 1)).
Proof.
  intros x Hx. pose proof (sval_range HV x Hx). destruct (fitsb_reflect true (- sval x)) as [F|F]; cbn in F; unfold fits_s in F;
    destruct (Z.eqb_spec (sval x) (- 2 ^ (BITS - 1))); auto; lia.
Qed.
Lemma s_overflowing_neg_ok : forall x, wf x ->
  s_overflowing_neg x = Ok (ofZ (- sval x), negb (fitsb true (- sval x))).
Proof.
  intros x Hx. unfold s_overflowing_neg. run. rewrite eqb_uval_s by (auto using min_fits).
  rewrite fits_neg by auto. rewrite negb_involutive.
  destruct (Z.eqb_spec (sval x) (- 2 ^ (BITS - 1))) as [E|E].
  - rewrite E, ofZ_min, Z.opp_involutive. auto.
  - rewrite s_wrapping_neg_ok by auto. reflexivity.
Qed.
Lemma s_overflowing_abs_ok : forall x, wf x ->
  s_overflowing_abs x = Ok (ofZ (Z.abs (sval x)), negb (fitsb true (Z.abs (sval x)))).
Proof.
  intros x Hx. unfold s_overflowing_abs. run. destruct (Z.ltb_spec (sval x) 0).
  - rewrite s_overflowing_neg_ok by auto. rewrite Z.abs_neq by lia. auto.
  - rewrite Z.abs_eq by lia. rewrite (ofZ_sval HV) by auto. do 2 f_equal.
    symmetry. rewrite negb_false_iff. apply fitsb_spec. apply (fits_val HV true x Hx).
Qed.
Lemma s_wrapping_abs_ok : forall x, wf x -> s_wrapping_abs x = Ok (ofZ (Z.abs (sval x))).
Proof. intros x Hx. unfold s_wrapping_abs. rewrite s_overflowing_abs_ok by auto. reflexivity. Qed.
Lemma s_checked_neg_ok : forall x, wf x -> s_checked_neg x = Ok (some_if (fitsb true (- sval x)) (- sval x)).
Proof. intros x Hx. unfold s_checked_neg. rewrite s_overflowing_neg_ok by auto. rewrite opt_eq, negb_involutive. auto. Qed.
Lemma s_checked_abs_ok : forall x, wf x -> s_checked_abs x = Ok (some_if (fitsb true (Z.abs (sval x))) (Z.abs (sval x))).
Proof. intros x Hx. unfold s_checked_abs. rewrite s_overflowing_abs_ok by auto. rewrite opt_eq, negb_involutive. auto. Qed.
Lemma s_strict_neg_ok : forall x, wf x -> s_strict_neg x = ok_if (fitsb true (- sval x)) (- sval x).
Proof. intros x Hx. unfold s_strict_neg. rewrite s_checked_neg_ok by auto. apply unwrap_some_if. Qed.
Lemma s_strict_abs_ok : forall x, wf x -> s_strict_abs x = ok_if (fitsb true (Z.abs (sval x))) (Z.abs (sval x)).
Proof. intros x Hx. unfold s_strict_abs. rewrite s_checked_abs_ok by auto. apply unwrap_some_if. Qed.
Lemma s_abs_ok : forall x, wf x -> s_abs x = ok_if (fitsb true (Z.abs (sval x))) (Z.abs (sval x)).
Proof. intros x Hx. unfold s_abs. rewrite s_checked_abs_ok by auto. apply unwrap_some_if. Qed.
Lemma op_neg_ok : forall x, wf x -> op_neg x = op_result true (- sval x).
Proof. intros x Hx. unfold op_neg. rewrite s_wrapping_neg_ok by auto. apply op_result_eq. apply s_checked_neg_ok; auto. Qed.
Lemma unsigned_abs_ok : forall x, wf x -> unsigned_abs x = Ok (ofZ (Z.abs (sval x))).
Proof. intros x Hx. unfold unsigned_abs. rewrite s_wrapping_abs_ok by auto. cbn [bind]. apply (mk_ok HV). Qed.
Lemma abs_diff_ok : forall sg x y, wf x -> wf y -> abs_diff sg x y = Ok (ofZ (Z.abs (val sg x - val sg y))).
Proof.
  intros sg x y Hx Hy. unfold abs_diff, as_unsigned. run.
  assert (A : ofZ (uval x - uval y) = ofZ (val sg x - val sg y)) by (apply ofZ_sub_uval; auto).
  assert (B : ofZ (uval y - uval x) = ofZ (val sg y - val sg x)) by (apply ofZ_sub_uval; auto).
  cbn [val] in *.
  destruct (Z.ltb_spec (val sg x) (val sg y)).
  - rewrite Z.abs_neq by lia. rewrite Z.opp_sub_distr, Z.add_comm, Z.add_opp_r, <- B. destruct sg; auto.
  - rewrite Z.abs_eq by lia. rewrite <- A. destruct sg; auto.
Qed.
Lemma signum_ok : forall x, wf x -> signum x = Ok (ofZ (Z.sgn (sval x))).
Proof.
  intros x Hx. unfold signum. run. cbn [val]. run.
  destruct (Z.compare_spec (sval x) 0).
  - rewrite H. reflexivity.
  - rewrite Z.sgn_neg by lia. reflexivity.
  - rewrite Z.sgn_pos by lia. reflexivity.
Qed.

(** ** Mixed-sign addition and subtraction *)

Lemma u_wrapping_add_signed_ok : forall x y, wf x -> wf y -> u_wrapping_add_signed x y = Ok (ofZ (uval x + sval y)).
Proof.
  intros x y Hx Hy. unfold u_wrapping_add_signed, as_unsigned. run. cbn [val]. f_equal.
  destruct (val_cong HV true y Hy) as (k & E). cbn in E. rewrite E. apply (ofZ_cong2 HV). exists (- k). ring.
Qed.
Lemma sval_cases : forall x, wf x ->
  (sval x < 0 /\ uval x = sval x + 2 ^ BITS) \/ (0 <= sval x /\ uval x = sval x).
Proof.
  intros x Hx. unfold sval. pose proof (uval_range HV x Hx). pose proof (pBhalf HV).
  destruct (Z.ltb_spec (uval x) (2 ^ (BITS - 1))); lia.
Qed.
Ltac flags := repeat match goal with
  | |- context [fitsb ?s ?v] => let F := fresh "F" in destruct (fitsb_reflect s v) as [F|F]; cbn in F; unfold fits_u, fits_s in F
  end.
Lemma u_overflowing_add_signed_ok : forall x y, wf x -> wf y ->
  u_overflowing_add_signed x y = Ok (ofZ (uval x + sval y), negb (fitsb false (uval x + sval y))).
Proof.
  intros x y Hx Hy. unfold u_overflowing_add_signed, from_signed. run. cbn [val].
  pose proof (uval_range HV x Hx). pose proof (sval_range HV y Hy). pose proof (pBhalf HV). pose proof (pBh HV).
  destruct (sval_cases y Hy) as [(Hn & E)|(Hn & E)].
  - rewrite E. f_equal. f_equal; [apply (ofZ_cong HV) with 1; ring|].
    destruct (Z.ltb_spec (sval y) 0); [|lia]. flags; cbn; auto; lia.
  - rewrite E. f_equal. f_equal. destruct (Z.ltb_spec (sval y) 0); [lia|]. apply xorb_false_r.
Qed.
Lemma u_overflowing_sub_signed_ok : forall x y, wf x -> wf y ->
  u_overflowing_sub_signed x y = Ok (ofZ (uval x - sval y), negb (fitsb false (uval x - sval y))).
Proof.
  intros x y Hx Hy. unfold u_overflowing_sub_signed, as_unsigned. run. cbn [val].
  pose proof (uval_range HV x Hx). pose proof (sval_range HV y Hy). pose proof (pBhalf HV). pose proof (pBh HV).
  destruct (sval_cases y Hy) as [(Hn & E)|(Hn & E)].
  - rewrite E. f_equal. f_equal; [apply (ofZ_cong HV) with (-1); ring|].
    destruct (Z.ltb_spec (sval y) 0); [|lia]. flags; cbn; auto; lia.
  - rewrite E. f_equal. f_equal. destruct (Z.ltb_spec (sval y) 0); [lia|]. apply xorb_false_r.
Qed.
Lemma u_checked_add_signed_ok : forall x y, wf x -> wf y ->
  u_checked_add_signed x y = Ok (some_if (fitsb false (uval x + sval y)) (uval x + sval y)).
Proof. intros x y Hx Hy. unfold u_checked_add_signed. rewrite u_overflowing_add_signed_ok, opt_eq, negb_involutive by auto. auto. Qed.
Lemma u_strict_add_signed_ok : forall x y, wf x -> wf y ->
  u_strict_add_signed x y = ok_if (fitsb false (uval x + sval y)) (uval x + sval y).
Proof. intros x y Hx Hy. unfold u_strict_add_signed. rewrite u_checked_add_signed_ok by auto. apply unwrap_some_if. Qed.

(** Clamping to the range of the type. *)
Definition clamp (sg : bool) (v : Z) : Z := Z.max (lo_of sg) (Z.min (hi_of sg) v).
Lemma clamp_fits : forall sg v, fits sg v -> clamp sg v = v.
Proof. intros sg v H. apply fits_bounds in H. unfold clamp. lia. Qed.
Lemma clamp_hi : forall sg v, hi_of sg <= v -> clamp sg v = hi_of sg.
Proof.
  intros sg v H. unfold clamp. assert (lo_of sg <= hi_of sg).
  { pose proof (pBh HV). pose proof (pB HV). destruct sg; cbn [lo_of hi_of]; lia. } lia.
Qed.
Lemma clamp_lo : forall sg v, v <= lo_of sg -> clamp sg v = lo_of sg.
Proof. intros sg v H. unfold clamp. lia. Qed.
Lemma ofZ_hi_u : ofZ (hi_of false) = ofZ (-1).
Proof. apply (ofZ_cong HV) with 1. cbn [hi_of]. ring. Qed.

Lemma u_saturating_add_signed_ok : forall x y, wf x -> wf y ->
  u_saturating_add_signed x y = Ok (ofZ (clamp false (uval x + sval y))).
Proof.
  intros x y Hx Hy. unfold u_saturating_add_signed, from_signed. run. cbn [val].
  pose proof (uval_range HV x Hx). pose proof (sval_range HV y Hy). pose proof (pBhalf HV). pose proof (pBh HV).
  destruct (sval_cases y Hy) as [(Hn & E)|(Hn & E)]; rewrite E.
  - destruct (Z.ltb_spec (sval y) 0); [|lia]. flags; cbn [negb eqb].
    + rewrite clamp_lo by (cbn [lo_of]; lia). reflexivity.
    + rewrite clamp_fits by (cbn; unfold fits_u; lia). f_equal. apply (ofZ_cong HV) with 1. ring.
  - destruct (Z.ltb_spec (sval y) 0); [lia|]. flags; cbn [negb eqb].
    + rewrite clamp_fits by (cbn; unfold fits_u; lia). reflexivity.
    + rewrite clamp_hi by (cbn [hi_of]; lia). rewrite ofZ_hi_u. reflexivity.
Qed.
Lemma u_checked_signed_diff_ok : forall x y, wf x -> wf y ->
  u_checked_signed_diff x y = Ok (some_if (fitsb true (uval x - uval y)) (uval x - uval y)).
Proof.
  intros x y Hx Hy. unfold u_checked_signed_diff, as_signed. run. rewrite (val_ofZ HV). cbn [val]. rewrite ?(val_lit HV true 0), ?(sval_lit HV 0) by lia.
  pose proof (uval_range HV x Hx). pose proof (uval_range HV y Hy). pose proof (pBhalf HV). pose proof (pBh HV).
  remember (uval x - uval y) as v eqn:Ev. unfold some_if. f_equal.
  destruct (fitsb_reflect true v) as [F|F].
  - rewrite (wrapz_small HV) by auto.
    destruct (Z.leb_spec (uval y) (uval x)), (Z.ltb_spec v 0); auto; lia.
  - cbn in F. unfold fits_s in F. cbn [wrapz].
    destruct (Z.leb_spec (uval y) (uval x)).
    + rewrite (swrap_unique BITS v (v - 2 ^ BITS) 1) by (try apply (BITS_pos HV); lia).
      destruct (Z.ltb_spec (v - 2 ^ BITS) 0); auto; lia.
    + rewrite (swrap_unique BITS v (v + 2 ^ BITS) (-1)) by (try apply (BITS_pos HV); lia).
      destruct (Z.ltb_spec (v + 2 ^ BITS) 0); auto; lia.
Qed.
Lemma s_wrapping_sub_unsigned_ok : forall x y, wf x -> wf y ->
  s_wrapping_sub_unsigned x y = Ok (ofZ (sval x - uval y)).
Proof.
  intros x y Hx Hy. unfold s_wrapping_sub_unsigned, from_unsigned. run. cbn [val]. f_equal.
  destruct (val_cong HV true y Hy) as (k & E). cbn in E. rewrite E. apply (ofZ_cong2 HV). exists (- k). ring.
Qed.
Lemma s_overflowing_add_unsigned_ok : forall x y, wf x -> wf y ->
  s_overflowing_add_unsigned x y = Ok (ofZ (sval x + uval y), negb (fitsb true (sval x + uval y))).
Proof.
  intros x y Hx Hy. unfold s_overflowing_add_unsigned, as_signed. run. cbn [val].
  pose proof (sval_range HV x Hx). pose proof (sval_range HV y Hy). pose proof (pBhalf HV). pose proof (pBh HV).
  destruct (sval_cases y Hy) as [(Hn & E)|(Hn & E)].
  - rewrite E. f_equal. f_equal; [apply (ofZ_cong HV) with (-1); ring|].
    destruct (Z.ltb_spec (sval y) 0); [|lia]. flags; cbn; auto; lia.
  - rewrite E. f_equal. f_equal. destruct (Z.ltb_spec (sval y) 0); [lia|]. apply xorb_false_r.
Qed.
Lemma s_overflowing_sub_unsigned_ok : forall x y, wf x -> wf y ->
  s_overflowing_sub_unsigned x y = Ok (ofZ (sval x - uval y), negb (fitsb true (sval x - uval y))).
Proof.
  intros x y Hx Hy. unfold s_overflowing_sub_unsigned, as_signed. run. cbn [val].
  pose proof (sval_range HV x Hx). pose proof (sval_range HV y Hy). pose proof (pBhalf HV). pose proof (pBh HV).
  destruct (sval_cases y Hy) as [(Hn & E)|(Hn & E)].
  - rewrite E. f_equal. f_equal; [apply (ofZ_cong HV) with 1; ring|].
    destruct (Z.ltb_spec (sval y) 0); [|lia]. flags; cbn; auto; lia.
  - rewrite E. f_equal. f_equal. destruct (Z.ltb_spec (sval y) 0); [lia|]. apply xorb_false_r.
Qed.
Lemma s_checked_add_unsigned_ok : forall x y, wf x -> wf y ->
  s_checked_add_unsigned x y = Ok (some_if (fitsb true (sval x + uval y)) (sval x + uval y)).
Proof. intros x y Hx Hy. unfold s_checked_add_unsigned. rewrite s_overflowing_add_unsigned_ok, opt_eq, negb_involutive by auto. auto. Qed.
Lemma s_checked_sub_unsigned_ok : forall x y, wf x -> wf y ->
  s_checked_sub_unsigned x y = Ok (some_if (fitsb true (sval x - uval y)) (sval x - uval y)).
Proof. intros x y Hx Hy. unfold s_checked_sub_unsigned. rewrite s_overflowing_sub_unsigned_ok, opt_eq, negb_involutive by auto. auto. Qed.
Lemma s_strict_add_unsigned_ok : forall x y, wf x -> wf y ->
  s_strict_add_unsigned x y = ok_if (fitsb true (sval x + uval y)) (sval x + uval y).
Proof. intros x y Hx Hy. unfold s_strict_add_unsigned. rewrite s_checked_add_unsigned_ok by auto. apply unwrap_some_if. Qed.
Lemma s_strict_sub_unsigned_ok : forall x y, wf x -> wf y ->
  s_strict_sub_unsigned x y = ok_if (fitsb true (sval x - uval y)) (sval x - uval y).
Proof. intros x y Hx Hy. unfold s_strict_sub_unsigned. rewrite s_checked_sub_unsigned_ok by auto. apply unwrap_some_if. Qed.

(** ** Saturation *)

Lemma or_else_eq : forall sg b v d, (b = fitsb sg v) ->
  (fits sg v \/ d = Ok (ofZ (clamp sg v))) ->
  or_else (Ok (some_if b v)) d = Ok (ofZ (clamp sg v)).
Proof.
  intros sg b v d -> H. unfold or_else, some_if. destruct (fitsb_reflect sg v) as [F|F]; cbn [bind].
  - rewrite clamp_fits by auto. auto.
  - destruct H; [tauto|auto].
Qed.
Lemma clampE_u_hi : forall v, 2 ^ BITS <= v -> u_max_value = Ok (ofZ (clamp false v)).
Proof. intros. rewrite clamp_hi by (cbn [hi_of]; lia). rewrite ofZ_hi_u. apply (u_max_value_ok HV). Qed.
Lemma clampE_u_lo : forall v, v < 0 -> u_min_value = Ok (ofZ (clamp false v)).
Proof. intros. rewrite clamp_lo by (cbn [lo_of]; lia). apply (u_min_value_ok HV). Qed.
Lemma clampE_s_hi : forall v, 2 ^ (BITS - 1) <= v -> s_max_value = Ok (ofZ (clamp true v)).
Proof. intros. rewrite clamp_hi by (cbn [hi_of]; lia). apply (s_max_value_ok HV). Qed.
Lemma clampE_s_lo : forall v, v < - 2 ^ (BITS - 1) -> s_min_value = Ok (ofZ (clamp true v)).
Proof. intros. rewrite clamp_lo by (cbn [lo_of]; lia). apply (s_min_value_ok HV). Qed.

Lemma u_saturating_add_ok : forall x y, wf x -> wf y -> u_saturating_add x y = Ok (ofZ (clamp false (uval x + uval y))).
Proof.
  intros x y Hx Hy. unfold u_saturating_add. rewrite checked_add_ok by auto. cbn [val]. apply or_else_eq; auto.
  pose proof (uval_range HV x Hx). pose proof (uval_range HV y Hy).
  destruct (Z.lt_ge_cases (uval x + uval y) (2 ^ BITS)); [left; cbn; unfold fits_u; lia|right; apply clampE_u_hi; lia].
Qed.
Lemma u_saturating_sub_ok : forall x y, wf x -> wf y -> u_saturating_sub x y = Ok (ofZ (clamp false (uval x - uval y))).
Proof.
  intros x y Hx Hy. unfold u_saturating_sub. rewrite checked_sub_ok by auto. cbn [val]. apply or_else_eq; auto.
  pose proof (uval_range HV x Hx). pose proof (uval_range HV y Hy).
  destruct (Z.lt_ge_cases (uval x - uval y) 0); [right; apply clampE_u_lo; lia|left; cbn; unfold fits_u; lia].
Qed.
Lemma u_saturating_mul_ok : forall x y, wf x -> wf y -> u_saturating_mul x y = Ok (ofZ (clamp false (uval x * uval y))).
Proof.
  intros x y Hx Hy. unfold u_saturating_mul. rewrite checked_mul_ok by auto. cbn [val]. apply or_else_eq.
  - unfold mulf. apply negb_involutive.
  - pose proof (uval_range HV x Hx). pose proof (uval_range HV y Hy).
    destruct (Z.lt_ge_cases (uval x * uval y) (2 ^ BITS)); [left; cbn; unfold fits_u; nia|right; apply clampE_u_hi; lia].
Qed.
Lemma s_sat_by_sign_ok : forall x, wf x -> s_sat_by_sign x = if sval x <? 0 then s_min_value else s_max_value.
Proof. intros. unfold s_sat_by_sign. rewrite (is_negative_ok HV) by auto. reflexivity. Qed.
Lemma s_saturating_add_ok : forall x y, wf x -> wf y -> s_saturating_add x y = Ok (ofZ (clamp true (sval x + sval y))).
Proof.
  intros x y Hx Hy. unfold s_saturating_add. rewrite checked_add_ok by auto. cbn [val]. apply or_else_eq; auto.
  pose proof (sval_range HV x Hx). pose proof (sval_range HV y Hy). rewrite s_sat_by_sign_ok by auto.
  destruct (fitsb_reflect true (sval x + sval y)) as [F|F]; [auto|]. right. cbn in F. unfold fits_s in F.
  destruct (Z.ltb_spec (sval x) 0); [apply clampE_s_lo|apply clampE_s_hi]; lia.
Qed.
Lemma s_saturating_sub_ok : forall x y, wf x -> wf y -> s_saturating_sub x y = Ok (ofZ (clamp true (sval x - sval y))).
Proof.
  intros x y Hx Hy. unfold s_saturating_sub. rewrite checked_sub_ok by auto. cbn [val]. apply or_else_eq; auto.
  pose proof (sval_range HV x Hx). pose proof (sval_range HV y Hy). rewrite s_sat_by_sign_ok by auto.
  destruct (fitsb_reflect true (sval x - sval y)) as [F|F]; [auto|]. right. cbn in F. unfold fits_s in F.
  destruct (Z.ltb_spec (sval x) 0); [apply clampE_s_lo|apply clampE_s_hi]; lia.
Qed.
Lemma s_saturating_add_unsigned_ok : forall x y, wf x -> wf y ->
  s_saturating_add_unsigned x y = Ok (ofZ (clamp true (sval x + uval y))).
Proof.
  intros x y Hx Hy. unfold s_saturating_add_unsigned. rewrite s_checked_add_unsigned_ok by auto. apply or_else_eq; auto.
  pose proof (sval_range HV x Hx). pose proof (uval_range HV y Hy).
  destruct (fitsb_reflect true (sval x + uval y)) as [F|F]; [auto|]. right. cbn in F. unfold fits_s in F.
  apply clampE_s_hi; lia.
Qed.
Lemma s_saturating_sub_unsigned_ok : forall x y, wf x -> wf y ->
  s_saturating_sub_unsigned x y = Ok (ofZ (clamp true (sval x - uval y))).
Proof.
  intros x y Hx Hy. unfold s_saturating_sub_unsigned. rewrite s_checked_sub_unsigned_ok by auto. apply or_else_eq; auto.
  pose proof (sval_range HV x Hx). pose proof (uval_range HV y Hy).
  destruct (fitsb_reflect true (sval x - uval y)) as [F|F]; [auto|]. right. cbn in F. unfold fits_s in F.
  apply clampE_s_lo; lia.
Qed.
Lemma s_saturating_neg_ok : forall x, wf x -> s_saturating_neg x = Ok (ofZ (clamp true (- sval x))).
Proof.
  intros x Hx. unfold s_saturating_neg. run. rewrite s_saturating_sub_ok by wfauto. rewrite (sval_lit HV) by lia. reflexivity.
Qed.
Lemma s_saturating_abs_ok : forall x, wf x -> s_saturating_abs x = Ok (ofZ (clamp true (Z.abs (sval x)))).
Proof.
  intros x Hx. unfold s_saturating_abs. rewrite s_checked_abs_ok by auto. apply or_else_eq; auto.
  destruct (fitsb_reflect true (Z.abs (sval x))) as [F|F]; [auto|]. right. cbn in F. unfold fits_s in F.
  pose proof (pBh HV). apply clampE_s_hi; lia.
Qed.
(** Saturating multiplication: wrong where the overflow is missed. *)
Lemma s_saturating_mul_ok : forall x y, wf x -> wf y ->
  s_saturating_mul x y = Ok (ofZ (if mulf true (sval x) (sval y) then clamp true (sval x * sval y) else sval x * sval y)).
Proof.
  intros x y Hx Hy. unfold s_saturating_mul. rewrite checked_mul_ok by auto. cbn [val]. unfold or_else, some_if.
  destruct (mulf true (sval x) (sval y)) eqn:M; cbn [bind negb]; auto. run.
  pose proof (pBh HV). pose proof (pow_slack HV).
  destruct (Z.lt_ge_cases (sval x * sval y) 0) as [Hn|Hn].
  - rewrite mulf_s_neg in M by auto. apply Z.leb_le in M. rewrite clamp_lo by (cbn [lo_of]; lia).
    destruct (Z.ltb_spec (sval x) 0), (Z.ltb_spec (sval y) 0); cbn [eqb]; auto; nia.
  - rewrite mulf_s_nonneg in M by auto. apply Z.leb_le in M. rewrite clamp_hi by (cbn [hi_of]; lia).
    destruct (Z.ltb_spec (sval x) 0), (Z.ltb_spec (sval y) 0); cbn [eqb]; auto; nia.
Qed.
End P2.
