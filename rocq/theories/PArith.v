(** * Proofs about MArith.v: addition, subtraction, multiplication, negation

    Every lemma is an equation giving the exact result of the call. *)

Require Import ZArith List Bool Lia.
From Verif Require Import Prim Spec Facts MAdd PAdd PAddS MMul PMul PMulS MShift PShift PRot MCore PCore PBits PWide MArith.
Import ListNotations.
Local Open Scope Z_scope.

Global Create HintDb wfdb.
#[global] Hint Resolve wf_ofZ : wfdb.
#[global] Hint Extern 1 (fits_u _ _) => (unfold fits_u; lia) : wfdb.
#[global] Hint Extern 1 (fits_s _ _) => (unfold fits_s; lia) : wfdb.

Ltac wfauto := solve [auto with wfdb].

Lemma opt_eq : forall A (v : A) f, opt (Ok (v, f)) = Ok (if negb f then Some v else None).
Proof. reflexivity. Qed.
Lemma bool_iff : forall (b1 b2 : bool) P, (b1 = true <-> P) -> (b2 = true <-> P) -> b1 = b2.
Proof. intros [] [] P H1 H2; tauto || (destruct H1, H2; intuition congruence). Qed.

#[global] Hint Rewrite @mk_ok using wfauto : mon.
#[global] Hint Rewrite @from_u8_ok @from_i8_ok using wfauto : mon.
#[global] Hint Rewrite @u_min_value_ok @u_max_value_ok @s_min_value_ok @s_max_value_ok using wfauto : mon.
#[global] Hint Rewrite @wrapping_shl_ok @wrapping_shr_ok @eq_const_ok @lt_const_ok @le_const_ok @gt_const_ok @ge_const_ok
  @cmp_const_ok @is_negative_ok @is_positive_ok @not_const_ok @bitand_ok @bitor_ok @bitxor_ok using wfauto : mon.

Ltac run := repeat (progress (autorewrite with mon; cbn [bind])).

Section P.
Context {c : Cfg}.
Hypothesis HV : Valid.
Local Notation W0 := (W_nonneg HV).
Local Notation HW := (HW1 HV).

Lemma wf_len2 : forall x, wf x -> (2 <= length x)%nat /\ (3 <= length x)%nat.
Proof. intros x (-> & _). pose proof (N_ge4 HV). lia. Qed.

(** ** [ofZ] absorbs reductions modulo 2^BITS *)

Lemma ofZ_wrapz : forall sg v, ofZ (wrapz sg v) = ofZ v.
Proof. intros. destruct (wrapz_cong HV sg v) as (k & ->). apply (ofZ_cong HV) with k. reflexivity. Qed.
Lemma ofZ_cong2 : forall v v', (exists k, v = v' + k * 2 ^ BITS) -> ofZ v = ofZ v'.
Proof. intros v v' (k & E). apply (ofZ_cong HV) with k. auto. Qed.
Lemma ofZ_add_l : forall sg a b, ofZ (wrapz sg a + b) = ofZ (a + b).
Proof. intros. destruct (wrapz_cong HV sg a) as (k & ->). apply ofZ_cong2. exists k. ring. Qed.
Lemma ofZ_add_r : forall sg a b, ofZ (a + wrapz sg b) = ofZ (a + b).
Proof. intros. destruct (wrapz_cong HV sg b) as (k & ->). apply ofZ_cong2. exists k. ring. Qed.
Lemma ofZ_sub_l : forall sg a b, ofZ (wrapz sg a - b) = ofZ (a - b).
Proof. intros. destruct (wrapz_cong HV sg a) as (k & ->). apply ofZ_cong2. exists k. ring. Qed.
Lemma ofZ_sub_r : forall sg a b, ofZ (a - wrapz sg b) = ofZ (a - b).
Proof. intros. destruct (wrapz_cong HV sg b) as (k & ->). apply ofZ_cong2. exists (- k). ring. Qed.
Lemma ofZ_mul_l : forall sg a b, ofZ (wrapz sg a * b) = ofZ (a * b).
Proof. intros. destruct (wrapz_cong HV sg a) as (k & ->). apply ofZ_cong2. exists (k * b). ring. Qed.
Lemma ofZ_mul_r : forall sg a b, ofZ (a * wrapz sg b) = ofZ (a * b).
Proof. intros. destruct (wrapz_cong HV sg b) as (k & ->). apply ofZ_cong2. exists (a * k). ring. Qed.

Lemma ofZ_add_uval : forall sg x y, wf x -> wf y -> ofZ (uval x + uval y) = ofZ (val sg x + val sg y).
Proof.
  intros sg x y Hx Hy. destruct (val_cong HV sg x Hx) as (k & ->). destruct (val_cong HV sg y Hy) as (j & ->).
  apply ofZ_cong2. exists (- k - j). ring.
Qed.
Lemma ofZ_sub_uval : forall sg x y, wf x -> wf y -> ofZ (uval x - uval y) = ofZ (val sg x - val sg y).
Proof.
  intros sg x y Hx Hy. destruct (val_cong HV sg x Hx) as (k & ->). destruct (val_cong HV sg y Hy) as (j & ->).
  apply ofZ_cong2. exists (- k + j). ring.
Qed.
Lemma ofZ_mul_uval : forall sg x y, wf x -> wf y -> ofZ (uval x * uval y) = ofZ (val sg x * val sg y).
Proof.
  intros sg x y Hx Hy. destruct (val_cong HV sg x Hx) as (k & ->). destruct (val_cong HV sg y Hy) as (j & ->).
  apply ofZ_cong2. exists (- k * uval y - uval x * j - k * j * 2 ^ BITS). ring.
Qed.
Lemma ofZ_addc_uval : forall sg x v, wf x -> ofZ (uval x + v) = ofZ (val sg x + v).
Proof. intros sg x v Hx. destruct (val_cong HV sg x Hx) as (k & ->). apply ofZ_cong2. exists (- k). ring. Qed.

Lemma lsval_sval : forall x, wf x -> lsval x = sval x.
Proof.
  intros x Hx. rewrite (sval_swrap HV) by auto. destruct Hx as (HL & _). unfold lsval. rewrite HL, BITS_alt. reflexivity.
Qed.

(** ** Wrapping *)

Lemma wrapping_add_ok : forall sg x y, wf x -> wf y -> wrapping_add sg x y = Ok (ofZ (val sg x + val sg y)).
Proof.
  intros sg x y Hx Hy. pose proof (wf_len2 x Hx). unfold wrapping_add.
  rewrite <- ofZ_add_uval by auto. destruct Hx as (Lx & Dx). destruct Hy as (Ly & Dy). destruct sg.
  - rewrite (sadd_wrapping_full_ok HW) by (auto; lia). cbn [bind]. rewrite (mk_ok HV), Lx. reflexivity.
  - rewrite (add_wrapping_full_ok HW) by (auto; lia). cbn [bind]. rewrite (mk_ok HV), Lx. reflexivity.
Qed.
Lemma wrapping_sub_ok : forall sg x y, wf x -> wf y -> wrapping_sub sg x y = Ok (ofZ (val sg x - val sg y)).
Proof.
  intros sg x y Hx Hy. pose proof (wf_len2 x Hx). unfold wrapping_sub, ssub_wrapping_full.
  rewrite <- ofZ_sub_uval by auto. destruct Hx as (Lx & Dx). destruct Hy as (Ly & Dy).
  destruct sg; rewrite (sub_wrapping_full_ok HW) by (auto; lia); cbn [bind]; rewrite (mk_ok HV), Lx; reflexivity.
Qed.
Lemma wrapping_mul_ok : forall sg x y, wf x -> wf y -> wrapping_mul sg x y = Ok (ofZ (val sg x * val sg y)).
Proof.
  intros sg x y Hx Hy. pose proof (wf_len2 x Hx). unfold wrapping_mul, smul_wrapping_full.
  rewrite <- ofZ_mul_uval by auto. destruct Hx as (Lx & Dx). destruct Hy as (Ly & Dy).
  destruct sg; rewrite (mul_wrapping_full_ok HW) by (auto; lia); cbn [bind]; rewrite (mk_ok HV), Lx; reflexivity.
Qed.
Lemma wrapping_add_ulimb_ok : forall sg x n, wf x -> fits_u W n -> wrapping_add_ulimb sg x n = Ok (ofZ (val sg x + n)).
Proof.
  intros sg x n Hx Hn. pose proof (wf_len2 x Hx). unfold wrapping_add_ulimb, sadd_wrapping_ulimb.
  rewrite <- ofZ_addc_uval by auto. destruct Hx as (Lx & Dx).
  destruct sg; rewrite (add_wrapping_limb_ok HW) by (auto; lia); cbn [bind]; rewrite (mk_ok HV), Lx; reflexivity.
Qed.
Lemma wrapping_sub_ulimb_ok : forall sg x n, wf x -> fits_u W n -> wrapping_sub_ulimb sg x n = Ok (ofZ (val sg x - n)).
Proof.
  intros sg x n Hx Hn. pose proof (wf_len2 x Hx). unfold wrapping_sub_ulimb, ssub_wrapping_ulimb.
  replace (val sg x - n) with (val sg x + - n) by ring.
  rewrite <- ofZ_addc_uval by auto. replace (uval x + - n) with (uval x - n) by ring. destruct Hx as (Lx & Dx).
  destruct sg; rewrite (sub_wrapping_limb_ok HW) by (auto; lia); cbn [bind]; rewrite (mk_ok HV), Lx; reflexivity.
Qed.

(** ** Overflowing *)

Lemma flag_u : forall f v, (f = true <-> ~ (0 <= v < 2 ^ BITS)) -> f = negb (fitsb false v).
Proof.
  intros f v H. destruct (fitsb_reflect false v) as [R|R]; cbn in R; unfold fits_u in R; destruct f; cbn; auto.
  - exfalso. apply H; auto.
  - apply H. auto.
Qed.
Lemma flag_s : forall f v, (f = true <-> ~ fits_s BITS v) -> f = negb (fitsb true v).
Proof.
  intros f v H. destruct (fitsb_reflect true v) as [R|R]; cbn in R; destruct f; cbn; auto.
  - exfalso. apply H; auto.
  - apply H. auto.
Qed.

Lemma overflowing_add_ok : forall sg x y, wf x -> wf y ->
  overflowing_add sg x y = Ok (ofZ (val sg x + val sg y), negb (fitsb sg (val sg x + val sg y))).
Proof.
  intros sg x y Hx Hy. pose proof (wf_len2 x Hx). unfold overflowing_add, mk_flag.
  rewrite <- ofZ_add_uval by auto. pose proof Hx as (Lx & Dx). pose proof Hy as (Ly & Dy). destruct sg.
  - destruct (sadd_overflowing_full_ok HW x y) as (f & E & Hf); auto; try lia. rewrite E. cbn [bind]. rewrite (mk_ok HV). cbn [bind].
    rewrite !lsval_sval in Hf by auto. rewrite Lx, BITS_alt in *. rewrite (flag_s _ _ Hf). reflexivity.
  - destruct (add_overflowing_full_ok HW x y) as (f & E & Hf); auto; try lia. rewrite E. cbn [bind]. rewrite (mk_ok HV). cbn [bind].
    rewrite Lx, BITS_alt in *. rewrite (flag_u _ _ Hf). reflexivity.
Qed.
Lemma overflowing_sub_ok : forall sg x y, wf x -> wf y ->
  overflowing_sub sg x y = Ok (ofZ (val sg x - val sg y), negb (fitsb sg (val sg x - val sg y))).
Proof.
  intros sg x y Hx Hy. pose proof (wf_len2 x Hx). unfold overflowing_sub, mk_flag.
  rewrite <- ofZ_sub_uval by auto. pose proof Hx as (Lx & Dx). pose proof Hy as (Ly & Dy). destruct sg.
  - destruct (ssub_overflowing_full_ok HW x y) as (f & E & Hf); auto; try lia. rewrite E. cbn [bind]. rewrite (mk_ok HV). cbn [bind].
    rewrite !lsval_sval in Hf by auto. rewrite Lx, BITS_alt in *. rewrite (flag_s _ _ Hf). reflexivity.
  - destruct (sub_overflowing_full_ok HW x y) as (f & E & Hf); auto; try lia. rewrite E. cbn [bind]. rewrite (mk_ok HV). cbn [bind].
    rewrite Lx, BITS_alt in *. rewrite (flag_u _ _ Hf). reflexivity.
Qed.
Lemma overflowing_add_ulimb_ok : forall sg x n, wf x -> fits_u W n ->
  overflowing_add_ulimb sg x n = Ok (ofZ (val sg x + n), negb (fitsb sg (val sg x + n))).
Proof.
  intros sg x n Hx Hn. pose proof (wf_len2 x Hx). unfold overflowing_add_ulimb, mk_flag.
  rewrite <- ofZ_addc_uval by auto. pose proof Hx as (Lx & Dx). destruct sg.
  - destruct (sadd_overflowing_ulimb_ok HW x n) as (f & E & Hf); auto; try lia. rewrite E. cbn [bind]. rewrite (mk_ok HV). cbn [bind].
    rewrite !lsval_sval in Hf by auto. rewrite Lx, BITS_alt in *. rewrite (flag_s _ _ Hf). reflexivity.
  - destruct (add_overflowing_limb_ok HW x n) as (f & E & Hf); auto; try lia. rewrite E. cbn [bind]. rewrite (mk_ok HV). cbn [bind].
    rewrite Lx, BITS_alt in *. rewrite (flag_u _ _ Hf). reflexivity.
Qed.
Lemma overflowing_sub_ulimb_ok : forall sg x n, wf x -> fits_u W n ->
  overflowing_sub_ulimb sg x n = Ok (ofZ (val sg x - n), negb (fitsb sg (val sg x - n))).
Proof.
  intros sg x n Hx Hn. pose proof (wf_len2 x Hx). unfold overflowing_sub_ulimb, mk_flag.
  assert (E0 : ofZ (val sg x - n) = ofZ (uval x - n)).
  { replace (val sg x - n) with (val sg x + - n) by ring.
    rewrite <- ofZ_addc_uval by auto. auto. }
  rewrite E0. pose proof Hx as (Lx & Dx). destruct sg.
  - destruct (ssub_overflowing_ulimb_ok HW x n) as (f & E & Hf); auto; try lia. rewrite E. cbn [bind]. rewrite (mk_ok HV). cbn [bind].
    rewrite !lsval_sval in Hf by auto. rewrite Lx, BITS_alt in *. rewrite (flag_s _ _ Hf). reflexivity.
  - destruct (sub_overflowing_limb_ok HW x n) as (f & E & Hf); auto; try lia. rewrite E. cbn [bind]. rewrite (mk_ok HV). cbn [bind].
    rewrite Lx, BITS_alt in *. rewrite (flag_u _ _ Hf). reflexivity.
Qed.

(** The overflow flag of the multiplications.  The unsigned one is exact.  The
    signed one is exact except that a negative product is only reported from
    [-(2^(BITS-1) + 2^(BITS-W))] downwards. *)
Definition mulf (sg : bool) (a b : Z) : bool :=
  if sg then
    if xorb (a <? 0) (b <? 0) then 2 ^ (BITS - 1) + 2 ^ (BITS - W) <=? Z.abs (a * b)
    else 2 ^ (BITS - 1) <=? Z.abs (a * b)
  else negb (fitsb false (a * b)).

Lemma overflowing_mul_ok : forall sg x y, wf x -> wf y ->
  overflowing_mul sg x y = Ok (ofZ (val sg x * val sg y), mulf sg (val sg x) (val sg y)).
Proof.
  intros sg x y Hx Hy. pose proof (wf_len2 x Hx). unfold overflowing_mul, mk_flag.
  rewrite <- ofZ_mul_uval by auto. pose proof Hx as (Lx & Dx). pose proof Hy as (Ly & Dy). destruct sg.
  - destruct (smul_overflowing_full_ok HW x y) as (f & E & Hf); auto; try lia. rewrite E. cbn [bind]. rewrite (mk_ok HV). cbn [bind].
    rewrite !lsval_sval in Hf by auto. rewrite Lx, BITS_alt in *. unfold ofZ.
    do 2 f_equal. apply (bool_iff _ _ _ Hf). unfold mulf, val. destruct (xorb _ _); apply Z.leb_le.
  - destruct (mul_overflowing_full_ok HW x y) as (f & E & Hf); auto; try lia. rewrite E. cbn [bind]. rewrite (mk_ok HV). cbn [bind].
    rewrite Lx, BITS_alt in *.
    assert (Hf' : f = true <-> ~ 0 <= lval W x * lval W y < 2 ^ BITS).
    { rewrite Hf. pose proof (uval_range HV x Hx). pose proof (uval_range HV y Hy). unfold uval in *. split; [lia|nia]. }
    rewrite (flag_u _ _ Hf'). reflexivity.
Qed.

(** What the flag says. *)
Lemma mulf_u : forall a b, mulf false a b = negb (fitsb false (a * b)).
Proof. reflexivity. Qed.
Lemma pow_slack : 0 < 2 ^ (BITS - W) <= 2 ^ (BITS - 1).
Proof.
  pose proof (BITS_ge HV). pose proof (W_pos HV). split; [apply pow2_pos; lia|apply pow2_le_mono; lia].
Qed.
Lemma mulf_fits : forall sg a b, fits sg (a * b) -> mulf sg a b = false.
Proof.
  intros sg a b H. unfold mulf. destruct sg; cbn in H.
  - unfold fits_s in H. pose proof pow_slack.
    destruct (Z.ltb_spec a 0), (Z.ltb_spec b 0); cbn [xorb]; apply Z.leb_gt; nia.
  - rewrite negb_false_iff. apply fitsb_spec. auto.
Qed.
Lemma mulf_s_pos : forall a b, ~ fits true (a * b) -> 0 <= a * b -> mulf true a b = true.
Proof.
  intros a b H Hp. unfold mulf. cbn in H. unfold fits_s in H. pose proof (pBh HV).
  assert (Hb : 2 ^ (BITS - 1) <= a * b) by lia.
  destruct (Z.ltb_spec a 0), (Z.ltb_spec b 0); cbn [xorb]; apply Z.leb_le; nia.
Qed.
Lemma mulf_s_neg : forall a b, a * b < 0 ->
  mulf true a b = (a * b <=? - (2 ^ (BITS - 1) + 2 ^ (BITS - W))).
Proof.
  intros a b Hn. unfold mulf.
  assert (E : forall T, (T <=? Z.abs (a * b)) = (a * b <=? - T)).
  { intros T. destruct (Z.leb_spec T (Z.abs (a * b))), (Z.leb_spec (a * b) (- T)); auto; lia. }
  destruct (Z.ltb_spec a 0), (Z.ltb_spec b 0); cbn [xorb]; try apply E; nia.
Qed.
Lemma mulf_s_nonneg : forall a b, 0 <= a * b -> mulf true a b = (2 ^ (BITS - 1) <=? a * b).
Proof.
  intros a b Hn. pose proof (pBh HV). destruct (fitsb_reflect true (a * b)) as [F|F].
  - rewrite mulf_fits by auto. symmetry. apply Z.leb_gt. cbn in F. unfold fits_s in F. lia.
  - rewrite mulf_s_pos by auto. symmetry. apply Z.leb_le. cbn in F. unfold fits_s in F. lia.
Qed.
End P.

#[global] Hint Rewrite @wrapping_add_ok @wrapping_sub_ok @wrapping_mul_ok
  @overflowing_add_ok @overflowing_sub_ok @overflowing_mul_ok using wfauto : mon.
#[global] Hint Rewrite @wrapping_add_ulimb_ok @wrapping_sub_ulimb_ok @overflowing_add_ulimb_ok @overflowing_sub_ulimb_ok using wfauto : mon.
