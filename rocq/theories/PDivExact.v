(** * Divisors that never need a correction step *)

Require Import ZArith List Bool Lia.
From Verif Require Import Prim Spec Facts DivSpec.
Import ListNotations.
Local Open Scope Z_scope.

(** a one-limb number times a power of two *)
Lemma scaled_no_correction : forall w x d k, 0 < w -> 0 < d < 2 ^ w -> 0 <= k -> 2 ^ w <= d * 2 ^ k ->
  has_correction w x (d * 2 ^ k) = false.
Proof.
  intros w x d k Hw Hd Hk Hbig. unfold has_correction.
  set (y := d * 2 ^ k) in *. pose proof (pow2_pos k Hk) as Pk.
  assert (Hy : 0 < y) by (unfold y; nia).
  pose proof (Z.log2_nonneg y) as L0.
  assert (Ln : Z.of_nat (Z.to_nat (limbs_of w y)) = limbs_of w y).
  { apply Z2Nat.id. unfold limbs_of. pose proof (Z.div_pos (Z.log2 y) w L0 Hw). lia. }
  remember (Z.to_nat (limbs_of w y)) as n eqn:En. clear En.
  assert (LW : w <= Z.log2 y) by (apply Z.log2_le_pow2; lia).
  pose proof (Z.div_mod (Z.log2 y) w ltac:(lia)) as DM. pose proof (Z.mod_pos_bound (Z.log2 y) w Hw) as MB.
  set (q := Z.log2 y / w) in *.
  assert (N2 : Z.of_nat n = q + 1) by (rewrite Ln; reflexivity).
  assert (q1 : 1 <= q) by nia.
  set (s := norm_shift w y) in *.
  assert (Es : s = w * (q + 1) - 1 - Z.log2 y) by (unfold s, norm_shift, limbs_of; fold q; lia).
  assert (s0 : 0 <= s) by lia.
  (* log2 of the parts *)
  assert (Ld : Z.log2 y = Z.log2 d + k) by (unfold y; rewrite Z.log2_mul_pow2 by lia; lia).
  assert (Ldw : Z.log2 d <= w - 1) by (assert (Z.log2 d < w) by (apply Z.log2_lt_pow2; lia); lia).
  set (t := k + s - w * q).
  assert (t0 : 0 <= t) by (unfold t; nia).
  set (d' := d * 2 ^ t).
  set (D := y * 2 ^ s).
  assert (ED : D = d' * 2 ^ (w * q)).
  { unfold D, d', y. rewrite <- !Z.mul_assoc. rewrite <- !Z.pow_add_r by nia. do 2 f_equal. unfold t. lia. }
  assert (P1 : 0 < 2 ^ (w * (q - 1))) by (apply pow2_pos; nia).
  assert (Pw : 0 < 2 ^ w) by (apply pow2_pos; lia).
  assert (Pq : 2 ^ (w * q) = 2 ^ w * 2 ^ (w * (q - 1))) by (rewrite <- Z.pow_add_r by nia; f_equal; lia).
  assert (Pn : 2 ^ (w * (q + 1)) = 2 ^ w * 2 ^ (w * q)) by (rewrite <- Z.pow_add_r by nia; f_equal; lia).
  assert (Pt : 0 < 2 ^ t) by (apply pow2_pos; lia).
  assert (d'0 : 0 < d') by (unfold d'; nia).
  clearbody D d' s y.
  assert (E : forall l, existsb (overestimated w n (x * 2 ^ s) D) l = false).
  { induction l as [|j l IH]; auto. cbn [existsb]. rewrite IH, orb_false_r.
    unfold overestimated. set (S := window _ _ _ _).
    assert (HS : 0 <= S < D * 2 ^ w) by (unfold S, window; apply Z.mod_pos_bound; nia).
    clearbody S. unfold digit_estimate. rewrite N2.
    replace (q + 1 - 1) with q by lia. replace (q + 1 - 2) with (q - 1) by lia. rewrite Pn, ED.
    rewrite Z.div_mul by nia.
    assert (HB : S / (2 ^ w * 2 ^ (w * q)) < d') by (apply Z.div_lt_upper_bound; nia).
    apply Z.ltb_lt in HB. rewrite HB.
    rewrite Z.div_div by (rewrite ?Pq; try lia; rewrite Z.mul_assoc, Z.div_mul; nia).
    rewrite Pq. rewrite Z.mul_assoc. rewrite Z.div_mul by lia.
    replace (2 ^ (w * (q - 1)) * (d' * 2 ^ w)) with (d' * 2 ^ w * 2 ^ (w * (q - 1))) by ring.
    apply Z.ltb_irrefl. }
  apply E.
Qed.

Lemma scaled_exact : forall w n x d k, 0 < w -> 0 < d < 2 ^ w -> 0 <= k -> exact_division w n x (d * 2 ^ k).
Proof.
  intros w n x d k Hw Hd Hk. unfold exact_division. destruct (Z.lt_ge_cases (d * 2 ^ k) (2 ^ w)) as [|H]; auto.
  right. right. left. apply scaled_no_correction; auto.
Qed.
