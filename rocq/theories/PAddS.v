(** * Proofs about the signed half of MAdd.v *)

Require Import ZArith List Bool Lia.
From Verif Require Import Prim Spec Facts MAdd PAdd.
Import ListNotations.
Local Open Scope Z_scope.

Section P.
Context {c : Cfg}.
Hypothesis HW : 1 <= W <= 64.

Local Notation B := (2 ^ W).
Local Notation pw n := (2 ^ (W * Z.of_nat n)).
Local Notation W0 := (W0 HW).
Local Notation W1 := (W1 HW).

(** Two's complement value of a limb list. *)
Definition lsval (l : list Z) : Z := swrap (W * Z.of_nat (length l)) (lval W l).

Lemma pw_half : forall n, pw (S n) = 2 * (2 ^ (W - 1) * pw n).
Proof. intros. rewrite pow2_S by apply W0. rewrite (pow2_half W) by apply W1. ring. Qed.

Lemma pw_pos : forall n, 0 < pw n.
Proof. intros. apply pow2_pos. lia. Qed.

Lemma pw_half' : forall n, 2 ^ (W * Z.of_nat (S n) - 1) = 2 ^ (W - 1) * pw n.
Proof. intros. rewrite <- Z.pow_add_r by lia. f_equal. lia. Qed.

Lemma scast_ex : forall v, exists q, scast W v = v + q * B.
Proof. intros. rewrite scast_swrap by apply W1. apply swrap_cong. apply W1. Qed.

Lemma scast_range : forall v, - 2 ^ (W - 1) <= scast W v < 2 ^ (W - 1).
Proof. intros. rewrite scast_swrap by apply W1. apply swrap_range. apply W1. Qed.

Lemma lsval_last : forall l n, length l = S n -> digits W l ->
  lsval l = pv W l n + scast W (nth n l 0) * pw n.
Proof.
  intros l n HL Hd. unfold lsval. rewrite HL.
  pose proof (pv_range W l n W0 Hd ltac:(lia)). pose proof (pw_pos n).
  pose proof (scast_range (nth n l 0)). destruct (scast_ex (nth n l 0)) as (q & E).
  apply swrap_unique with (k := - q).
  - lia.
  - rewrite pw_half'. nia.
  - rewrite (lval_last W l n W0 HL). rewrite pow2_S by apply W0. rewrite E. ring.
Qed.

Lemma fits_split : forall n lo h, 0 <= lo < pw n ->
  (fits_s (W * Z.of_nat (S n)) (lo + h * pw n) <-> - 2 ^ (W - 1) <= h < 2 ^ (W - 1)).
Proof.
  intros n lo h Hlo. unfold fits_s. rewrite pw_half'. pose proof (pw_pos n).
  set (H1 := 2 ^ (W - 1)) in *. set (p := pw n) in *. split; intros; split; nia.
Qed.

(** Two signed additions on the top limb: exactly one of the two overflow
    flags is set iff the three-term sum overflows. *)
Lemma top_add : forall a b cy v0 f0 v1 f1,
  - 2 ^ (W - 1) <= a < 2 ^ (W - 1) -> - 2 ^ (W - 1) <= b < 2 ^ (W - 1) ->
  p_soverflowing_add W a b = (v0, f0) -> p_soverflowing_add W v0 (b2z cy) = (v1, f1) ->
  (exists q, v1 = a + b + b2z cy + q * B) /\
  (xorb f0 f1 = true <-> ~ (- 2 ^ (W - 1) <= a + b + b2z cy < 2 ^ (W - 1))).
Proof.
  intros a b cy v0 f0 v1 f1 Ha Hb E0 E1. unfold p_soverflowing_add in *.
  inversion E0; subst; clear E0. inversion E1; subst; clear E1.
  pose proof (pow2_half W W1) as HB. pose proof (b2z_range cy) as Hc.
  split.
  - destruct (scast_ex (a + b)) as (q & Eq). rewrite Eq.
    destruct (scast_ex (a + b + q * B + b2z cy)) as (q' & ->). exists (q + q'). ring.
  - pose proof (scast_range (a + b)) as R. destruct (scast_ex (a + b)) as (q & Eq).
    rewrite Eq in *. set (H1 := 2 ^ (W - 1)) in *. rewrite HB in *.
    assert (q = -1 \/ q = 0 \/ q = 1) by nia.
    destruct (in_s_reflect W (a + b)) as [F0|F0];
      destruct (in_s_reflect W (a + b + q * (2 * H1) + b2z cy)) as [F1|F1];
      unfold fits_s in *; fold H1 in F0, F1; cbn [negb xorb]; split; intros;
      try discriminate; auto; try (destruct H as [->|[->| ->]]; lia).
Qed.

Lemma top_sub : forall a b cy v0 f0 v1 f1,
  - 2 ^ (W - 1) <= a < 2 ^ (W - 1) -> - 2 ^ (W - 1) <= b < 2 ^ (W - 1) ->
  p_soverflowing_sub W a b = (v0, f0) -> p_soverflowing_sub W v0 (b2z cy) = (v1, f1) ->
  (exists q, v1 = a - b - b2z cy + q * B) /\
  (xorb f0 f1 = true <-> ~ (- 2 ^ (W - 1) <= a - b - b2z cy < 2 ^ (W - 1))).
Proof.
  intros a b cy v0 f0 v1 f1 Ha Hb E0 E1. unfold p_soverflowing_sub in *.
  inversion E0; subst; clear E0. inversion E1; subst; clear E1.
  pose proof (pow2_half W W1) as HB. pose proof (b2z_range cy) as Hc.
  split.
  - destruct (scast_ex (a - b)) as (q & Eq). rewrite Eq.
    destruct (scast_ex (a - b + q * B - b2z cy)) as (q' & ->). exists (q + q'). ring.
  - pose proof (scast_range (a - b)) as R. destruct (scast_ex (a - b)) as (q & Eq).
    rewrite Eq in *. set (H1 := 2 ^ (W - 1)) in *. rewrite HB in *.
    assert (q = -1 \/ q = 0 \/ q = 1) by nia.
    destruct (in_s_reflect W (a - b)) as [F0|F0];
      destruct (in_s_reflect W (a - b + q * (2 * H1) - b2z cy)) as [F1|F1];
      unfold fits_s in *; fold H1 in F0, F1; cbn [negb xorb]; split; intros;
      try discriminate; auto; try (destruct H as [->|[->| ->]]; lia).
Qed.

Ltac dig i :=
  repeat match goal with
  | H : digits W ?l |- _ =>
      lazymatch goal with
      | _ : 0 <= nth i l 0 < B |- _ => fail
      | _ => pose proof (digits_nth W l i W0 H)
      end
  end.

Ltac step2 spec :=
  let j := fresh "j" in let r := fresh "r" in let cy := fresh "cy" in
  let Hj := fresh "Hj" in let I := fresh "I" in let HLr := fresh "HLr" in
  intros j (r & cy) Hj I; pose proof I as (HLr & _); cbn [fst] in HLr; mstep;
  match goal with
  | |- context [let (_, _) := ?e in _] =>
      let v := fresh "v" in let f := fresh "f" in let Ec := fresh "Ec" in let Hv := fresh "Hv" in
      destruct e as (v & f) eqn:Ec; dig j; apply (spec HW) in Ec; auto using (b2z_lt HW);
      destruct Ec as (Hv & Ec); mstep;
      eexists; split; [reflexivity|];
      apply (chain_step HW _ _ _ _ _ cy); [exact I | lia | exact Hv |];
      rewrite ?pv_S by lia
  end.

Lemma chain_low : forall n sg t r cy, chain_inv (S n) sg t n (r, cy) ->
  t n = pv W r n + sg * b2z cy * pw n /\ 0 <= pv W r n < pw n.
Proof.
  intros n sg t r cy (HL & Hd & E). cbn [fst snd] in *. split; auto.
  apply pv_range; auto; lia.
Qed.

Lemma sadd_wrapping_full_ok : forall x y, (2 <= length x)%nat -> length y = length x ->
  digits W x -> digits W y ->
  sadd_wrapping_full x y = Ok (lenc W (length x) (lval W x + lval W y)).
Proof.
  intros. unfold sadd_wrapping_full.
  replace (2 <=? length x)%nat with true by (symmetry; apply Nat.leb_le; lia). cbn [assert_ bind].
  apply add_wrapping_full_ok; auto; lia.
Qed.

Lemma sadd_overflowing_full_ok : forall x y, (2 <= length x)%nat -> length y = length x ->
  digits W x -> digits W y ->
  exists f, sadd_overflowing_full x y = Ok (lenc W (length x) (lval W x + lval W y), f) /\
  (f = true <-> ~ fits_s (W * Z.of_nat (length x)) (lsval x + lsval y)).
Proof.
  intros x y Hn HL Hx Hy. unfold sadd_overflowing_full. remember (length x) as n eqn:En.
  destruct n as [|n]; [lia|]. replace (S n - 1)%nat with n by lia.
  replace (2 <=? S n)%nat with true by (symmetry; apply Nat.leb_le; lia). cbn [assert_ bind].
  run_loop (chain_inv (S n) 1 (fun i => pv W x i + pv W y i)) r cy E HI.
  - lia.
  - step2 carrying_add_spec.
    replace (v + 1 * B * b2z f - 1 * b2z cy) with (nth j x 0 + nth j y 0) by lia. ring.
  - apply chain_init; auto.
  - pose proof HI as (HLr & _). cbn [fst] in HLr. rewrite E. mstep.
    destruct (p_soverflowing_add W (scast W (nth n x 0)) (scast W (nth n y 0))) as (v0 & f0) eqn:E0.
    destruct (p_soverflowing_add W v0 (b2z cy)) as (v1 & f1) eqn:E1. mstep.
    destruct (top_add _ _ cy _ _ _ _ (scast_range _) (scast_range _) E0 E1) as ((q & Eq) & Hf).
    exists (xorb f0 f1). split.
    + do 2 f_equal. eapply chain_final; eauto.
      * apply ucast_range; lia.
      * destruct (ucast_ex HW v1) as (q1 & ->). rewrite Eq.
        destruct (scast_ex (nth n x 0)) as (qx & ->).
        destruct (scast_ex (nth n y 0)) as (qy & ->).
        exists (- q - q1 - qx - qy). rewrite !(lval_last W _ n) by lia. ring.
    + rewrite Hf. apply chain_low in HI. destruct HI as (Et & Hr). cbv beta in Et.
      rewrite !(lsval_last _ n) by auto.
      replace (pv W x n + scast W (nth n x 0) * pw n + (pv W y n + scast W (nth n y 0) * pw n))
        with (pv W r n + (scast W (nth n x 0) + scast W (nth n y 0) + b2z cy) * pw n) by lia.
      rewrite fits_split by auto. tauto.
Qed.

Lemma ssub_overflowing_full_ok : forall x y, (2 <= length x)%nat -> length y = length x ->
  digits W x -> digits W y ->
  exists f, ssub_overflowing_full x y = Ok (lenc W (length x) (lval W x - lval W y), f) /\
  (f = true <-> ~ fits_s (W * Z.of_nat (length x)) (lsval x - lsval y)).
Proof.
  intros x y Hn HL Hx Hy. unfold ssub_overflowing_full. remember (length x) as n eqn:En.
  destruct n as [|n]; [lia|]. replace (S n - 1)%nat with n by lia.
  replace (2 <=? S n)%nat with true by (symmetry; apply Nat.leb_le; lia). cbn [assert_ bind].
  run_loop (chain_inv (S n) (-1) (fun i => pv W x i - pv W y i)) r cy E HI.
  - lia.
  - step2 borrowing_sub_spec.
    replace (v + -1 * B * b2z f - -1 * b2z cy) with (nth j x 0 - nth j y 0) by lia. ring.
  - apply chain_init; auto.
  - pose proof HI as (HLr & _). cbn [fst] in HLr. rewrite E. mstep.
    destruct (p_soverflowing_sub W (scast W (nth n x 0)) (scast W (nth n y 0))) as (v0 & f0) eqn:E0.
    destruct (p_soverflowing_sub W v0 (b2z cy)) as (v1 & f1) eqn:E1. mstep.
    destruct (top_sub _ _ cy _ _ _ _ (scast_range _) (scast_range _) E0 E1) as ((q & Eq) & Hf).
    exists (xorb f0 f1). split.
    + do 2 f_equal. eapply chain_final; eauto.
      * apply ucast_range; lia.
      * destruct (ucast_ex HW v1) as (q1 & ->). rewrite Eq.
        destruct (scast_ex (nth n x 0)) as (qx & ->).
        destruct (scast_ex (nth n y 0)) as (qy & ->).
        exists (- q - q1 - qx + qy). rewrite !(lval_last W _ n) by lia. ring.
    + rewrite Hf. apply chain_low in HI. destruct HI as (Et & Hr). cbv beta in Et.
      rewrite !(lsval_last _ n) by auto.
      replace (pv W x n + scast W (nth n x 0) * pw n - (pv W y n + scast W (nth n y 0) * pw n))
        with (pv W r n + (scast W (nth n x 0) - scast W (nth n y 0) - b2z cy) * pw n) by lia.
      rewrite fits_split by auto. tauto.
Qed.

Lemma sadd_overflowing_ulimb_ok : forall x y, (2 <= length x)%nat ->
  digits W x -> 0 <= y < B ->
  exists f, sadd_overflowing_ulimb x y = Ok (lenc W (length x) (lval W x + y), f) /\
  (f = true <-> ~ fits_s (W * Z.of_nat (length x)) (lsval x + y)).
Proof.
  intros x y Hn Hx Hy. unfold sadd_overflowing_ulimb. remember (length x) as n eqn:En.
  destruct n as [|n]; [lia|]. replace (S n - 1)%nat with n by lia.
  replace (2 <=? S n)%nat with true by (symmetry; apply Nat.leb_le; lia). cbn [assert_]. mstep.
  destruct (p_overflowing_add W (nth 0 x 0) y) as (v0 & f0) eqn:E0. dig 0%nat.
  apply (p_oadd_spec HW) in E0; auto. destruct E0 as (Hv0 & E0). mstep.
  run_loop (chain_inv (S n) 1 (fun i => pv W x i + y)) r cy E HI.
  - lia.
  - step2 p_oadd_spec.
    replace (v + 1 * B * b2z f - 1 * b2z cy) with (nth j x 0) by lia. ring.
  - repeat split; cbn [fst snd].
    + len.
    + apply digits_upd; auto. apply digits_repeat0; lia.
    + rewrite pv_upd_S by len. rewrite pv_S by lia. rewrite !pv_0.
      change (Z.of_nat 0) with 0. change (Z.of_nat 1) with 1. rewrite Z.mul_0_r, Z.pow_0_r, !Z.mul_1_r. lia.
  - pose proof HI as (HLr & _). cbn [fst] in HLr. rewrite E. mstep.
    destruct (p_soverflowing_add W (scast W (nth n x 0)) (b2z cy)) as (v1 & f1) eqn:E1. mstep.
    unfold p_soverflowing_add in E1. inversion E1; subst v1 f1; clear E1.
    exists (negb (in_s W (scast W (nth n x 0) + b2z cy))). split.
    + do 2 f_equal. eapply chain_final; eauto.
      * apply ucast_range; lia.
      * destruct (scast_ex (nth n x 0)) as (qx & ->).
        destruct (scast_ex (nth n x 0 + qx * B + b2z cy)) as (q & ->).
        destruct (ucast_ex HW (nth n x 0 + qx * B + b2z cy + q * B)) as (q1 & ->).
        exists (- q - q1 - qx). rewrite !(lval_last W _ n) by lia. ring.
    + apply chain_low in HI. destruct HI as (Et & Hr). cbv beta in Et.
      rewrite !(lsval_last _ n) by auto.
      replace (pv W x n + scast W (nth n x 0) * pw n + y)
        with (pv W r n + (scast W (nth n x 0) + b2z cy) * pw n) by lia.
      rewrite fits_split by auto. rewrite negb_true_iff.
      destruct (in_s_reflect W (scast W (nth n x 0) + b2z cy)) as [F|F]; unfold fits_s in F;
        split; intros; auto; try discriminate. contradiction.
Qed.

Lemma ssub_overflowing_ulimb_ok : forall x y, (2 <= length x)%nat ->
  digits W x -> 0 <= y < B ->
  exists f, ssub_overflowing_ulimb x y = Ok (lenc W (length x) (lval W x - y), f) /\
  (f = true <-> ~ fits_s (W * Z.of_nat (length x)) (lsval x - y)).
Proof.
  intros x y Hn Hx Hy. unfold ssub_overflowing_ulimb. remember (length x) as n eqn:En.
  destruct n as [|n]; [lia|]. replace (S n - 1)%nat with n by lia.
  replace (2 <=? S n)%nat with true by (symmetry; apply Nat.leb_le; lia). cbn [assert_]. mstep.
  destruct (p_overflowing_sub W (nth 0 x 0) y) as (v0 & f0) eqn:E0. dig 0%nat.
  apply (p_osub_spec HW) in E0; auto. destruct E0 as (Hv0 & E0). mstep.
  run_loop (chain_inv (S n) (-1) (fun i => pv W x i - y)) r cy E HI.
  - lia.
  - step2 p_osub_spec.
    replace (v + -1 * B * b2z f - -1 * b2z cy) with (nth j x 0) by lia. ring.
  - repeat split; cbn [fst snd].
    + len.
    + apply digits_upd; auto. apply digits_repeat0; lia.
    + rewrite pv_upd_S by len. rewrite pv_S by lia. rewrite !pv_0.
      change (Z.of_nat 0) with 0. change (Z.of_nat 1) with 1. rewrite Z.mul_0_r, Z.pow_0_r, !Z.mul_1_r. lia.
  - pose proof HI as (HLr & _). cbn [fst] in HLr. rewrite E. mstep.
    destruct (p_soverflowing_sub W (scast W (nth n x 0)) (b2z cy)) as (v1 & f1) eqn:E1. mstep.
    unfold p_soverflowing_sub in E1. inversion E1; subst v1 f1; clear E1.
    exists (negb (in_s W (scast W (nth n x 0) - b2z cy))). split.
    + do 2 f_equal. eapply chain_final; eauto.
      * apply ucast_range; lia.
      * destruct (scast_ex (nth n x 0)) as (qx & ->).
        destruct (scast_ex (nth n x 0 + qx * B - b2z cy)) as (q & ->).
        destruct (ucast_ex HW (nth n x 0 + qx * B - b2z cy + q * B)) as (q1 & ->).
        exists (- q - q1 - qx). rewrite !(lval_last W _ n) by lia. ring.
    + apply chain_low in HI. destruct HI as (Et & Hr). cbv beta in Et.
      rewrite !(lsval_last _ n) by auto.
      replace (pv W x n + scast W (nth n x 0) * pw n - y)
        with (pv W r n + (scast W (nth n x 0) - b2z cy) * pw n) by lia.
      rewrite fits_split by auto. rewrite negb_true_iff.
      destruct (in_s_reflect W (scast W (nth n x 0) - b2z cy)) as [F|F]; unfold fits_s in F;
        split; intros; auto; try discriminate. contradiction.
Qed.

(** *** Sign- and zero-extended scalars *)

Lemma lenc_0 : forall n, lenc W n 0 = repeat 0 n.
Proof.
  induction n; cbn [lenc repeat]; auto. rewrite Z.mod_0_l, Z.div_0_l by (pose proof (Bpos HW); lia).
  rewrite IHn. reflexivity.
Qed.

Lemma lenc_m1 : forall n, lenc W n (-1) = repeat (B - 1) n.
Proof.
  pose proof (Bpos HW).
  induction n; cbn [lenc repeat]; auto.
  replace (-1 mod B) with (B - 1) by (apply Z.mod_unique with (q := -1); lia).
  replace (-1 / B) with (-1) by (apply Z.div_unique with (r := B - 1); lia).
  rewrite IHn. reflexivity.
Qed.

Lemma sign_limb_eq : forall y, sign_limb y = if y <? 0 then B - 1 else 0.
Proof.
  intros. unfold sign_limb, p_wrapping_sub, ucast. pose proof (pow2_ge2 W W1).
  destruct (y <? 0); cbn [b2z].
  - symmetry. apply Z.mod_unique with (q := -1); lia.
  - apply Z.mod_0_l. lia.
Qed.

Lemma lenc_sign : forall n y, y = 0 \/ y = -1 -> lenc W n y = repeat (sign_limb y) n.
Proof.
  intros n y [->| ->]; rewrite sign_limb_eq; cbn; [apply lenc_0|apply lenc_m1].
Qed.

Lemma sign_limb_div : forall y k, 0 < k -> sign_limb (y / k) = sign_limb y.
Proof.
  intros. rewrite !sign_limb_eq.
  destruct (Z.ltb_spec y 0), (Z.ltb_spec (y / k) 0); auto.
  - pose proof (Z.div_lt_upper_bound y k 0 ltac:(lia) ltac:(lia)). lia.
  - pose proof (Z.div_pos y k ltac:(lia) ltac:(lia)). lia.
Qed.

Lemma ilimb_limbs_ok : forall n y, (1 <= n)%nat -> - 2 ^ (W - 1) <= y < 2 ^ (W - 1) ->
  ilimb_limbs n y = Ok (lenc W n y).
Proof.
  intros n y Hn Hy. unfold ilimb_limbs. rewrite set_ok by len. f_equal.
  destruct n as [|n]; [lia|]. cbn [repeat upd lenc]. f_equal.
  pose proof (Bpos HW). pose proof (pow2_half W W1).
  rewrite <- (sign_limb_div y B) by auto. symmetry. apply lenc_sign.
  destruct (Z.lt_ge_cases y 0).
  - right. symmetry. apply Z.div_unique with (r := y + B); lia.
  - left. apply Z.div_small; lia.
Qed.

Lemma uwide_limbs_ok : forall n y, (2 <= n)%nat -> 0 <= y < 2 ^ (2 * W) ->
  uwide_limbs n y = Ok (lenc W n y).
Proof.
  intros n y Hn Hy. unfold uwide_limbs. rewrite set_ok by len. cbn [bind].
  rewrite ushr_ok by lia. cbn [bind]. rewrite set_ok by len. f_equal.
  destruct n as [|[|n]]; try lia. cbn [repeat upd lenc]. do 2 f_equal.
  pose proof (Bpos HW). replace (y / B / B) with 0; [symmetry; apply lenc_0|].
  rewrite Z.div_div by lia. symmetry. apply Z.div_small. rewrite <- Z.pow_add_r by lia.
  replace (W + W) with (2 * W) by lia. auto.
Qed.

Lemma ucast_ucast : forall a b v, 0 <= a <= b -> ucast a (ucast b v) = ucast a v.
Proof.
  intros a b v H. unfold ucast. replace (2 ^ b) with (2 ^ a * 2 ^ (b - a)).
  - pose proof (pow2_pos a ltac:(lia)). pose proof (pow2_pos (b - a) ltac:(lia)).
    rewrite Z.rem_mul_r by lia. rewrite Z.mul_comm, Z.mod_add by lia. apply Z.mod_mod; lia.
  - rewrite <- Z.pow_add_r by lia. f_equal. lia.
Qed.

Lemma ucast_div : forall v, ucast W (ucast (2 * W) v / B) = ucast W (v / B).
Proof.
  intros. unfold ucast. pose proof (Bpos HW). replace (2 ^ (2 * W)) with (B * B).
  - rewrite Z.rem_mul_r by lia. rewrite Z.add_comm, Z.mul_comm, Z.div_add_l by lia.
    rewrite (Z.div_small (v mod B)) by (apply Z.mod_pos_bound; lia).
    rewrite Z.add_0_r. apply Z.mod_mod; lia.
  - rewrite <- Z.pow_add_r by lia. f_equal. lia.
Qed.

Lemma iwide_limbs_ok : forall n y, (2 <= n)%nat -> - 2 ^ (2 * W - 1) <= y < 2 ^ (2 * W - 1) ->
  iwide_limbs n y = Ok (lenc W n y).
Proof.
  intros n y Hn Hy. unfold iwide_limbs. rewrite set_ok by len. cbn [bind].
  rewrite ushr_ok by lia. cbn [bind]. rewrite set_ok by len. f_equal.
  rewrite ucast_div, ucast_ucast by lia.
  destruct n as [|[|n]]; try lia. cbn [repeat upd lenc]. do 2 f_equal.
  pose proof (Bpos HW). rewrite Z.div_div by lia.
  replace (B * B) with (2 ^ (2 * W)) by (rewrite <- Z.pow_add_r by lia; f_equal; lia).
  assert (2 ^ (2 * W) = 2 * 2 ^ (2 * W - 1)) by (apply pow2_half; lia).
  assert (0 < 2 ^ (2 * W)) by (apply pow2_pos; lia).
  rewrite <- (sign_limb_div y (2 ^ (2 * W))) by auto. symmetry. apply lenc_sign.
  destruct (Z.lt_ge_cases y 0).
  - right. symmetry. apply Z.div_unique with (r := y + 2 ^ (2 * W)); lia.
  - left. apply Z.div_small; lia.
Qed.

(** *** Full-width operations with an extended scalar *)

Lemma lsval_lenc : forall n y, (1 <= n)%nat -> lsval (lenc W n y) = swrap (W * Z.of_nat n) y.
Proof.
  intros n y Hn. unfold lsval. rewrite length_lenc, lval_lenc by apply W0.
  apply swrap_of_mod. nia.
Qed.

Lemma lenc_add_r : forall n a y, lenc W n (a + lval W (lenc W n y)) = lenc W n (a + y).
Proof.
  intros. apply lenc_eq_mod; [apply W0|]. rewrite lval_lenc by apply W0.
  apply Zplus_mod_idemp_r.
Qed.
Lemma lenc_sub_r : forall n a y, lenc W n (a - lval W (lenc W n y)) = lenc W n (a - y).
Proof.
  intros. apply lenc_eq_mod; [apply W0|]. rewrite lval_lenc by apply W0.
  apply Zminus_mod_idemp_r.
Qed.

Section Ext.
  Variables (x : list Z) (y : Z).
  Hypothesis Hn : (2 <= length x)%nat.
  Hypothesis Hx : digits W x.

  Lemma sadd_wrapping_ext : sadd_wrapping_full x (lenc W (length x) y) = Ok (lenc W (length x) (lval W x + y)).
  Proof.
    rewrite sadd_wrapping_full_ok; auto using length_lenc, digits_lenc, W0. rewrite lenc_add_r. auto.
  Qed.
  Lemma ssub_wrapping_ext : ssub_wrapping_full x (lenc W (length x) y) = Ok (lenc W (length x) (lval W x - y)).
  Proof.
    unfold ssub_wrapping_full.
    rewrite sub_wrapping_full_ok; auto using length_lenc, digits_lenc, W0. rewrite lenc_sub_r. auto.
  Qed.
  Hypothesis Hy : fits_s (W * Z.of_nat (length x)) y.
  Lemma sadd_overflowing_ext :
    exists f, sadd_overflowing_full x (lenc W (length x) y) = Ok (lenc W (length x) (lval W x + y), f) /\
    (f = true <-> ~ fits_s (W * Z.of_nat (length x)) (lsval x + y)).
  Proof.
    destruct (sadd_overflowing_full_ok x (lenc W (length x) y)) as (f & E & F);
      auto using length_lenc, digits_lenc, W0.
    rewrite lenc_add_r in E. rewrite lsval_lenc in F by lia.
    rewrite swrap_small in F; auto; [|nia]. exists f; auto.
  Qed.
  Lemma ssub_overflowing_ext :
    exists f, ssub_overflowing_full x (lenc W (length x) y) = Ok (lenc W (length x) (lval W x - y), f) /\
    (f = true <-> ~ fits_s (W * Z.of_nat (length x)) (lsval x - y)).
  Proof.
    destruct (ssub_overflowing_full_ok x (lenc W (length x) y)) as (f & E & F);
      auto using length_lenc, digits_lenc, W0.
    rewrite lenc_sub_r in E. rewrite lsval_lenc in F by lia.
    rewrite swrap_small in F; auto; [|nia]. exists f; auto.
  Qed.
End Ext.

End P.
