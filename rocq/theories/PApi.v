(** * Proofs about MApi.v: the division family *)

Require Import ZArith List Bool Lia.
From Verif Require Import Prim Spec Facts MAdd PAdd MMul MShift MCore PCore PBits PWide MArith PArith PArith2 PPow PMisc
  MDiv DivSpec PDiv PKnuth PDivFull MApi.
Import ListNotations.
Local Open Scope Z_scope.

#[global] Hint Rewrite @s_wrapping_neg_ok @s_wrapping_abs_ok @unsigned_abs_ok @derived_eq_ok using wfauto : mon.
#[global] Hint Rewrite @checked_add_ok @checked_sub_ok using wfauto : mon.

(** ** The numeric outcome *)

Lemma fold_stray_le : forall w n s M f l, 0 <= w ->
  0 <= fold_right (fun j acc => (if f j && (j + n <? M)%nat then 2 ^ (w * Z.of_nat (j + n) - s) else 0) + acc) 0 l.
Proof.
  intros w n s M f l Hw. induction l; cbn [fold_right]; [lia|].
  destruct (_ && _); [|lia]. pose proof (Z.pow_nonneg 2 (w * Z.of_nat (a + n) - s)). lia.
Qed.
Lemma stray_nonneg : forall w M x y, 0 <= w -> 0 <= stray w M x y.
Proof. intros. apply fold_stray_le; auto. Qed.

Lemma fold_stray_0 : forall w n s M f len a, (M <= a + n)%nat ->
  fold_right (fun j acc => (if f j && (j + n <? M)%nat then 2 ^ (w * Z.of_nat (j + n) - s) else 0) + acc) 0 (seq a len) = 0.
Proof.
  intros w n s M f len. induction len; intros a Ha; cbn [seq fold_right]; auto. rewrite IHlen by lia.
  replace (a + n <? M)%nat with false by (symmetry; apply Nat.ltb_ge; lia). rewrite andb_false_r. reflexivity.
Qed.
Lemma fold_stray_lt : forall w n s M f len a, 1 <= w -> 0 <= s -> (a + n < M)%nat ->
  fold_right (fun j acc => (if f j && (j + n <? M)%nat then 2 ^ (w * Z.of_nat (j + n) - s) else 0) + acc) 0 (seq a len)
  + 2 ^ (w * Z.of_nat (a + n)) <= 2 * 2 ^ (w * Z.of_nat (M - 1)).
Proof.
  intros w n s M f len. induction len; intros a Hw Hs Ha; cbn [seq fold_right];
    assert (HP : 2 ^ (w * Z.of_nat (a + n)) <= 2 ^ (w * Z.of_nat (M - 1))) by (apply Z.pow_le_mono_r; nia);
    assert (Hp : 0 < 2 ^ (w * Z.of_nat (a + n))) by (apply pow2_pos; nia); [lia|].
  assert (2 ^ (w * Z.of_nat (a + n) - s) <= 2 ^ (w * Z.of_nat (a + n))).
  { destruct (Z.le_gt_cases 0 (w * Z.of_nat (a + n) - s)); [apply Z.pow_le_mono_r; lia|].
    rewrite (Z.pow_neg_r 2 (w * Z.of_nat (a + n) - s)) by lia. lia. }
  assert ((if f a && (a + n <? M)%nat then 2 ^ (w * Z.of_nat (a + n) - s) else 0) <= 2 ^ (w * Z.of_nat (a + n)))
    by (destruct (_ && _); lia).
  destruct (Nat.eq_dec (S a + n) M) as [Em|Em].
  - rewrite fold_stray_0 by lia. replace (M - 1)%nat with (a + n)%nat by lia. lia.
  - specialize (IHlen (S a) Hw Hs ltac:(lia)).
    assert (Hd : 2 * 2 ^ (w * Z.of_nat (a + n)) <= 2 ^ (w * Z.of_nat (S a + n))).
    { replace (w * Z.of_nat (S a + n)) with (w + w * Z.of_nat (a + n)) by lia.
      pose proof (Z.mul_nonneg_nonneg w (Z.of_nat (a + n)) ltac:(lia) ltac:(lia)).
      rewrite Z.pow_add_r by lia. pose proof (pow2_ge2 w Hw). nia. }
    lia.
Qed.
Lemma limbs_of_pos : forall w y, 1 <= w -> 1 <= limbs_of w y.
Proof. intros w y Hw. unfold limbs_of. pose proof (Z.log2_nonneg y). pose proof (Z.div_pos (Z.log2 y) w). lia. Qed.
Lemma norm_shift_nonneg : forall w y, 1 <= w -> 0 <= norm_shift w y.
Proof.
  intros w y Hw. unfold norm_shift, limbs_of. pose proof (Z.div_mod (Z.log2 y) w).
  pose proof (Z.mod_pos_bound (Z.log2 y) w). lia.
Qed.
Lemma stray_lt : forall w M x y, 1 <= w -> stray w M x y < 2 * 2 ^ (w * Z.of_nat (M - 1)).
Proof.
  intros w M x y Hw. unfold stray.
  set (n := Z.to_nat (limbs_of w y)). pose proof (norm_shift_nonneg w y Hw).
  assert (0 < 2 ^ (w * Z.of_nat (M - 1))) by (apply pow2_pos; nia).
  destruct (Nat.le_gt_cases M (0 + n)).
  - rewrite fold_stray_0 by auto. lia.
  - pose proof (fold_stray_lt w n (norm_shift w y) M (overestimated w n (x * 2 ^ norm_shift w y) (y * 2 ^ norm_shift w y))
      (Z.to_nat (limbs_of w x) - n + 1) 0 Hw ltac:(auto) ltac:(auto)).
    assert (0 < 2 ^ (w * Z.of_nat (0 + n))) by (apply pow2_pos; nia). lia.
Qed.

Section P.
Context {c : Cfg}.
Hypothesis HV : Valid.
Local Notation W0 := (W_nonneg HV).
Lemma HW2 : 2 <= W <= 64.
Proof. destruct (W_cases HV) as [-> | ->]; lia. Qed.
Local Notation HW := HW2.

Lemma lenc_ofZ : forall v, lenc W N v = ofZ v.
Proof. reflexivity. Qed.

(** Facts about the outcome *)
Lemma topexp : W * (Z.of_nat N - 1) = BITS - W.
Proof. unfold BITS. lia. Qed.
Lemma topexp' : W * Z.of_nat (N - 1) = BITS - W.
Proof. apply (BITS_top HV). Qed.
Lemma ptop : 0 < 2 ^ (BITS - W) /\ 8 * 2 ^ (BITS - W) <= 2 ^ (BITS - 1).
Proof.
  pose proof (BITS_ge HV). destruct (W_cases HV) as [E|E]; (split; [apply pow2_pos; lia|]);
  change 8 with (2 ^ 3); rewrite <- Z.pow_add_r by lia; apply pow2_le_mono; lia.
Qed.
Lemma outcome_0 : forall x, 0 <= x -> div_outcome W N x 0 = if x =? 0 then Some (1, 0) else None.
Proof.
  intros x Hx. unfold div_outcome. destruct (Z.ltb_spec x 0); [lia|]. destruct (x =? 0); reflexivity.
Qed.
Lemma outcome_some : forall x y q r, 0 <= x -> 0 < y -> div_outcome W N x y = Some (q, r) ->
  q = x / y /\ (r = x mod y \/ (y < 2 ^ (BITS - W) /\ y < x /\ has_correction W x y = true /\ r = x mod y + stray W N x y)).
Proof.
  intros x y q r Hx Hy. unfold div_outcome. rewrite topexp.
  destruct (Z.ltb_spec x y).
  { intros E; inversion E; subst. rewrite Z.div_small, Z.mod_small by lia. auto. }
  destruct (Z.eqb_spec x y) as [->|].
  { intros E; inversion E; subst. rewrite Z.div_same, Z.mod_same by lia. auto. }
  destruct (Z.eqb_spec y 0); [lia|].
  destruct (Z.ltb_spec y (2 ^ W)).
  { intros E; inversion E; subst. auto. }
  destruct (Z.leb_spec (2 ^ (BITS - W)) y); destruct (has_correction W x y) eqn:HC; cbn [andb]; intros E; inversion E; subst; split; auto;
    try (rewrite (stray_0 _ _ _ HC); left; lia).
  right. repeat split; auto. lia.
Qed.
Lemma outcome_none : forall x y, 0 <= x -> 0 < y -> 
  (div_outcome W N x y = None <-> (2 ^ (BITS - W) <= y < x /\ has_correction W x y = true)).
Proof.
  intros x y Hx Hy. unfold div_outcome. rewrite topexp.
  assert (2 ^ W <= 2 ^ (BITS - W)) by (apply pow2_le_mono; pose proof (BITS_ge HV); destruct (W_cases HV); lia).
  destruct (Z.ltb_spec x y); [split; [discriminate|lia]|].
  destruct (Z.eqb_spec x y) as [->|]; [split; [discriminate|lia]|].
  destruct (Z.eqb_spec y 0); [lia|].
  destruct (Z.ltb_spec y (2 ^ W)); [split; [discriminate|lia]|].
  destruct (Z.leb_spec (2 ^ (BITS - W)) y); destruct (has_correction W x y) eqn:HC; cbn [andb]; split; intros; try discriminate; auto; try lia.
Qed.
Lemma outcome_exact : forall x y, 0 <= x -> 0 < y -> exact_division W N x y -> div_outcome W N x y = Some (x / y, x mod y).
Proof.
  intros x y Hx Hy HU. unfold div_outcome.
  destruct (Z.ltb_spec x y).
  { rewrite Z.div_small, Z.mod_small by lia. auto. }
  destruct (Z.eqb_spec x y) as [->|].
  { rewrite Z.div_same, Z.mod_same by lia. auto. }
  destruct (Z.eqb_spec y 0); [lia|].
  destruct (Z.ltb_spec y (2 ^ W)); auto.
  destruct HU as [?|[?|[HC|(HL & HS)]]]; [lia|lia| |].
  - rewrite HC, andb_false_r, (stray_0 _ _ _ HC). do 2 f_equal. lia.
  - destruct (Z.leb_spec (2 ^ (W * (Z.of_nat N - 1))) y); [lia|]. cbn [andb]. rewrite HS. do 2 f_equal. lia.
Qed.
Lemma outcome_exact_inv : forall x y, 0 <= x -> 0 < y -> div_outcome W N x y = Some (x / y, x mod y) -> exact_division W N x y.
Proof.
  intros x y Hx Hy. unfold div_outcome, exact_division.
  destruct (Z.ltb_spec x y); [lia|]. destruct (Z.eqb_spec x y); [lia|]. destruct (Z.eqb_spec y 0); [lia|].
  destruct (Z.ltb_spec y (2 ^ W)); [lia|]. destruct (has_correction W x y); [|auto].
  destruct (Z.leb_spec (2 ^ (W * (Z.of_nat N - 1))) y); cbn [andb]; [discriminate|]. intros E. inversion E. right. right. right. lia.
Qed.
Lemma outcome_short : forall x y, 0 <= x -> 0 < y < 2 ^ (BITS - W) -> 
  exists r, div_outcome W N x y = Some (x / y, r) /\ x mod y <= r < x mod y + 2 * 2 ^ (BITS - W).
Proof.
  intros x y Hx Hy. destruct (div_outcome W N x y) as [[q r]|] eqn:E.
  - exists r. destruct (outcome_some x y q r Hx ltac:(lia) E) as (-> & R). split; auto. destruct ptop.
    destruct R as [->|(_ & _ & _ & ->)]; [lia|].
    pose proof (stray_nonneg W N x y W0). pose proof (stray_lt W N x y (Wge1 HV)). rewrite topexp' in *. lia.
  - apply outcome_none in E; lia.
Qed.
Lemma outcome_range : forall x y q r, 0 <= x < 2 ^ BITS -> 0 <= y < 2 ^ BITS -> div_outcome W N x y = Some (q, r) ->
  0 <= r < 2 ^ BITS /\ (0 < y -> x <= 2 ^ (BITS - 1) -> r < 2 ^ (BITS - 1)  \/ (r = x /\ x < y)).
Proof.
  intros x y q r Hx Hy E. pose proof (pBhalf HV). destruct ptop. destruct (Z.eq_dec y 0) as [->|].
  - rewrite outcome_0 in E by lia. destruct (x =? 0); inversion E; subst. split; lia.
  - destruct (outcome_some x y q r ltac:(lia) ltac:(lia) E) as (_ & [->|(? & ? & ? & ->)]).
    + pose proof (Z.mod_pos_bound x y ltac:(lia)). split; [lia|]. intros. destruct (Z.ltb_spec x y).
      * right. split; auto. apply Z.mod_small. lia.
      * left. assert (2 * (x mod y) < 2 * 2 ^ (BITS - 1)); [|lia].
        pose proof (Z.div_mod x y ltac:(lia)). pose proof (Z.div_str_pos x y ltac:(lia)). nia.
    + pose proof (Z.mod_pos_bound x y ltac:(lia)).
      pose proof (stray_nonneg W N x y W0). pose proof (stray_lt W N x y (Wge1 HV)). rewrite topexp' in *. lia.
Qed.

(** ** Unsigned *)
Definition lift_qr (o : option (Z * Z)) : res (list Z * list Z) :=
  match o with Some (q, r) => Ok (ofZ q, ofZ r) | None => Panic end.

Lemma u_wrapping_div_rem_ok : forall x y, wf x -> wf y ->
  u_wrapping_div_rem x y = lift_qr (div_outcome W N (uval x) (uval y)).
Proof.
  intros x y Hx Hy. unfold u_wrapping_div_rem.
  pose proof (uval_range HV x Hx). pose proof (uval_range HV y Hy).
  assert (HD : div_full x y = lift_qr (div_outcome W N (uval x) (uval y))).
  { pose proof Hx as (Lx & Dx). pose proof Hy as (Ly & Dy). pose proof (N_ge4 HV). unfold div_outcome, uval.
    destruct (Z.ltb_spec (lval W x) (lval W y)).
    { rewrite (div_full_lt HW) by (auto; lia). cbn [lift_qr]. rewrite Lx. fold (uval x); rewrite (ofZ_uv HV x) by auto. reflexivity. }
    destruct (Z.eqb_spec (lval W x) (lval W y)).
    { rewrite (div_full_eq HW) by (auto; lia). cbn [lift_qr]. rewrite Lx, Ly. reflexivity. }
    rewrite (div_full_gt HW) by (auto; lia).
    destruct (Z.eqb_spec (lval W y) 0) as [E0|E0].
    { rewrite (full_gt_zero HW) by (auto; lia). reflexivity. }
    assert (0 < lval W y) by (unfold uval in *; lia).
    destruct (Z.ltb_spec (lval W y) (2 ^ W)).
    { rewrite (full_gt_limb HW) by (auto; lia). cbn [lift_qr]. rewrite Lx, Ly. reflexivity. }
    destruct (full_gt_ok HW x y Dx Dy ltac:(lia) ltac:(lia) ltac:(auto) ltac:(auto)) as (FP & FO). cbn zeta in FP, FO.
    rewrite Lx, Ly in FO. rewrite Ly in FP.
    replace (Z.of_nat N - 1) with (Z.of_nat (N - 1)) by lia.
    destruct (Z.leb_spec (2 ^ (W * Z.of_nat (N - 1))) (lval W y)); destruct (has_correction W (lval W x) (lval W y)) eqn:HC; cbn [andb].
    - apply FP; auto.
    - rewrite FO by auto. reflexivity.
    - rewrite FO by (left; lia). reflexivity.
    - rewrite FO by auto. reflexivity. }
  rewrite HD. destruct (div_outcome W N (uval x) (uval y)) as [[q r]|]; cbn [lift_qr bind]; auto.
  rewrite (mk_ok HV). cbn [bind]. rewrite (mk_ok HV). reflexivity.
Qed.

(** ** Signed, and both types at once *)
Definition soutcome (x y : Z) : option (Z * Z) :=
  match div_outcome W N (Z.abs x) (Z.abs y) with
  | Some (q, r) => Some ((if xorb (x <? 0) (y <? 0) then - q else q), (if x <? 0 then - r else r))
  | None => None
  end.

Lemma neg_ofZ : forall v, s_wrapping_neg (ofZ v) = Ok (ofZ (- v)).
Proof.
  intros v. run. f_equal. pose proof (ofZ_sub_r HV true 0 v) as E. rewrite <- (val_ofZ HV true v) in E. exact E.
Qed.

Lemma uval_abs : forall x, wf x -> uval (ofZ (Z.abs (sval x))) = Z.abs (sval x).
Proof.
  intros x Hx. apply (val_ofZ_small HV false). cbn. pose proof (sval_range HV x Hx). pose proof (pBhalf HV). pose proof (pBh HV).
  unfold fits_u. lia.
Qed.

Lemma s_wrapping_div_rem_ok : forall x y, wf x -> wf y ->
  s_wrapping_div_rem x y = lift_qr (soutcome (sval x) (sval y)).
Proof.
  intros x y Hx Hy. unfold s_wrapping_div_rem. run.
  pose proof (u_wrapping_div_rem_ok (ofZ (Z.abs (sval x))) (ofZ (Z.abs (sval y))) (wf_ofZ HV _) (wf_ofZ HV _)) as E.
  rewrite !uval_abs in E by auto. unfold u_wrapping_div_rem in E. unfold soutcome.
  destruct (div_full _ _) as [[q r]| |]; cbn [bind] in *.
  - rewrite !(mk_ok HV) in E. cbn [bind] in E.
    destruct (div_outcome W N _ _) as [[q' r']|]; cbn [lift_qr] in *; inversion E; subst.
    unfold as_signed. rewrite !(mk_ok HV). cbn [bind]. rewrite !(mk_ok HV). cbn [bind].
    destruct (sval x <? 0), (sval y <? 0); cbn [eqb negb xorb bind]; rewrite ?neg_ofZ; cbn [bind]; rewrite ?neg_ofZ; reflexivity.
  - destruct (div_outcome W N _ _) as [[q' r']|]; cbn [lift_qr] in *; auto; discriminate.
  - destruct (div_outcome W N _ _) as [[q' r']|]; cbn [lift_qr] in *; auto; discriminate.
Qed.

Lemma soutcome_u : forall x y, 0 <= x -> 0 <= y -> soutcome x y = div_outcome W N x y.
Proof.
  intros x y Hx Hy. unfold soutcome. rewrite !Z.abs_eq by auto.
  destruct (Z.ltb_spec x 0); [lia|]. destruct (Z.ltb_spec y 0); [lia|]. cbn [xorb].
  destruct (div_outcome W N x y) as [[q r]|]; reflexivity.
Qed.

Lemma wrapping_div_rem_ok : forall sg x y, wf x -> wf y ->
  wrapping_div_rem sg x y = lift_qr (soutcome (val sg x) (val sg y)).
Proof.
  intros [] x y Hx Hy; cbn [wrapping_div_rem val].
  - apply s_wrapping_div_rem_ok; auto.
  - rewrite soutcome_u by (apply (uval_range HV); auto). apply u_wrapping_div_rem_ok; auto.
Qed.

Lemma quot_rem_signs : forall x y, y <> 0 ->
  Z.quot x y = (if xorb (x <? 0) (y <? 0) then - (Z.abs x / Z.abs y) else Z.abs x / Z.abs y) /\
  Z.rem x y = (if x <? 0 then - (Z.abs x mod Z.abs y) else Z.abs x mod Z.abs y).
Proof.
  intros x y Hy.
  destruct (Z.ltb_spec x 0); destruct (Z.ltb_spec y 0); cbn [xorb].
  - assert (exists a b, x = - a /\ y = - b /\ 0 < a /\ 0 < b) as (a & b & -> & -> & ? & ?) by (exists (- x), (- y); lia).
    rewrite Z.quot_opp_opp, Z.rem_opp_opp, !Z.abs_opp, !Z.abs_eq by lia.
    rewrite Z.quot_div_nonneg, Z.rem_mod_nonneg by lia. auto.
  - assert (exists a, x = - a /\ 0 < a) as (a & -> & ?) by (exists (- x); lia).
    rewrite Z.quot_opp_l, Z.rem_opp_l, !Z.abs_opp, !Z.abs_eq by lia.
    rewrite Z.quot_div_nonneg, Z.rem_mod_nonneg by lia. auto.
  - assert (exists b, y = - b /\ 0 < b) as (b & -> & ?) by (exists (- y); lia).
    rewrite Z.quot_opp_r, Z.rem_opp_r, !Z.abs_opp, !Z.abs_eq by lia.
    rewrite Z.quot_div_nonneg, Z.rem_mod_nonneg by lia. auto.
  - rewrite !Z.abs_eq by lia. rewrite Z.quot_div_nonneg, Z.rem_mod_nonneg by lia. auto.
Qed.

(** the numeric facts, signed *)
Lemma soutcome_exact : forall x y, y <> 0 -> exact_division W N (Z.abs x) (Z.abs y) -> soutcome x y = Some (Z.quot x y, Z.rem x y).
Proof.
  intros x y Hy HU. unfold soutcome. rewrite outcome_exact by (auto; lia).
  destruct (quot_rem_signs x y Hy) as (-> & ->). reflexivity.
Qed.
Lemma soutcome_some : forall x y q r, y <> 0 -> soutcome x y = Some (q, r) -> q = Z.quot x y.
Proof.
  intros x y q r Hy. unfold soutcome. destruct (div_outcome W N (Z.abs x) (Z.abs y)) as [[q' r']|] eqn:E; [|discriminate].
  destruct (outcome_some (Z.abs x) (Z.abs y) q' r' ltac:(lia) ltac:(lia) E) as (-> & _). intros H. inversion H; subst.
  symmetry. apply (quot_rem_signs x y Hy).
Qed.
Lemma soutcome_none : forall x y, y <> 0 ->
  (soutcome x y = None <-> 2 ^ (BITS - W) <= Z.abs y < Z.abs x /\ has_correction W (Z.abs x) (Z.abs y) = true).
Proof.
  intros x y Hy. rewrite <- outcome_none by lia. unfold soutcome.
  destruct (div_outcome W N (Z.abs x) (Z.abs y)) as [[q' r']|]; split; auto; discriminate.
Qed.
Lemma soutcome_0 : forall x, soutcome x 0 = if x =? 0 then Some (1, 0) else None.
Proof.
  intros x. unfold soutcome. change (Z.abs 0) with 0. rewrite outcome_0 by lia.
  destruct (Z.eqb_spec x 0) as [->|]; [reflexivity|]. replace (Z.abs x =? 0) with false; auto.
  symmetry. apply Z.eqb_neq. lia.
Qed.

(** ** The wrapping functions *)
Definition lift1 (o : option Z) : res (list Z) := match o with Some v => Ok (ofZ v) | None => Panic end.
Definition sq (x y : Z) := option_map fst (soutcome x y).
Definition sr (x y : Z) := option_map snd (soutcome x y).

Lemma wrapping_div_ok : forall sg x y, wf x -> wf y -> wrapping_div sg x y = lift1 (sq (val sg x) (val sg y)).
Proof.
  intros sg x y Hx Hy. unfold wrapping_div. rewrite wrapping_div_rem_ok by auto. unfold sq.
  destruct (soutcome _ _) as [[q r]|]; reflexivity.
Qed.
Lemma wrapping_rem_ok : forall sg x y, wf x -> wf y -> wrapping_rem sg x y = lift1 (sr (val sg x) (val sg y)).
Proof.
  intros sg x y Hx Hy. unfold wrapping_rem. rewrite wrapping_div_rem_ok by auto. unfold sr.
  destruct (soutcome _ _) as [[q r]|]; reflexivity.
Qed.
Lemma sq_exact : forall x y, y <> 0 -> exact_division W N (Z.abs x) (Z.abs y) -> sq x y = Some (Z.quot x y).
Proof. intros x y Hy HU. unfold sq. rewrite soutcome_exact; auto. Qed.
Lemma sr_exact : forall x y, y <> 0 -> exact_division W N (Z.abs x) (Z.abs y) -> sr x y = Some (Z.rem x y).
Proof. intros x y Hy HU. unfold sr. rewrite soutcome_exact; auto. Qed.
(** the quotient, whenever there is one *)
Lemma sq_cases : forall x y, y <> 0 ->
  sq x y = if (2 ^ (BITS - W) <=? Z.abs y) && (Z.abs y <? Z.abs x) && has_correction W (Z.abs x) (Z.abs y) then None else Some (Z.quot x y).
Proof.
  intros x y Hy. unfold sq. destruct (soutcome x y) as [[q r]|] eqn:E; cbn [option_map fst].
  - pose proof (soutcome_some x y q r Hy E) as ->.
    destruct (_ && _) eqn:B; auto. apply andb_true_iff in B. destruct B as (B & HC). apply andb_true_iff in B. destruct B as (B1 & B2).
    apply Z.leb_le in B1. apply Z.ltb_lt in B2. assert (soutcome x y = None) by (apply soutcome_none; auto). congruence.
  - apply soutcome_none in E; auto. destruct E as ((E1 & E2) & E3). rewrite E3.
    apply Z.leb_le in E1. apply Z.ltb_lt in E2. rewrite E1, E2. reflexivity.
Qed.
End P.
