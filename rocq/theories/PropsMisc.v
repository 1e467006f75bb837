(** * Properties: exponentiation, logarithm, sign and distance, midpoint, wide
      products, carries, mixed-sign arithmetic, operators
      (C33-C36, C38-C40, C44) *)

Require Import ZArith List Bool Lia.
From Verif Require Import Prim Spec Facts MAdd MMul MShift MCore PCore PBits PWide MArith PArith PArith2 PPow PMisc PBits2 PRet.
Import ListNotations.
Local Open Scope Z_scope.

Notation E64 := (@ofZ c256_64).
Notation E32 := (@ofZ c256_32).
Notation E384 := (@ofZ c384_64).
Notation E512 := (@ofZ c512_32).

(** ** C33: exponentiation *)

Theorem C33_wrapping_pow_u : forall (c : Cfg) x e, Valid -> wf x -> 0 <= e < 2 ^ 32 ->
  returns_u (wrapping_pow false x e) ((uval x ^ e) mod 2 ^ BITS).
Proof. intros c x e HV Hx He. exact (retU HV _ _ (wrapping_pow_ok HV false x e Hx He)). Qed.
Theorem C33_wrapping_pow_s : forall (c : Cfg) x e, Valid -> wf x -> 0 <= e < 2 ^ 32 ->
  returns_s (wrapping_pow true x e) (swrap BITS (sval x ^ e)).
Proof. intros c x e HV Hx He. exact (retS HV _ _ (wrapping_pow_ok HV true x e Hx He)). Qed.
Theorem C33_overflowing_pow_u : forall (c : Cfg) x e, Valid -> wf x -> 0 <= e < 2 ^ 32 ->
  returns_u_flag (overflowing_pow false x e) ((uval x ^ e) mod 2 ^ BITS) (~ fits_u BITS (uval x ^ e)).
Proof. intros c x e HV Hx He. exact (flagU HV _ _ (overflowing_pow_ok HV false x e Hx He)). Qed.
Theorem C33_checked_pow_u : forall (c : Cfg) x e, Valid -> wf x -> 0 <= e < 2 ^ 32 ->
  returns_u_opt (checked_pow false x e) (fits_u BITS (uval x ^ e)) (uval x ^ e).
Proof.
  intros c x e HV Hx He. apply (optU HV). rewrite (checked_pow_ok HV) by auto. cbn [ovf val]. rewrite negb_involutive. reflexivity.
Qed.
Theorem C33_strict_pow_u : forall (c : Cfg) x e, Valid -> wf x -> 0 <= e < 2 ^ 32 ->
  returns_u_or_panics (strict_pow false x e) (fits_u BITS (uval x ^ e)) (uval x ^ e).
Proof.
  intros c x e HV Hx He. apply (panU HV). rewrite (strict_pow_ok HV) by auto. cbn [ovf val]. rewrite negb_involutive. reflexivity.
Qed.
Theorem C33_saturating_pow_u : forall (c : Cfg) x e, Valid -> wf x -> 0 <= e < 2 ^ 32 ->
  returns_u (u_saturating_pow x e) (Z.max 0 (Z.min (2 ^ BITS - 1) (uval x ^ e))).
Proof. intros c x e HV Hx He. exact (satU HV _ _ (u_saturating_pow_ok HV x e Hx He)). Qed.
Theorem C33_pow_u : forall (c : Cfg) x e, Valid -> wf x -> 0 <= e < 2 ^ 32 ->
  (chk = true -> returns_u_or_panics (pow false x e) (fits_u BITS (uval x ^ e)) (uval x ^ e)) /\
  (chk = false -> returns_u (pow false x e) ((uval x ^ e) mod 2 ^ BITS)).
Proof. intros c x e HV Hx He. exact (opU HV _ _ (pow_ok HV false x e Hx He)). Qed.
(** Signed: value always right; the flag has the same hole as multiplication
    (C06): it is true exactly outside the range extended downwards by
    2^(BITS-W) - 1. *)
Theorem C33_overflowing_pow_s_partial : forall (c : Cfg) x e, Valid -> wf x -> 0 <= e < 2 ^ 32 ->
  returns_s_flag (overflowing_pow true x e) (swrap BITS (sval x ^ e))
    (2 ^ (BITS - 1) <= sval x ^ e \/ sval x ^ e <= - (2 ^ (BITS - 1) + 2 ^ (BITS - W))).
Proof.
  intros c x e HV Hx He. rewrite (overflowing_pow_ok HV) by auto. eexists _, _. split; [reflexivity|].
  split; [apply (wf_ofZ HV)|]. split; [apply (sval_ofZ HV)|apply ovf_s_spec].
Qed.
Theorem C33_pow_s_fits_partial : forall (c : Cfg) x e, Valid -> wf x -> 0 <= e < 2 ^ 32 -> fits_s BITS (sval x ^ e) ->
  returns_s (pow true x e) (sval x ^ e) /\ returns_s (strict_pow true x e) (sval x ^ e) /\
  returns_s (s_saturating_pow x e) (sval x ^ e).
Proof.
  intros c x e HV Hx He F. split; [|split]; apply (retS1 HV); auto.
  - apply (pow_fits HV true); auto.
  - rewrite (strict_pow_ok HV), (ovf_fits HV) by auto. reflexivity.
  - rewrite (s_saturating_pow_ok HV), (ovf_fits HV) by auto. reflexivity.
Qed.
Theorem C33_overflowing_pow_s_refuted : exists (c : Cfg) x e, Valid /\ wf x /\ 0 <= e < 2 ^ 32 /\
  ~ fits_s BITS (sval x ^ e) /\ (exists r, overflowing_pow true x e = Ok (r, false)) /\ (exists r, checked_pow true x e = Ok (Some r)).
Proof.
  exists c256_64, (E64 (- (2 ^ 85 + 1))), 3. split; [apply valid_c256_64|]. split; [apply wf_ofZ, valid_c256_64|]. split; [lia|].
  split; [intros (H & _); vm_compute in H; apply H; reflexivity|]. split; eexists; vm_compute; reflexivity.
Qed.
Example C33_ex1 : @wrapping_pow c256_64 false (E64 3) 200 = Ok (E64 (3 ^ 200)) /\ @wrapping_pow c256_32 true (E32 (-3)) 161 = Ok (E32 (- 3 ^ 161))
  /\ @wrapping_pow c256_32 true (E32 0) 0 = Ok (E32 1).
Proof. vm_compute. auto. Qed.
Example C33_ex2 : @overflowing_pow c256_64 false (E64 2) 255 = Ok (E64 (2 ^ 255), false) /\ @overflowing_pow c256_64 false (E64 2) 256 = Ok (E64 0, true)
  /\ @checked_pow c256_64 false (E64 16) 64 = Ok None /\ @strict_pow c256_64 false (E64 16) 63 = Ok (E64 (16 ^ 63))
  /\ @u_saturating_pow c256_64 (E64 16) 64 = Ok (E64 (-1)) /\ @pow c256_64 false (E64 16) 64 = Panic /\ @pow c512_32 false (E512 16) 128 = Ok (E512 0).
Proof. vm_compute. auto 10. Qed.
Example C33_ex3 : @overflowing_pow c256_64 true (E64 (-2)) 255 = Ok (E64 (- 2 ^ 255), false) /\ @overflowing_pow c256_64 true (E64 2) 255 = Ok (E64 (2 ^ 255), true)
  /\ @pow c256_64 true (E64 (-2)) 255 = Ok (E64 (- 2 ^ 255)).
Proof. vm_compute. auto 10. Qed.

(** ** C34, base two *)

Theorem C34_checked_ilog2 : forall (c : Cfg) x, Valid -> wf x ->
  (0 < uval x -> exists k, checked_ilog2 false x = Ok (Some k) /\ ilog2 false x = Ok k /\ 0 <= k /\ 2 ^ k <= uval x < 2 ^ (k + 1)) /\
  (uval x = 0 -> checked_ilog2 false x = Ok None /\ ilog2 false x = Panic) /\
  (0 < sval x -> exists k, checked_ilog2 true x = Ok (Some k) /\ ilog2 true x = Ok k /\ 0 <= k /\ 2 ^ k <= sval x < 2 ^ (k + 1)) /\
  (sval x <= 0 -> checked_ilog2 true x = Ok None /\ ilog2 true x = Panic).
Proof.
  intros c x HV Hx. rewrite !(checked_ilog2_ok HV), !(ilog2_ok HV) by auto. cbn [val].
  assert (P : forall v, 0 < v -> exists k, Z.log2 v = k /\ 0 <= k /\ 2 ^ k <= v < 2 ^ (k + 1)).
  { intros v Hv. eexists. split; [reflexivity|]. split; [apply Z.log2_nonneg|apply Z.log2_spec; auto]. }
  split; [|split; [|split]]; intro H.
  - destruct (P _ H) as (k & E & B). exists k. destruct (Z.leb_spec (uval x) 0); [lia|]. rewrite E. tauto.
  - rewrite H. auto.
  - destruct (P _ H) as (k & E & B). exists k. destruct (Z.leb_spec (sval x) 0); [lia|]. rewrite E. tauto.
  - destruct (Z.leb_spec (sval x) 0); [auto|lia].
Qed.
Example C34_ex1 : @checked_ilog2 c256_64 false (E64 (2 ^ 200 - 1)) = Ok (Some 199) /\ @checked_ilog2 c256_64 true (E64 (-1)) = Ok None
  /\ @ilog2 c256_32 false (E32 (-1)) = Ok 255 /\ @ilog2 c256_32 true (E32 (-1)) = Panic.
Proof. vm_compute. auto. Qed.

(** ** C35: absolute value, sign, distance *)

Theorem C35_unsigned_abs : forall (c : Cfg) x, Valid -> wf x -> returns_u (unsigned_abs x) (Z.abs (sval x)).
Proof.
  intros c x HV Hx. apply (retU1 HV); [apply (unsigned_abs_ok HV); auto|]. pose proof (sval_range HV x Hx).
  pose proof (pBhalf HV). pose proof (pBh HV). red. lia.
Qed.
Theorem C35_abs_diff : forall (c : Cfg) x y, Valid -> wf x -> wf y ->
  returns_u (abs_diff false x y) (Z.abs (uval x - uval y)) /\ returns_u (abs_diff true x y) (Z.abs (sval x - sval y)).
Proof.
  intros c x y HV Hx Hy. pose proof (sval_range HV x Hx). pose proof (sval_range HV y Hy). pose proof (uval_range HV x Hx).
  pose proof (uval_range HV y Hy). pose proof (pBhalf HV).
  split; (apply (retU1 HV); [apply (abs_diff_ok HV); auto|]); red; cbn [val]; lia.
Qed.
Theorem C35_abs_variants : forall (c : Cfg) x, Valid -> wf x ->
  returns_s_flag (s_overflowing_abs x) (swrap BITS (Z.abs (sval x))) (~ fits_s BITS (Z.abs (sval x))) /\
  returns_s_opt (s_checked_abs x) (fits_s BITS (Z.abs (sval x))) (Z.abs (sval x)) /\
  returns_s_or_panics (s_strict_abs x) (fits_s BITS (Z.abs (sval x))) (Z.abs (sval x)) /\
  returns_s_or_panics (s_abs x) (fits_s BITS (Z.abs (sval x))) (Z.abs (sval x)) /\
  returns_s (s_saturating_abs x) (Z.min (2 ^ (BITS - 1) - 1) (Z.abs (sval x))) /\
  (fits_s BITS (Z.abs (sval x)) <-> sval x <> - 2 ^ (BITS - 1)).
Proof.
  intros c x HV Hx. pose proof (sval_range HV x Hx). pose proof (pBh HV).
  split; [exact (flagS HV _ _ (s_overflowing_abs_ok HV x Hx))|]. split; [exact (optS HV _ _ (s_checked_abs_ok HV x Hx))|].
  split; [exact (panS HV _ _ (s_strict_abs_ok HV x Hx))|]. split; [exact (panS HV _ _ (s_abs_ok HV x Hx))|].
  split; [|unfold fits_s; lia]. pose proof (satS HV _ _ (s_saturating_abs_ok HV x Hx)) as A.
  rewrite Z.max_r in A by lia. exact A.
Qed.
Theorem C35_sign : forall (c : Cfg) x, Valid -> wf x ->
  returns_s (signum x) (Z.sgn (sval x)) /\ is_negative x = Ok (sval x <? 0) /\ is_positive x = Ok (0 <? sval x).
Proof.
  intros c x HV Hx. split; [|split; [exact (is_negative_ok HV x Hx)|exact (is_positive_ok HV x Hx)]].
  apply (retS1 HV); [apply (signum_ok HV); auto|]. pose proof (pB_big HV). assert (2 ^ 255 > 4) by reflexivity.
  destruct (Z.sgn_spec (sval x)) as [(_ & E)|[(_ & E)|(_ & E)]]; rewrite E; red; lia.
Qed.
Example C35_ex1 : @unsigned_abs c256_64 (E64 (- 2 ^ 255)) = Ok (E64 (2 ^ 255)) /\ @abs_diff c256_64 true (E64 (2 ^ 255 - 1)) (E64 (- 2 ^ 255)) = Ok (E64 (2 ^ 256 - 1))
  /\ @abs_diff c256_32 false (E32 5) (E32 12) = Ok (E32 7).
Proof. vm_compute. auto. Qed.
Example C35_ex2 : @s_overflowing_abs c256_64 (E64 (- 2 ^ 255)) = Ok (E64 (- 2 ^ 255), true) /\ @s_checked_abs c256_64 (E64 (- 2 ^ 255)) = Ok None
  /\ @s_abs c256_64 (E64 (-9)) = Ok (E64 9) /\ @s_saturating_abs c256_64 (E64 (- 2 ^ 255)) = Ok (E64 (2 ^ 255 - 1)) /\ @s_strict_abs c256_64 (E64 (- 2 ^ 255)) = Panic.
Proof. vm_compute. auto 10. Qed.
Example C35_ex3 : @signum c256_32 (E32 (-77)) = Ok (E32 (-1)) /\ @is_positive c256_32 (E32 0) = Ok false /\ @is_negative c256_32 (E32 (-77)) = Ok true.
Proof. vm_compute. auto. Qed.

(** ** C36: midpoint *)

Theorem C36_midpoint_u : forall (c : Cfg) x y, Valid -> wf x -> wf y -> returns_u (u_midpoint x y) ((uval x + uval y) / 2).
Proof. intros c x y HV Hx Hy. exact (retU1 HV _ _ (u_midpoint_ok HV x y Hx Hy) (div2_fits_u HV x y Hx Hy)). Qed.
(** Signed: the documentation says rounded towards negative infinity
    ([(sval x + sval y) / 2]); the code rounds towards zero. *)
Theorem C36_midpoint_s_partial : forall (c : Cfg) x y, Valid -> wf x -> wf y ->
  returns_s (s_midpoint x y) (Z.quot (sval x + sval y) 2).
Proof.
  intros c x y HV Hx Hy. apply (retS1 HV _ _ (s_midpoint_ok HV x y Hx Hy)). pose proof (sval_range HV x Hx). pose proof (sval_range HV y Hy).
  red. set (h := 2 ^ (BITS - 1)) in *. pose proof (Z.quot_rem' (sval x + sval y) 2) as Q.
  pose proof (Z.rem_bound_abs (sval x + sval y) 2). destruct (Z.le_gt_cases 0 (sval x + sval y)).
  - pose proof (Z.rem_bound_pos (sval x + sval y) 2). lia.
  - pose proof (Z.rem_bound_pos_neg (sval x + sval y) 2). lia.
Qed.
Theorem C36_midpoint_s_refuted : exists (c : Cfg) x y, Valid /\ wf x /\ wf y /\ ~ returns_s (s_midpoint x y) ((sval x + sval y) / 2).
Proof.
  exists c256_64, (E64 (-1)), (E64 (-2)). split; [apply valid_c256_64|]. split; [apply wf_ofZ, valid_c256_64|]. split; [apply wf_ofZ, valid_c256_64|].
  intros (r & E & _ & V). assert (E' : @s_midpoint c256_64 (E64 (-1)) (E64 (-2)) = Ok (E64 (-1))) by (vm_compute; reflexivity).
  rewrite E' in E. injection E as <-. clear E'. vm_compute in V. discriminate V.
Qed.
Example C36_ex : @u_midpoint c256_64 (E64 (2 ^ 256 - 1)) (E64 (2 ^ 256 - 4)) = Ok (E64 (2 ^ 256 - 3)) /\ @s_midpoint c256_32 (E32 (2 ^ 255 - 1)) (E32 (- 2 ^ 255)) = Ok (E32 0)
  /\ @s_midpoint c256_32 (E32 (-7)) (E32 2) = Ok (E32 (-2)).
Proof. vm_compute. auto. Qed.

(** ** C38: widening products *)

Theorem C38_widening_mul : forall (c : Cfg) x y, Valid -> wf x -> wf y ->
  exists lo hi, widening_mul x y = Ok (lo, hi) /\ wf lo /\ wf hi /\ uval lo + 2 ^ BITS * uval hi = uval x * uval y.
Proof.
  intros c x y HV Hx Hy. rewrite (widening_mul_ok HV) by auto. eexists _, _. split; [reflexivity|].
  do 2 (split; [apply (wf_ofZ HV)|]). rewrite !(uval_ofZ HV). pose proof (uval_range HV x Hx). pose proof (uval_range HV y Hy). pose proof (pB HV).
  rewrite (Z.mod_small (_ / _)); [pose proof (Z.div_mod (uval x * uval y) (2 ^ BITS)); lia|].
  split; [apply Z.div_pos; nia|apply Z.div_lt_upper_bound; nia].
Qed.
Theorem C38_carrying_mul : forall (c : Cfg) x y z, Valid -> wf x -> wf y -> wf z ->
  exists lo hi, carrying_mul x y z = Ok (lo, hi) /\ wf lo /\ wf hi /\ uval lo + 2 ^ BITS * uval hi = uval x * uval y + uval z.
Proof.
  intros c x y z HV Hx Hy Hz. rewrite (carrying_mul_ok HV) by auto. eexists _, _. split; [reflexivity|].
  do 2 (split; [apply (wf_ofZ HV)|]). rewrite !(uval_ofZ HV). pose proof (uval_range HV x Hx). pose proof (uval_range HV y Hy).
  pose proof (uval_range HV z Hz). pose proof (pB HV).
  rewrite (Z.mod_small (_ / _)); [pose proof (Z.div_mod (uval x * uval y + uval z) (2 ^ BITS)); lia|].
  split; [apply Z.div_pos; nia|apply Z.div_lt_upper_bound; nia].
Qed.
Theorem C38_high_mul : forall (c : Cfg) x y, Valid -> wf x -> wf y -> returns_u (high_mul x y) (uval x * uval y / 2 ^ BITS).
Proof.
  intros c x y HV Hx Hy. apply (retU1 HV); [apply (high_mul_ok HV); auto|]. pose proof (uval_range HV x Hx). pose proof (uval_range HV y Hy).
  pose proof (pB HV). split; [apply Z.div_pos; nia|apply Z.div_lt_upper_bound; nia].
Qed.
Theorem C38_halves : forall (c : Cfg) x, Valid -> wf x ->
  returns_u (low x) (uval x mod 2 ^ (BITS / 2)) /\ returns_u (high x) (uval x / 2 ^ (BITS / 2)).
Proof.
  intros c x HV Hx. pose proof (uval_range HV x Hx). destruct (HB_BITS HV) as (E & G). unfold HB in *.
  assert (Hp : 0 < 2 ^ (BITS / 2)) by (apply Z.pow_pos_nonneg; lia). pose proof (Z.mod_pos_bound (uval x) (2 ^ (BITS / 2)) Hp).
  assert (2 ^ (BITS / 2) <= 2 ^ BITS) by (apply Z.pow_le_mono_r; lia).
  split; apply (retU1 HV); try (apply (low_ok HV); auto); try (apply (high_ok HV); auto).
  - red. lia.
  - split; [apply Z.div_pos; lia|]. apply Z.div_lt_upper_bound; nia.
Qed.
Example C38_ex : @widening_mul c256_64 (E64 (-1)) (E64 (-1)) = Ok (E64 1, E64 (-2)) /\ @carrying_mul c256_32 (E32 (-1)) (E32 (-1)) (E32 (-1)) = Ok (E32 0, E32 (-1))
  /\ @high_mul c384_64 (E384 (2 ^ 300)) (E384 (2 ^ 200)) = Ok (E384 (2 ^ 116)) /\ @high c256_64 (E64 (2 ^ 130)) = Ok (E64 4) /\ @low c256_64 (E64 (2 ^ 130 + 9)) = Ok (E64 9).
Proof. vm_compute. auto 10. Qed.

(** ** C39: carries and borrows between words *)

Theorem C39_carrying_add_u : forall (c : Cfg) x y (cy : bool), Valid -> wf x -> wf y ->
  returns_u_flag (big_carrying_add false x y cy) ((uval x + uval y + (if cy then 1 else 0)) mod 2 ^ BITS)
    (~ fits_u BITS (uval x + uval y + (if cy then 1 else 0))).
Proof.
  intros c x y cy HV Hx Hy. apply (flagU HV). rewrite (big_carrying_add_ok HV) by auto.
  rewrite (carry_flag_u HV) by (apply (fits_val HV); auto). destruct cy; reflexivity.
Qed.
Theorem C39_borrowing_sub_u : forall (c : Cfg) x y (cy : bool), Valid -> wf x -> wf y ->
  returns_u_flag (big_borrowing_sub false x y cy) ((uval x - uval y - (if cy then 1 else 0)) mod 2 ^ BITS)
    (~ fits_u BITS (uval x - uval y - (if cy then 1 else 0))).
Proof.
  intros c x y cy HV Hx Hy. apply (flagU HV). rewrite (big_borrowing_sub_ok HV) by auto.
  rewrite (borrow_flag_u HV) by (apply (fits_val HV); auto). destruct cy; reflexivity.
Qed.
(** Signed: full statement is the flag [~ fits_s BITS (x + y + carry)]; it is
    over-reported when x + y alone is one below MIN and the carry repairs it. *)
Theorem C39_carrying_add_s_partial : forall (c : Cfg) x y (cy : bool), Valid -> wf x -> wf y ->
  returns_s_flag (big_carrying_add true x y cy) (swrap BITS (sval x + sval y + (if cy then 1 else 0)))
    (~ fits_s BITS (sval x + sval y + (if cy then 1 else 0)) \/ (cy = true /\ sval x + sval y = - 2 ^ (BITS - 1) - 1)).
Proof.
  intros c x y cy HV Hx Hy. rewrite (big_carrying_add_ok HV) by auto. rewrite (carry_flag_s HV) by (apply (fits_val HV true); auto).
  eexists _, _. split; [reflexivity|]. split; [apply (wf_ofZ HV)|]. split; [rewrite (sval_ofZ HV); destruct cy; reflexivity|].
  cbn [val]. replace (b2z cy) with (if cy then 1 else 0) by (destruct cy; auto).
  rewrite orb_true_iff, andb_true_iff, Z.eqb_eq. destruct (fitsb_reflect true (sval x + sval y + (if cy then 1 else 0))) as [F|F]; cbn [fits] in F; cbn; intuition congruence.
Qed.
Theorem C39_borrowing_sub_s_partial : forall (c : Cfg) x y (cy : bool), Valid -> wf x -> wf y ->
  returns_s_flag (big_borrowing_sub true x y cy) (swrap BITS (sval x - sval y - (if cy then 1 else 0)))
    (~ fits_s BITS (sval x - sval y - (if cy then 1 else 0)) \/ (cy = true /\ sval x - sval y = 2 ^ (BITS - 1))).
Proof.
  intros c x y cy HV Hx Hy. rewrite (big_borrowing_sub_ok HV) by auto. rewrite (borrow_flag_s HV) by (apply (fits_val HV true); auto).
  eexists _, _. split; [reflexivity|]. split; [apply (wf_ofZ HV)|]. split; [rewrite (sval_ofZ HV); destruct cy; reflexivity|].
  cbn [val]. replace (b2z cy) with (if cy then 1 else 0) by (destruct cy; auto).
  rewrite orb_true_iff, andb_true_iff, Z.eqb_eq. destruct (fitsb_reflect true (sval x - sval y - (if cy then 1 else 0))) as [F|F]; cbn [fits] in F; cbn; intuition congruence.
Qed.
Theorem C39_carrying_add_s_refuted : exists (c : Cfg) x y, Valid /\ wf x /\ wf y /\
  fits_s BITS (sval x + sval y + 1) /\ exists r, big_carrying_add true x y true = Ok (r, true).
Proof.
  exists c256_64, (E64 (- 2 ^ 255)), (E64 (-1)). split; [apply valid_c256_64|]. split; [apply wf_ofZ, valid_c256_64|]. split; [apply wf_ofZ, valid_c256_64|].
  split; [split; vm_compute; congruence|]. eexists. vm_compute. reflexivity.
Qed.
Theorem C39_borrowing_sub_s_refuted : exists (c : Cfg) x y, Valid /\ wf x /\ wf y /\
  fits_s BITS (sval x - sval y - 1) /\ exists r, big_borrowing_sub true x y true = Ok (r, true).
Proof.
  exists c256_64, (E64 (2 ^ 255 - 1)), (E64 (-1)). split; [apply valid_c256_64|]. split; [apply wf_ofZ, valid_c256_64|]. split; [apply wf_ofZ, valid_c256_64|].
  split; [split; vm_compute; congruence|]. eexists. vm_compute. reflexivity.
Qed.
Example C39_ex : @big_carrying_add c256_64 false (E64 (-1)) (E64 0) true = Ok (E64 0, true) /\ @big_borrowing_sub c256_32 false (E32 5) (E32 5) true = Ok (E32 (-1), true)
  /\ @big_carrying_add c256_64 true (E64 (2 ^ 255 - 1)) (E64 0) true = Ok (E64 (- 2 ^ 255), true) /\ @big_borrowing_sub c384_64 true (E384 5) (E384 (-5)) true = Ok (E384 9, false).
Proof. vm_compute. auto. Qed.

(** ** C40: mixed-sign addition and subtraction *)

Theorem C40_unsigned_plus_signed : forall (c : Cfg) x y, Valid -> wf x -> wf y ->
  returns_u (u_wrapping_add_signed x y) ((uval x + sval y) mod 2 ^ BITS) /\
  returns_u_flag (u_overflowing_add_signed x y) ((uval x + sval y) mod 2 ^ BITS) (~ fits_u BITS (uval x + sval y)) /\
  returns_u_opt (u_checked_add_signed x y) (fits_u BITS (uval x + sval y)) (uval x + sval y) /\
  returns_u_or_panics (u_strict_add_signed x y) (fits_u BITS (uval x + sval y)) (uval x + sval y) /\
  returns_u (u_saturating_add_signed x y) (Z.max 0 (Z.min (2 ^ BITS - 1) (uval x + sval y))).
Proof.
  intros c x y HV Hx Hy. split; [exact (retU HV _ _ (u_wrapping_add_signed_ok HV x y Hx Hy))|].
  split; [exact (flagU HV _ _ (u_overflowing_add_signed_ok HV x y Hx Hy))|]. split; [exact (optU HV _ _ (u_checked_add_signed_ok HV x y Hx Hy))|].
  split; [exact (panU HV _ _ (u_strict_add_signed_ok HV x y Hx Hy))|]. exact (satU HV _ _ (u_saturating_add_signed_ok HV x y Hx Hy)).
Qed.
Theorem C40_unsigned_minus_signed : forall (c : Cfg) x y, Valid -> wf x -> wf y ->
  returns_u_flag (u_overflowing_sub_signed x y) ((uval x - sval y) mod 2 ^ BITS) (~ fits_u BITS (uval x - sval y)).
Proof. intros c x y HV Hx Hy. exact (flagU HV _ _ (u_overflowing_sub_signed_ok HV x y Hx Hy)). Qed.
Theorem C40_signed_plus_unsigned : forall (c : Cfg) x y, Valid -> wf x -> wf y ->
  returns_s_flag (s_overflowing_add_unsigned x y) (swrap BITS (sval x + uval y)) (~ fits_s BITS (sval x + uval y)) /\
  returns_s_opt (s_checked_add_unsigned x y) (fits_s BITS (sval x + uval y)) (sval x + uval y) /\
  returns_s_or_panics (s_strict_add_unsigned x y) (fits_s BITS (sval x + uval y)) (sval x + uval y) /\
  returns_s (s_saturating_add_unsigned x y) (Z.max (- 2 ^ (BITS - 1)) (Z.min (2 ^ (BITS - 1) - 1) (sval x + uval y))).
Proof.
  intros c x y HV Hx Hy. split; [exact (flagS HV _ _ (s_overflowing_add_unsigned_ok HV x y Hx Hy))|].
  split; [exact (optS HV _ _ (s_checked_add_unsigned_ok HV x y Hx Hy))|]. split; [exact (panS HV _ _ (s_strict_add_unsigned_ok HV x y Hx Hy))|].
  exact (satS HV _ _ (s_saturating_add_unsigned_ok HV x y Hx Hy)).
Qed.
Theorem C40_signed_minus_unsigned : forall (c : Cfg) x y, Valid -> wf x -> wf y ->
  returns_s (s_wrapping_sub_unsigned x y) (swrap BITS (sval x - uval y)) /\
  returns_s_flag (s_overflowing_sub_unsigned x y) (swrap BITS (sval x - uval y)) (~ fits_s BITS (sval x - uval y)) /\
  returns_s_opt (s_checked_sub_unsigned x y) (fits_s BITS (sval x - uval y)) (sval x - uval y) /\
  returns_s_or_panics (s_strict_sub_unsigned x y) (fits_s BITS (sval x - uval y)) (sval x - uval y) /\
  returns_s (s_saturating_sub_unsigned x y) (Z.max (- 2 ^ (BITS - 1)) (Z.min (2 ^ (BITS - 1) - 1) (sval x - uval y))).
Proof.
  intros c x y HV Hx Hy. split; [exact (retS HV _ _ (s_wrapping_sub_unsigned_ok HV x y Hx Hy))|].
  split; [exact (flagS HV _ _ (s_overflowing_sub_unsigned_ok HV x y Hx Hy))|].
  split; [exact (optS HV _ _ (s_checked_sub_unsigned_ok HV x y Hx Hy))|]. split; [exact (panS HV _ _ (s_strict_sub_unsigned_ok HV x y Hx Hy))|].
  exact (satS HV _ _ (s_saturating_sub_unsigned_ok HV x y Hx Hy)).
Qed.
Theorem C40_checked_signed_diff : forall (c : Cfg) x y, Valid -> wf x -> wf y ->
  returns_s_opt (u_checked_signed_diff x y) (fits_s BITS (uval x - uval y)) (uval x - uval y).
Proof. intros c x y HV Hx Hy. exact (optS HV _ _ (u_checked_signed_diff_ok HV x y Hx Hy)). Qed.
Example C40_ex1 : @u_overflowing_add_signed c256_64 (E64 5) (E64 (-6)) = Ok (E64 (-1), true) /\ @u_checked_add_signed c256_64 (E64 7) (E64 (-6)) = Ok (Some (E64 1))
  /\ @u_saturating_add_signed c256_64 (E64 5) (E64 (-6)) = Ok (E64 0) /\ @u_strict_add_signed c256_64 (E64 5) (E64 (-6)) = Panic
  /\ @u_overflowing_sub_signed c256_32 (E32 (-1)) (E32 (-6)) = Ok (E32 5, true).
Proof. vm_compute. auto 10. Qed.
Example C40_ex2 : @s_overflowing_add_unsigned c256_64 (E64 (- 2 ^ 255)) (E64 (2 ^ 256 - 1)) = Ok (E64 (2 ^ 255 - 1), false)
  /\ @s_checked_sub_unsigned c256_64 (E64 (2 ^ 255 - 1)) (E64 (2 ^ 256 - 1)) = Ok (Some (E64 (- 2 ^ 255)))
  /\ @s_saturating_sub_unsigned c256_64 (E64 0) (E64 (2 ^ 256 - 1)) = Ok (E64 (- 2 ^ 255)) /\ @u_checked_signed_diff c256_64 (E64 3) (E64 10) = Ok (Some (E64 (-7))).
Proof. vm_compute. auto 10. Qed.

(** ** C44: arithmetic operators *)

Theorem C44_add : forall (c : Cfg) x y, Valid -> wf x -> wf y ->
  (chk = true -> returns_u_or_panics (op_add false x y) (fits_u BITS (uval x + uval y)) (uval x + uval y) /\
                 returns_s_or_panics (op_add true x y) (fits_s BITS (sval x + sval y)) (sval x + sval y)) /\
  (chk = false -> returns_u (op_add false x y) ((uval x + uval y) mod 2 ^ BITS) /\
                  returns_s (op_add true x y) (swrap BITS (sval x + sval y))).
Proof.
  intros c x y HV Hx Hy. destruct (opU HV _ _ (op_add_ok HV false x y Hx Hy)). destruct (opS HV _ _ (op_add_ok HV true x y Hx Hy)). auto.
Qed.
Theorem C44_sub : forall (c : Cfg) x y, Valid -> wf x -> wf y ->
  (chk = true -> returns_u_or_panics (op_sub false x y) (fits_u BITS (uval x - uval y)) (uval x - uval y) /\
                 returns_s_or_panics (op_sub true x y) (fits_s BITS (sval x - sval y)) (sval x - sval y)) /\
  (chk = false -> returns_u (op_sub false x y) ((uval x - uval y) mod 2 ^ BITS) /\
                  returns_s (op_sub true x y) (swrap BITS (sval x - sval y))).
Proof.
  intros c x y HV Hx Hy. destruct (opU HV _ _ (op_sub_ok HV false x y Hx Hy)). destruct (opS HV _ _ (op_sub_ok HV true x y Hx Hy)). auto.
Qed.
Theorem C44_neg : forall (c : Cfg) x, Valid -> wf x ->
  (chk = true -> returns_s_or_panics (op_neg x) (fits_s BITS (- sval x)) (- sval x)) /\
  (chk = false -> returns_s (op_neg x) (swrap BITS (- sval x))).
Proof. intros c x HV Hx. exact (opS HV _ _ (op_neg_ok HV x Hx)). Qed.
Theorem C44_mul_u : forall (c : Cfg) x y, Valid -> wf x -> wf y ->
  (chk = true -> returns_u_or_panics (op_mul false x y) (fits_u BITS (uval x * uval y)) (uval x * uval y)) /\
  (chk = false -> returns_u (op_mul false x y) ((uval x * uval y) mod 2 ^ BITS)).
Proof. intros c x y HV Hx Hy. exact (opU HV _ _ (op_mul_ok HV false x y Hx Hy)). Qed.
Theorem C44_mul_s : forall (c : Cfg) x y, Valid -> wf x -> wf y ->
  (fits_s BITS (sval x * sval y) -> returns_s (op_mul true x y) (sval x * sval y)) /\
  (chk = true -> (2 ^ (BITS - 1) <= sval x * sval y \/ sval x * sval y <= - (2 ^ (BITS - 1) + 2 ^ (BITS - W))) -> op_mul true x y = Panic) /\
  (chk = false -> returns_s (op_mul true x y) (swrap BITS (sval x * sval y))).
Proof.
  intros c x y HV Hx Hy. split; [|split].
  - intro F. apply (retS1 HV); auto. apply (op_mul_fits HV true); auto.
  - intros Hc H. rewrite (op_mul_ok HV), (mulf_ovf HV), Hc by auto. apply ovf_s_spec in H. cbn [val]. rewrite H. reflexivity.
  - intros Hc. apply (retS HV). rewrite (op_mul_ok HV), Hc by auto. reflexivity.
Qed.
Example C44_ex1 : @op_add c256_64 false (E64 (-1)) (E64 1) = Panic /\ @op_add c512_32 false (E512 (-1)) (E512 1) = Ok (E512 0)
  /\ @op_sub c256_64 true (E64 (- 2 ^ 255)) (E64 1) = Panic /\ @op_neg c256_64 (E64 (- 2 ^ 255)) = Panic /\ @op_neg c512_32 (E512 (- 2 ^ 511)) = Ok (E512 (- 2 ^ 511)).
Proof. vm_compute. auto 10. Qed.
Example C44_ex2 : @op_mul c256_64 false (E64 (2 ^ 128)) (E64 (2 ^ 128)) = Panic /\ @op_mul c256_64 true (E64 (-3)) (E64 (2 ^ 128)) = Ok (E64 (- 3 * 2 ^ 128))
  /\ @op_mul c256_64 true (E64 (2 ^ 128)) (E64 (2 ^ 128)) = Panic.
Proof. vm_compute. auto 10. Qed.

(** ** Assumptions (each must print "Closed under the global context") *)

Print Assumptions C33_wrapping_pow_u.
Print Assumptions C33_wrapping_pow_s.
Print Assumptions C33_overflowing_pow_u.
Print Assumptions C33_checked_pow_u.
Print Assumptions C33_strict_pow_u.
Print Assumptions C33_saturating_pow_u.
Print Assumptions C33_pow_u.
Print Assumptions C33_overflowing_pow_s_partial.
Print Assumptions C33_pow_s_fits_partial.
Print Assumptions C33_overflowing_pow_s_refuted.
Print Assumptions C34_checked_ilog2.
Print Assumptions C35_unsigned_abs.
Print Assumptions C35_abs_diff.
Print Assumptions C35_abs_variants.
Print Assumptions C35_sign.
Print Assumptions C36_midpoint_u.
Print Assumptions C36_midpoint_s_partial.
Print Assumptions C36_midpoint_s_refuted.
Print Assumptions C38_widening_mul.
Print Assumptions C38_carrying_mul.
Print Assumptions C38_high_mul.
Print Assumptions C38_halves.
Print Assumptions C39_carrying_add_u.
Print Assumptions C39_borrowing_sub_u.
Print Assumptions C39_carrying_add_s_partial.
Print Assumptions C39_borrowing_sub_s_partial.
Print Assumptions C39_carrying_add_s_refuted.
Print Assumptions C39_borrowing_sub_s_refuted.
Print Assumptions C40_unsigned_plus_signed.
Print Assumptions C40_unsigned_minus_signed.
Print Assumptions C40_signed_plus_unsigned.
Print Assumptions C40_signed_minus_unsigned.
Print Assumptions C40_checked_signed_diff.
Print Assumptions C44_add.
Print Assumptions C44_sub.
Print Assumptions C44_neg.
Print Assumptions C44_mul_u.
Print Assumptions C44_mul_s.
