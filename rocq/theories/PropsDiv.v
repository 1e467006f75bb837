(** * Properties: division, remainder, rounding, multiples, general logarithm
      (C07, C08, C10-C14, C34) *)

Require Import ZArith List Bool Lia.
From Verif Require Import Prim Spec Facts MAdd MMul MShift MCore PCore PBits PWide MArith PArith PArith2 PPow PMisc PBits2 PRet
  MDiv DivSpec PDiv PKnuth PDivFull PDivExact MApi PApi PApi2 PApi3 PIlog.
Import ListNotations.
Local Open Scope Z_scope.

Notation E64 := (@ofZ c256_64).
Notation E32 := (@ofZ c256_32).
Notation E384 := (@ofZ c384_64).
Notation E512 := (@ofZ c512_32).

(** Returning a pair of numbers. *)
Definition returns_u2 {c : Cfg} (m : res (list Z * list Z)) (a b : Z) : Prop :=
  exists q r, m = Ok (q, r) /\ wf q /\ wf r /\ uval q = a /\ uval r = b.
Definition returns_s2 {c : Cfg} (m : res (list Z * list Z)) (a b : Z) : Prop :=
  exists q r, m = Ok (q, r) /\ wf q /\ wf r /\ sval q = a /\ sval r = b.
(** The one signed quotient that does not fit. *)
Definition min_over_m1 {c : Cfg} (x y : list Z) : Prop := sval x = - 2 ^ (BITS - 1) /\ sval y = -1.

Section Aux.
Context {c : Cfg}.
Hypothesis HV : Valid.
Lemma retU2 : forall m a b, m = Ok (ofZ a, ofZ b) -> fits_u BITS a -> fits_u BITS b -> returns_u2 m a b.
Proof.
  intros m a b -> Ha Hb. exists (ofZ a), (ofZ b). repeat split; try apply (wf_ofZ HV).
  - exact (val_ofZ_small HV false a Ha).
  - exact (val_ofZ_small HV false b Hb).
Qed.
Lemma retS2 : forall m a b, m = Ok (ofZ a, ofZ b) -> fits_s BITS b -> returns_s2 m (swrap BITS a) b.
Proof.
  intros m a b -> Hb. exists (ofZ a), (ofZ b). repeat split; try apply (wf_ofZ HV).
  - apply (sval_ofZ HV).
  - exact (val_ofZ_small HV true b Hb).
Qed.
Lemma divmod_fits : forall x y, wf x -> uval y <> 0 -> 0 <= uval y < 2 ^ BITS -> fits_u BITS (uval x / uval y) /\ fits_u BITS (uval x mod uval y).
Proof.
  intros x y Hx H0 Hy. pose proof (uval_range HV x Hx) as R. unfold fits_u. assert (P : 0 < uval y) by lia.
  pose proof (Z.mod_pos_bound (uval x) (uval y) P). split; [|lia]. split; [apply Z.div_pos; lia|].
  apply Z.div_lt_upper_bound; nia.
Qed.
Lemma quot_fits : forall x y, fits_s BITS x -> fits_s BITS y -> y <> 0 -> ~ (x = - 2 ^ (BITS - 1) /\ y = -1) -> fits_s BITS (Z.quot x y).
Proof.
  intros x y Hx Hy H0 HN. unfold fits_s in *. pose proof (Z.quot_rem' x y) as E. pose proof (Z.rem_bound_abs x y H0).
  pose proof (Z.rem_sign_mul x y H0). pose proof (pBh HV).
  destruct (Z.eq_dec y 1) as [->|]; [rewrite Z.quot_1_r; lia|]. destruct (Z.eq_dec y (-1)) as [->|].
  - change (-1) with (- (1)). rewrite Z.quot_opp_r, Z.quot_1_r by lia. lia.
  - assert (A : Z.abs (Z.quot x y) <= Z.abs x / 2).
    { rewrite <- Z.quot_abs by auto. rewrite Z.quot_div_nonneg by lia. apply Z.div_le_compat_l; lia. }
    pose proof (Z.div_mod (Z.abs x) 2 ltac:(lia)). pose proof (Z.mod_pos_bound (Z.abs x) 2 ltac:(lia)). lia.
Qed.
Lemma rem_fits : forall x y, fits_s BITS y -> y <> 0 -> fits_s BITS (Z.rem x y).
Proof. intros x y Hy H0. unfold fits_s in *. pose proof (Z.rem_bound_abs x y H0). lia. Qed.
Lemma emod_fits : forall x y, fits_s BITS y -> y <> 0 -> fits_s BITS (x mod Z.abs y).
Proof.
  intros x y Hy H0. unfold fits_s in *. assert (P : 0 < Z.abs y) by lia. pose proof (Z.mod_pos_bound x (Z.abs y) P). lia.
Qed.
Lemma ediv_fits : forall x y, fits_s BITS x -> fits_s BITS y -> y <> 0 -> ~ (x = - 2 ^ (BITS - 1) /\ y = -1) ->
  fits_s BITS (Z.sgn y * (x / Z.abs y)).
Proof.
  intros x y Hx Hy H0 HN. unfold fits_s in *. assert (P : 0 < Z.abs y) by lia.
  pose proof (Z.mod_pos_bound x (Z.abs y) P). pose proof (Z.div_mod x (Z.abs y) ltac:(lia)) as E. pose proof (pBh HV).
  set (q := x / Z.abs y) in *. set (r := x mod Z.abs y) in *. clearbody q r.
  assert (- 2 ^ (BITS - 1) <= q < 2 ^ (BITS - 1)) by nia.
  destruct (Z.lt_trichotomy y 0) as [L|[L|L]]; [|lia|].
  - rewrite Z.sgn_neg by auto. assert (q <> - 2 ^ (BITS - 1)); [|lia]. intros ->. apply HN. split; nia.
  - rewrite Z.sgn_pos by auto. lia.
Qed.
Lemma floor_fits : forall x y, fits_s BITS x -> fits_s BITS y -> y <> 0 -> ~ (x = - 2 ^ (BITS - 1) /\ y = -1) -> fits_s BITS (x / y).
Proof.
  intros x y Hx Hy H0 HN. unfold fits_s in *. pose proof (Z.div_mod x y H0) as E. pose proof (pBh HV).
  set (q := x / y) in *. destruct (Z.le_gt_cases 0 y).
  - assert (P : 0 < y) by lia. pose proof (Z.mod_pos_bound x y P). set (r := x mod y) in *. clearbody q r. nia.
  - pose proof (Z.mod_neg_bound x y ltac:(lia)). set (r := x mod y) in *. clearbody q r.
    destruct (Z.eq_dec y (-1)) as [->|]; [assert (x <> - 2 ^ (BITS - 1)) by tauto; lia|]. nia.
Qed.
Lemma ceil_fits : forall x y, fits_s BITS x -> fits_s BITS y -> y <> 0 -> ~ (x = - 2 ^ (BITS - 1) /\ y = -1) -> fits_s BITS (- ((- x) / y)).
Proof.
  intros x y Hx Hy H0 HN. unfold fits_s in *. pose proof (Z.div_mod (- x) y H0) as E. pose proof (pBh HV).
  set (q := (- x) / y) in *. destruct (Z.le_gt_cases 0 y).
  - assert (P : 0 < y) by lia. pose proof (Z.mod_pos_bound (- x) y P). set (r := (- x) mod y) in *. clearbody q r. nia.
  - pose proof (Z.mod_neg_bound (- x) y ltac:(lia)). set (r := (- x) mod y) in *. clearbody q r.
    destruct (Z.eq_dec y (-1)) as [->|]; [assert (x <> - 2 ^ (BITS - 1)) by tauto; lia|]. nia.
Qed.
Lemma dovf_iff : forall x y, dovf true x y = true <-> x = - 2 ^ (BITS - 1) /\ y = -1.
Proof. intros. unfold dovf. cbn [andb]. rewrite andb_true_iff, !Z.eqb_eq. tauto. Qed.
Lemma dovf_no : forall x y, ~ (x = - 2 ^ (BITS - 1) /\ y = -1) -> dovf true x y = false.
Proof. intros x y H. destruct (dovf true x y) eqn:E; auto. apply dovf_iff in E. contradiction. Qed.
Lemma dnone_no : forall x y, y <> 0 -> ~ (x = - 2 ^ (BITS - 1) /\ y = -1) -> dnone true x y = false.
Proof. intros x y H0 H. unfold dnone. rewrite dovf_no by auto. apply Z.eqb_neq in H0. rewrite H0. reflexivity. Qed.
Lemma dnone_u : forall x y, dnone false x y = (y =? 0).
Proof. intros. unfold dnone, dovf. cbn. apply orb_false_r. Qed.
Lemma dnone_true : forall x y, dnone true x y = true <-> y = 0 \/ (x = - 2 ^ (BITS - 1) /\ y = -1).
Proof. intros. unfold dnone. rewrite orb_true_iff, dovf_iff, Z.eqb_eq. tauto. Qed.
Lemma chko_none : forall sg x y o, chko sg x y o = Ok None <-> dnone sg x y = true.
Proof. intros. unfold chko. destruct (dnone sg x y), o; cbn; split; auto; discriminate. Qed.
Lemma exact_m1 : forall x, exact_division W N x 1.
Proof.
  intros x. right. left. apply Z.pow_gt_1; [lia|]. destruct (W_cases HV); lia.
Qed.
End Aux.

(** ** C07: exactness, which does not hold *)

(** A quotient-digit estimate that has to be corrected makes the division
    panic when the divisor fills all limbs … *)
Theorem C07_div_rem_refuted : exists (c : Cfg) x y, Valid /\ wf x /\ wf y /\ uval y <> 0 /\
  wrapping_div_rem false x y = Panic /\ wrapping_div false x y = Panic /\ wrapping_rem false x y = Panic /\ op_div false x y = Panic.
Proof.
  exists c256_64, (E64 (2 ^ 193 + 1)), (E64 (2 ^ 192 + 1)). split; [apply valid_c256_64|].
  split; [apply (wf_ofZ valid_c256_64)|]. split; [apply (wf_ofZ valid_c256_64)|]. vm_compute. repeat split. discriminate.
Qed.
(** … and otherwise leaves a wrong remainder, here larger than the divisor. *)
Theorem C07_rem_refuted : exists (c : Cfg) x y r, Valid /\ wf x /\ wf y /\ uval y <> 0 /\
  wrapping_rem false x y = Ok r /\ op_rem false x y = Ok r /\ uval x mod uval y = 0 /\ uval r > uval y.
Proof.
  set (y := 2 ^ 126 + 2 ^ 63 - 1). set (q := (2 ^ 64 - 2) * 2 ^ 64 + 100).
  exists c256_64, (E64 (q * y)), (E64 y), (E64 3138550867693340381917894711603833208051177722232017256448).
  split; [apply valid_c256_64|]. split; [apply (wf_ofZ valid_c256_64)|]. split; [apply (wf_ofZ valid_c256_64)|].
  vm_compute. repeat split. discriminate.
Qed.
(** The full statement is C07 with [exact_division] dropped. *)
Theorem C07_div_rem_partial : forall (c : Cfg) x y, Valid -> wf x -> wf y -> uval y <> 0 ->
  exact_division W N (uval x) (uval y) ->
  returns_u2 (wrapping_div_rem false x y) (uval x / uval y) (uval x mod uval y) /\
  returns_u (wrapping_div false x y) (uval x / uval y) /\ returns_u (wrapping_rem false x y) (uval x mod uval y).
Proof.
  intros c x y HV Hx Hy H0 HE. pose proof (uval_range HV x Hx) as Rx. pose proof (uval_range HV y Hy) as Ry.
  destruct (divmod_fits HV x y Hx H0 Ry) as (F1 & F2).
  assert (A : exact_division W N (Z.abs (uval x)) (Z.abs (uval y))) by (rewrite !Z.abs_eq by lia; auto).
  assert (Q : Z.quot (uval x) (uval y) = uval x / uval y) by (apply Z.quot_div_nonneg; lia).
  assert (R : Z.rem (uval x) (uval y) = uval x mod uval y) by (apply Z.rem_mod_nonneg; lia).
  split; [|split].
  - apply (retU2 HV); auto. rewrite (wrapping_div_rem_ok HV) by auto. cbn [val]. rewrite soutcome_exact, Q, R by auto. reflexivity.
  - apply (retU1 HV); auto. rewrite (wrapping_div_ok HV) by auto. cbn [val]. rewrite sq_exact, Q by auto. reflexivity.
  - apply (retU1 HV); auto. rewrite (wrapping_rem_ok HV) by auto. cbn [val]. rewrite sr_exact, R by auto. reflexivity.
Qed.

(** ** C08: what unsigned division guarantees *)

Section C08.
(** Whenever the division returns, the quotient is the floor of the true
    quotient and the remainder is at least the true remainder. *)
Theorem C08_quotient_u : forall (c : Cfg) x y q r, Valid -> wf x -> wf y -> uval y <> 0 ->
  wrapping_div_rem false x y = Ok (q, r) -> wf q /\ wf r /\ uval q = uval x / uval y /\ uval x mod uval y <= uval r.
Proof.
  intros c x y q r HV Hx Hy H0. pose proof (uval_range HV x Hx) as Rx. pose proof (uval_range HV y Hy) as Ry.
  rewrite (wrapping_div_rem_ok HV) by auto. cbn [val]. rewrite soutcome_u by lia.
  assert (P : 0 < uval y) by lia. destruct (divmod_fits HV x y Hx H0 Ry) as (F1 & F2).
  destruct (div_outcome W N (uval x) (uval y)) as [[q' r']|] eqn:E; cbn [lift_qr]; [|discriminate]. intros EE. inversion EE; subst.
  destruct (outcome_some _ _ _ _ ltac:(apply Rx) P E) as (-> & HR). pose proof (outcome_range HV _ _ _ _ Rx Ry E) as (RR & _).
  repeat split; try apply (wf_ofZ HV).
  - exact (val_ofZ_small HV false _ F1).
  - change (uval (ofZ r')) with (val false (ofZ r')). rewrite (val_ofZ_small HV false r') by exact RR.
    pose proof (stray_nonneg W N (uval x) (uval y) (W_nonneg HV)). destruct HR as [->|(_ & _ & _ & ->)]; lia.
Qed.
(** The exact answer is returned precisely in the divisions described by
    [exact_division]. *)
Theorem C08_exact_iff_u : forall (c : Cfg) x y, Valid -> wf x -> wf y -> uval y <> 0 ->
  (returns_u2 (wrapping_div_rem false x y) (uval x / uval y) (uval x mod uval y) <-> exact_division W N (uval x) (uval y)).
Proof.
  intros c x y HV Hx Hy H0. split; [|intros HE; apply C07_div_rem_partial; auto].
  pose proof (uval_range HV x Hx) as Rx. pose proof (uval_range HV y Hy) as Ry. assert (P : 0 < uval y) by lia.
  intros (q & r & E & Wq & Wr & Eq & Er). rewrite (wrapping_div_rem_ok HV) in E by auto. cbn [val] in E. rewrite soutcome_u in E by lia.
  apply (outcome_exact_inv); auto; try apply Rx.
  destruct (div_outcome W N (uval x) (uval y)) as [[q' r']|] eqn:EO; cbn [lift_qr] in E; [|discriminate]. inversion E; subst.
  destruct (outcome_some _ _ _ _ ltac:(apply Rx) P EO) as (-> & _). pose proof (outcome_range HV _ _ _ _ Rx Ry EO) as (RR & _).
  change (uval (ofZ r')) with (val false (ofZ r')) in Er. rewrite (val_ofZ_small HV false r') in Er by exact RR. congruence.
Qed.
(** One-limb divisors and their products with powers of two always divide
    exactly; so does every division of a numerator not above the divisor. *)
Theorem C08_exact_scaled_u : forall (c : Cfg) x y d k, Valid -> wf x -> wf y ->
  0 < d < 2 ^ W -> 0 <= k -> uval y = d * 2 ^ k ->
  returns_u2 (wrapping_div_rem false x y) (uval x / uval y) (uval x mod uval y).
Proof.
  intros c x y d k HV Hx Hy Hd Hk E. pose proof (pow2_pos k Hk).
  apply C08_exact_iff_u; auto; rewrite E; [nia|]. apply scaled_exact; auto. destruct (W_cases HV); lia.
Qed.
Theorem C08_exact_below_u : forall (c : Cfg) x y, Valid -> wf x -> wf y -> uval y <> 0 -> uval x <= uval y ->
  returns_u2 (wrapping_div_rem false x y) (uval x / uval y) (uval x mod uval y).
Proof. intros c x y HV Hx Hy H0 HL. apply C08_exact_iff_u; auto. left. auto. Qed.
(** Panics happen only for divisors that fill all limbs, and exactly when a
    correction is needed. *)
Theorem C08_panic_iff_u : forall (c : Cfg) x y, Valid -> wf x -> wf y -> uval y <> 0 ->
  (wrapping_div_rem false x y = Panic <->
   2 ^ (BITS - W) <= uval y < uval x /\ has_correction W (uval x) (uval y) = true) /\
  wrapping_div_rem false x y <> OutOfFuel.
Proof.
  intros c x y HV Hx Hy H0. pose proof (uval_range HV x Hx) as Rx. pose proof (uval_range HV y Hy) as Ry.
  rewrite (wrapping_div_rem_ok HV) by auto. cbn [val]. rewrite soutcome_u by lia. rewrite <- (outcome_none HV) by lia.
  destruct (div_outcome _ _ _ _) as [[q r]|]; cbn [lift_qr]; (split; [split|]); auto; discriminate.
Qed.
(** For a shorter divisor the division returns, and the remainder is off by
    exactly the stray carries. *)
Theorem C08_short_divisor_u : forall (c : Cfg) x y, Valid -> wf x -> wf y -> 0 < uval y < 2 ^ (BITS - W) ->
  returns_u2 (wrapping_div_rem false x y) (uval x / uval y)
    (uval x mod uval y + (if (uval x <=? uval y) || (uval y <? 2 ^ W) then 0 else stray W N (uval x) (uval y))).
Proof.
  intros c x y HV Hx Hy H0. pose proof (uval_range HV x Hx) as Rx. pose proof (uval_range HV y Hy) as Ry.
  assert (H0' : uval y <> 0) by lia. destruct (divmod_fits HV x y Hx H0' Ry) as (F1 & F2).
  assert (EO : exists r, div_outcome W N (uval x) (uval y) = Some (uval x / uval y, r) /\
     r = uval x mod uval y + (if (uval x <=? uval y) || (uval y <? 2 ^ W) then 0 else stray W N (uval x) (uval y))).
  { unfold div_outcome. rewrite topexp. destruct (Z.ltb_spec (uval x) (uval y)).
    { destruct (Z.leb_spec (uval x) (uval y)); [|lia]. cbn [orb]. rewrite Z.div_small, Z.mod_small by lia. eexists; split; [reflexivity|lia]. }
    destruct (Z.eqb_spec (uval x) (uval y)) as [EE|].
    { rewrite EE. rewrite Z.leb_refl. cbn [orb]. rewrite Z.div_same, Z.mod_same by lia. eexists; split; [reflexivity|lia]. }
    destruct (Z.leb_spec (uval x) (uval y)); [lia|]. destruct (Z.eqb_spec (uval y) 0); [lia|]. cbn [orb].
    destruct (Z.ltb_spec (uval y) (2 ^ W)); [eexists; split; [reflexivity|lia]|].
    destruct (Z.leb_spec (2 ^ (BITS - W)) (uval y)); [lia|]. cbn [andb]. eexists; split; reflexivity. }
  destruct EO as (r & EO & <-). pose proof (outcome_range HV _ _ _ _ Rx Ry EO) as (RR & _).
  apply (retU2 HV); auto. rewrite (wrapping_div_rem_ok HV) by auto. cbn [val]. rewrite soutcome_u by lia. rewrite EO. reflexivity.
Qed.
(** The other unsigned forms for an exact division. *)
Theorem C08_forms_u : forall (c : Cfg) x y, Valid -> wf x -> wf y -> uval y <> 0 -> exact_division W N (uval x) (uval y) ->
  returns_u2 (div_rem false x y) (uval x / uval y) (uval x mod uval y) /\
  returns_u (op_div false x y) (uval x / uval y) /\ returns_u (op_rem false x y) (uval x mod uval y) /\
  returns_u_opt (checked_div false x y) True (uval x / uval y) /\ returns_u_opt (checked_rem false x y) True (uval x mod uval y) /\
  returns_u_flag (overflowing_div false x y) (uval x / uval y) False /\ returns_u_flag (overflowing_rem false x y) (uval x mod uval y) False /\
  returns_u (strict_div false x y) (uval x / uval y) /\ returns_u (strict_rem false x y) (uval x mod uval y) /\
  returns_u (saturating_div false x y) (uval x / uval y).
Proof.
  intros c x y HV Hx Hy H0 HE. pose proof (uval_range HV x Hx) as Rx. pose proof (uval_range HV y Hy) as Ry.
  destruct (divmod_fits HV x y Hx H0 Ry) as (F1 & F2).
  assert (A : exact_division W N (Z.abs (uval x)) (Z.abs (uval y))) by (rewrite !Z.abs_eq by lia; auto).
  assert (Q : sq (uval x) (uval y) = Some (uval x / uval y)) by (rewrite sq_exact by auto; f_equal; apply Z.quot_div_nonneg; lia).
  assert (R : sr (uval x) (uval y) = Some (uval x mod uval y)) by (rewrite sr_exact by auto; f_equal; apply Z.rem_mod_nonneg; lia).
  assert (QR : soutcome (uval x) (uval y) = Some (uval x / uval y, uval x mod uval y)).
  { rewrite soutcome_exact by auto. do 2 f_equal; [apply Z.quot_div_nonneg|apply Z.rem_mod_nonneg]; lia. }
  assert (DN : dnone false (uval x) (uval y) = false) by (rewrite dnone_u; apply Z.eqb_neq; auto).
  assert (O1 : forall m v, m = Ok (Some (ofZ v)) -> fits_u BITS v -> returns_u_opt m True v).
  { intros m v -> F. left. split; auto. exists (ofZ v). split; auto. split; [apply (wf_ofZ HV)|exact (val_ofZ_small HV false v F)]. }
  assert (O2 : forall m v, m = Ok (ofZ v, false) -> fits_u BITS v -> returns_u_flag m v False).
  { intros m v -> F. exists (ofZ v), false. split; auto. split; [apply (wf_ofZ HV)|]. split; [exact (val_ofZ_small HV false v F)|]. split; [discriminate|tauto]. }
  rewrite (div_rem_ok HV), (op_div_ok HV), (op_rem_ok HV), (checked_div_ok HV), (checked_rem_ok HV), (overflowing_div_ok HV), (overflowing_rem_ok HV),
    (strict_div_ok HV), (strict_rem_ok HV), (saturating_div_ok HV) by auto. cbn [val]. unfold opd, chko. rewrite DN, Q, R, QR, andb_false_r.
  cbn [dovf andb lift1 lift_o lift_f lift_qr].
  repeat split; try (apply (retU1 HV); auto; fail); try (apply O1; auto; fail); try (apply O2; auto; fail). apply (retU2 HV); auto.
Qed.
End C08.

Example C08_ex1 : exact_division 64 4 (2 ^ 250 + 12345) (10 * 2 ^ 70)
  /\ @wrapping_div_rem c256_64 false (E64 (2 ^ 250 + 12345)) (E64 (10 * 2 ^ 70)) = Ok (E64 ((2 ^ 250 + 12345) / (10 * 2 ^ 70)), E64 ((2 ^ 250 + 12345) mod (10 * 2 ^ 70))).
Proof. split; [right; right; left; vm_compute; reflexivity|vm_compute; auto]. Qed.
Example C08_ex2 : exact_division 32 8 (2 ^ 255 - 19) (3 ^ 100)
  /\ @op_rem c256_32 false (E32 (2 ^ 255 - 19)) (E32 (3 ^ 100)) = Ok (E32 ((2 ^ 255 - 19) mod 3 ^ 100)).
Proof. split; [right; right; left; vm_compute; reflexivity|vm_compute; auto]. Qed.
Example C08_ex3 : has_correction 64 (2 ^ 193 + 1) (2 ^ 192 + 1) = true /\ 2 ^ 192 <= 2 ^ 192 + 1 < 2 ^ 193 + 1.
Proof. split; [vm_compute; reflexivity|lia]. Qed.
Example C08_ex4 : stray 64 4 (2 ^ 129 + 1) (2 ^ 128 + 1) = 3 * 2 ^ 128 - 2 ^ 128 /\ 0 < 2 ^ 128 + 1 < 2 ^ 192
  /\ @wrapping_div_rem c256_64 false (E64 (2 ^ 129 + 1)) (E64 (2 ^ 128 + 1)) = Ok (E64 1, E64 (3 * 2 ^ 128)).
Proof. vm_compute. auto. Qed.

(** ** C10: division by zero *)

Theorem C10_checked_none_u : forall (c : Cfg) x y, Valid -> wf x -> wf y ->
  (checked_div false x y = Ok None <-> uval y = 0) /\ (checked_rem false x y = Ok None <-> uval y = 0) /\
  (checked_div_euclid false x y = Ok None <-> uval y = 0) /\ (checked_rem_euclid false x y = Ok None <-> uval y = 0) /\
  (checked_div_rem false x y = Ok None <-> uval y = 0).
Proof.
  intros c x y HV Hx Hy.
  rewrite (checked_div_ok HV), (checked_rem_ok HV), (checked_div_euclid_ok HV), (checked_rem_euclid_ok HV), (checked_div_rem_ok HV) by auto.
  rewrite !chko_none. cbn [val]. rewrite dnone_u, Z.eqb_eq. repeat (split; [reflexivity|]).
  destruct (Z.eqb_spec (uval y) 0); [tauto|]. destruct (soutcome _ _) as [[? ?]|]; split; tauto || discriminate.
Qed.
Theorem C10_checked_none_s : forall (c : Cfg) x y, Valid -> wf x -> wf y ->
  (checked_div true x y = Ok None <-> sval y = 0 \/ min_over_m1 x y) /\ (checked_rem true x y = Ok None <-> sval y = 0 \/ min_over_m1 x y) /\
  (checked_div_euclid true x y = Ok None <-> sval y = 0 \/ min_over_m1 x y) /\
  (checked_rem_euclid true x y = Ok None <-> sval y = 0 \/ min_over_m1 x y) /\
  (checked_div_rem true x y = Ok None <-> sval y = 0 \/ min_over_m1 x y).
Proof.
  intros c x y HV Hx Hy.
  rewrite (checked_div_ok HV), (checked_rem_ok HV), (checked_div_euclid_ok HV), (checked_rem_euclid_ok HV), (checked_div_rem_ok HV) by auto.
  rewrite !chko_none. cbn [val]. unfold min_over_m1. rewrite dnone_true. repeat (split; [reflexivity|]).
  rewrite <- dnone_true. destruct (dnone true (sval x) (sval y)); [tauto|].
  destruct (soutcome _ _) as [[? ?]|]; split; discriminate.
Qed.
(** The strict forms always, and the operators with overflow checks, panic for
    a zero divisor and for MIN / -1. *)
Theorem C10_panics_u : forall (c : Cfg) x y, Valid -> wf x -> wf y -> uval y = 0 ->
  strict_div false x y = Panic /\ strict_rem false x y = Panic /\ strict_div_euclid false x y = Panic /\ strict_rem_euclid false x y = Panic /\
  (chk = true -> op_div false x y = Panic /\ op_rem false x y = Panic /\ div_euclid false x y = Panic /\ rem_euclid false x y = Panic /\ div_rem false x y = Panic).
Proof.
  intros c x y HV Hx Hy H0.
  rewrite (strict_div_ok HV), (strict_rem_ok HV), (strict_div_euclid_ok HV), (strict_rem_euclid_ok HV),
    (op_div_ok HV), (op_rem_ok HV), (div_euclid_ok HV), (rem_euclid_ok HV), (div_rem_ok HV) by auto.
  unfold opd. cbn [val]. rewrite dnone_u, H0. cbn [Z.eqb]. repeat (split; [reflexivity|]). intros ->. auto.
Qed.
Theorem C10_panics_s : forall (c : Cfg) x y, Valid -> wf x -> wf y -> sval y = 0 \/ min_over_m1 x y ->
  strict_div true x y = Panic /\ strict_rem true x y = Panic /\ strict_div_euclid true x y = Panic /\ strict_rem_euclid true x y = Panic /\
  (chk = true -> op_div true x y = Panic /\ op_rem true x y = Panic /\ div_euclid true x y = Panic /\ rem_euclid true x y = Panic /\ div_rem true x y = Panic).
Proof.
  intros c x y HV Hx Hy H0. apply (proj2 (dnone_true _ _)) in H0.
  rewrite (strict_div_ok HV), (strict_rem_ok HV), (strict_div_euclid_ok HV), (strict_rem_euclid_ok HV),
    (op_div_ok HV), (op_rem_ok HV), (div_euclid_ok HV), (rem_euclid_ok HV), (div_rem_ok HV) by auto.
  unfold opd. cbn [val]. rewrite H0. repeat (split; [reflexivity|]). intros ->. auto.
Qed.
(** The wrapping and overflowing forms, and the operators without overflow
    checks, panic for a zero divisor unless the numerator is zero as well:
    the full statement is this one without [uval x <> 0]. *)
Theorem C10_wrapping_zero_partial : forall (c : Cfg) x y, Valid -> wf x -> wf y -> uval y = 0 -> uval x <> 0 ->
  wrapping_div_rem false x y = Panic /\ wrapping_div_rem true x y = Panic /\
  (forall sg, wrapping_div sg x y = Panic /\ wrapping_rem sg x y = Panic /\ wrapping_div_euclid sg x y = Panic /\ wrapping_rem_euclid sg x y = Panic /\
   overflowing_div sg x y = Panic /\ overflowing_rem sg x y = Panic /\ overflowing_div_euclid sg x y = Panic /\ overflowing_rem_euclid sg x y = Panic /\
   op_div sg x y = Panic /\ op_rem sg x y = Panic /\ div_rem sg x y = Panic /\ div_euclid sg x y = Panic /\ rem_euclid sg x y = Panic).
Proof.
  intros c x y HV Hx Hy H0 Hx0.
  assert (V0 : forall sg, val sg y = 0).
  { intros sg. rewrite <- (ofZ_uval HV y Hy), H0. apply (val_ofZ_small HV). apply (fits_0 HV). }
  assert (VX : forall sg, val sg x <> 0).
  { intros sg E. apply Hx0. rewrite <- (ofZ_val HV sg x Hx), E. exact (val_ofZ_small HV false 0 (fits_0 HV false)). }
  assert (SO : forall sg, soutcome (val sg x) 0 = None).
  { intros sg. specialize (VX sg). unfold soutcome. rewrite Z.abs_0, outcome_0 by lia. destruct (Z.eqb_spec (Z.abs (val sg x)) 0); [lia|]. reflexivity. }
  assert (DV : forall sg, dovf sg (val sg x) 0 = false) by (intros []; unfold dovf; cbn; rewrite ?andb_false_r; reflexivity).
  split; [rewrite (wrapping_div_rem_ok HV) by auto; rewrite V0, SO; reflexivity|].
  split; [rewrite (wrapping_div_rem_ok HV) by auto; rewrite V0, SO; reflexivity|].
  intros sg. rewrite (wrapping_div_ok HV), (wrapping_rem_ok HV), (wrapping_div_euclid_ok HV), (wrapping_rem_euclid_ok HV),
   (overflowing_div_ok HV), (overflowing_rem_ok HV), (overflowing_div_euclid_ok HV), (overflowing_rem_euclid_ok HV),
   (op_div_ok HV), (op_rem_ok HV), (div_rem_ok HV), (div_euclid_ok HV), (rem_euclid_ok HV) by auto.
  rewrite V0, DV. unfold opd, esq, esr, sq, sr. rewrite SO. cbn [option_map lift1 lift_f lift_qr].
  destruct sg; cbn [lift1 lift_f option_map]; repeat split; destruct (chk && _); reflexivity.
Qed.
(** Zero over zero is answered: quotient one, remainder zero. *)
Theorem C10_wrapping_zero_refuted : exists (c : Cfg) x y, Valid /\ wf x /\ wf y /\ uval y = 0 /\
  (forall sg, wrapping_div sg x y = Ok (ofZ 1) /\ wrapping_rem sg x y = Ok (ofZ 0) /\ wrapping_div_rem sg x y = Ok (ofZ 1, ofZ 0)
   /\ overflowing_div sg x y = Ok (ofZ 1, false)).
Proof.
  exists c256_64, (E64 0), (E64 0). split; [apply valid_c256_64|]. split; [apply (wf_ofZ valid_c256_64)|]. split; [apply (wf_ofZ valid_c256_64)|].
  split; [reflexivity|]. intros []; vm_compute; auto.
Qed.
Theorem C10_operator_zero_refuted : exists (c : Cfg) x y, Valid /\ wf x /\ wf y /\ uval y = 0 /\
  (forall sg, op_div sg x y = Ok (ofZ 1) /\ op_rem sg x y = Ok (ofZ 0) /\ div_rem sg x y = Ok (ofZ 1, ofZ 0)) .
Proof.
  exists c512_32, (E512 0), (E512 0). split; [apply valid_c512_32|]. split; [apply (wf_ofZ valid_c512_32)|]. split; [apply (wf_ofZ valid_c512_32)|].
  split; [reflexivity|]. intros []; vm_compute; auto.
Qed.
Example C10_ex1 : @checked_div c256_64 false (E64 7) (E64 0) = Ok None /\ @checked_rem c256_64 true (E64 (- 2 ^ 255)) (E64 (-1)) = Ok None
  /\ @strict_div c512_32 true (E512 7) (E512 0) = Panic /\ @wrapping_div c256_32 true (E32 7) (E32 0) = Panic.
Proof. vm_compute. auto. Qed.

(** ** C11: signed division *)

Theorem C11_wrapping_s : forall (c : Cfg) x y, Valid -> wf x -> wf y -> sval y <> 0 ->
  exact_division W N (Z.abs (sval x)) (Z.abs (sval y)) ->
  returns_s2 (wrapping_div_rem true x y) (swrap BITS (Z.quot (sval x) (sval y))) (Z.rem (sval x) (sval y)) /\
  returns_s (wrapping_div true x y) (swrap BITS (Z.quot (sval x) (sval y))) /\
  returns_s (wrapping_rem true x y) (Z.rem (sval x) (sval y)).
Proof.
  intros c x y HV Hx Hy H0 HE. pose proof (sval_range HV y Hy) as Ry. pose proof (rem_fits (sval x) _ Ry H0) as FR.
  split; [|split].
  - apply (retS2 HV); auto. rewrite (wrapping_div_rem_ok HV) by auto. cbn [val]. rewrite soutcome_exact by auto. reflexivity.
  - apply (retS HV). rewrite (wrapping_div_ok HV) by auto. cbn [val]. rewrite sq_exact by auto. reflexivity.
  - apply (retS1 HV); auto. rewrite (wrapping_rem_ok HV) by auto. cbn [val]. rewrite sr_exact by auto. reflexivity.
Qed.
(** Every other form, away from MIN / -1. *)
Theorem C11_forms_s : forall (c : Cfg) x y, Valid -> wf x -> wf y -> sval y <> 0 -> ~ min_over_m1 x y ->
  exact_division W N (Z.abs (sval x)) (Z.abs (sval y)) ->
  returns_s (wrapping_div true x y) (Z.quot (sval x) (sval y)) /\
  returns_s (op_div true x y) (Z.quot (sval x) (sval y)) /\ returns_s (op_rem true x y) (Z.rem (sval x) (sval y)) /\
  returns_s2 (div_rem true x y) (Z.quot (sval x) (sval y)) (Z.rem (sval x) (sval y)) /\
  returns_s_opt (checked_div true x y) True (Z.quot (sval x) (sval y)) /\ returns_s_opt (checked_rem true x y) True (Z.rem (sval x) (sval y)) /\
  returns_s_flag (overflowing_div true x y) (Z.quot (sval x) (sval y)) False /\ returns_s_flag (overflowing_rem true x y) (Z.rem (sval x) (sval y)) False /\
  returns_s (strict_div true x y) (Z.quot (sval x) (sval y)) /\ returns_s (strict_rem true x y) (Z.rem (sval x) (sval y)) /\
  returns_s (saturating_div true x y) (Z.quot (sval x) (sval y)).
Proof.
  intros c x y HV Hx Hy H0 HM HE. pose proof (sval_range HV x Hx) as Rx. pose proof (sval_range HV y Hy) as Ry.
  pose proof (rem_fits (sval x) _ Ry H0) as FR. pose proof (quot_fits HV _ _ Rx Ry H0 HM) as FQ.
  assert (DN : dnone true (sval x) (sval y) = false) by (apply dnone_no; auto).
  assert (DV : dovf true (sval x) (sval y) = false) by (apply dovf_no; auto).
  assert (O1 : forall m v, m = Ok (Some (ofZ v)) -> fits_s BITS v -> returns_s_opt m True v).
  { intros m v -> F. left. split; auto. exists (ofZ v). split; auto. split; [apply (wf_ofZ HV)|exact (val_ofZ_small HV true v F)]. }
  assert (O2 : forall m v, m = Ok (ofZ v, false) -> fits_s BITS v -> returns_s_flag m v False).
  { intros m v -> F. exists (ofZ v), false. split; auto. split; [apply (wf_ofZ HV)|]. split; [exact (val_ofZ_small HV true v F)|]. split; [discriminate|tauto]. }
  rewrite (wrapping_div_ok HV), (div_rem_ok HV), (op_div_ok HV), (op_rem_ok HV), (checked_div_ok HV), (checked_rem_ok HV), (overflowing_div_ok HV), (overflowing_rem_ok HV),
    (strict_div_ok HV), (strict_rem_ok HV), (saturating_div_ok HV) by auto. cbn [val]. unfold opd, chko.
  rewrite DN, DV, sq_exact, sr_exact, soutcome_exact, andb_false_r by auto. cbn [lift1 lift_o lift_f lift_qr].
  repeat split; try (apply (retS1 HV); auto; fail); try (apply O1; auto; fail); try (apply O2; auto; fail).
  exists (ofZ (Z.quot (sval x) (sval y))), (ofZ (Z.rem (sval x) (sval y))). repeat split; try apply (wf_ofZ HV).
  - exact (val_ofZ_small HV true _ FQ).
  - exact (val_ofZ_small HV true _ FR).
Qed.
(** MIN / -1, which never needs a correction. *)
Theorem C11_min_over_m1 : forall (c : Cfg) x y, Valid -> wf x -> wf y -> min_over_m1 x y ->
  returns_s (wrapping_div true x y) (- 2 ^ (BITS - 1)) /\ returns_s (wrapping_rem true x y) 0 /\
  returns_s_flag (overflowing_div true x y) (- 2 ^ (BITS - 1)) True /\ returns_s_flag (overflowing_rem true x y) 0 True /\
  checked_div true x y = Ok None /\ checked_rem true x y = Ok None /\ returns_s (saturating_div true x y) (2 ^ (BITS - 1) - 1).
Proof.
  intros c x y HV Hx Hy HM. pose proof HM as (Ex & Ey). pose proof (pBh HV) as PH. pose proof (pBhalf HV) as PB.
  pose proof (proj2 (dovf_iff _ _) HM) as DV.
  assert (DN : dnone true (sval x) (sval y) = true) by (apply dnone_true; auto).
  assert (F0 : fits_s BITS 0) by (unfold fits_s; lia). assert (FM : fits_s BITS (- 2 ^ (BITS - 1))) by (unfold fits_s; lia).
  assert (FX : fits_s BITS (2 ^ (BITS - 1) - 1)) by (unfold fits_s; lia).
  assert (HE : exact_division W N (Z.abs (sval x)) (Z.abs (sval y))) by (rewrite Ey; apply (exact_m1 HV)).
  assert (O2 : forall m v, m = Ok (ofZ v, true) -> fits_s BITS v -> returns_s_flag m v True).
  { intros m v -> F. exists (ofZ v), true. split; auto. split; [apply (wf_ofZ HV)|]. split; [exact (val_ofZ_small HV true v F)|]. tauto. }
  rewrite (wrapping_div_ok HV), (wrapping_rem_ok HV), (checked_div_ok HV), (checked_rem_ok HV), (overflowing_div_ok HV), (overflowing_rem_ok HV),
    (saturating_div_ok HV) by auto. cbn [val]. unfold chko.
  rewrite DN, DV, sq_exact, sr_exact by (auto; lia).
  assert (EQ : Z.quot (sval x) (sval y) = 2 ^ (BITS - 1)) by (rewrite Ex, Ey; change (-1) with (- (1)); rewrite Z.quot_opp_opp, Z.quot_1_r; lia).
  assert (ER : Z.rem (sval x) (sval y) = 0) by (pose proof (Z.quot_rem' (sval x) (sval y)) as E; rewrite EQ in E; lia).
  rewrite EQ, ER. cbn [lift1]. repeat split; try (apply (retS1 HV); auto; fail); try (apply O2; auto; fail).
  apply (retS1 HV); auto. f_equal. apply (ofZ_eq_mod HV). rewrite <- (Z.mod_add (- 2 ^ (BITS - 1)) 1) by lia. f_equal. lia.
Qed.
(** The forms that return quotient and remainder together. *)
Theorem C11_pair_s : forall (c : Cfg) x y, Valid -> wf x -> wf y -> sval y <> 0 ->
  exact_division W N (Z.abs (sval x)) (Z.abs (sval y)) ->
  exists q r, wf q /\ wf r /\ sval q = swrap BITS (Z.quot (sval x) (sval y)) /\ sval r = Z.rem (sval x) (sval y) /\
    (~ min_over_m1 x y -> overflowing_div_rem true x y = Ok (q, r, false) /\ checked_div_rem true x y = Ok (Some (q, r))) /\
    (min_over_m1 x y -> overflowing_div_rem true x y = Ok (q, r, true) /\ sval q = - 2 ^ (BITS - 1) /\ sval r = 0).
Proof.
  intros c x y HV Hx Hy H0 HE. pose proof (sval_range HV y Hy) as Ry. pose proof (rem_fits (sval x) _ Ry H0) as FR.
  exists (ofZ (Z.quot (sval x) (sval y))), (ofZ (Z.rem (sval x) (sval y))).
  split; [apply (wf_ofZ HV)|]. split; [apply (wf_ofZ HV)|]. split; [exact (val_ofZ HV true _)|]. split; [exact (val_ofZ_small HV true _ FR)|].
  rewrite (overflowing_div_rem_ok HV), (checked_div_rem_ok HV) by auto. cbn [val]. rewrite soutcome_exact by auto. split.
  - intros HM. rewrite dovf_no, dnone_no by auto. auto.
  - intros HM. pose proof HM as (Ex & Ey). rewrite (proj2 (dovf_iff _ _) HM). pose proof (pBh HV) as PH. pose proof (pBhalf HV) as PB.
    assert (EQ : Z.quot (sval x) (sval y) = 2 ^ (BITS - 1)) by (rewrite Ex, Ey; change (-1) with (- (1)); rewrite Z.quot_opp_opp, Z.quot_1_r; lia).
    assert (ER : Z.rem (sval x) (sval y) = 0) by (pose proof (Z.quot_rem' (sval x) (sval y)) as E; rewrite EQ in E; lia).
    rewrite EQ, ER.
    assert (EM : ofZ (2 ^ (BITS - 1)) = ofZ (- 2 ^ (BITS - 1))).
    { apply (ofZ_eq_mod HV). rewrite <- (Z.mod_add (- 2 ^ (BITS - 1)) 1) by lia. f_equal. lia. }
    assert (FM : fits_s BITS (- 2 ^ (BITS - 1))) by (unfold fits_s; lia). assert (F0 : fits_s BITS 0) by (unfold fits_s; lia).
    rewrite EM. split; [reflexivity|]. split; [exact (val_ofZ_small HV true _ FM)|exact (val_ofZ_small HV true _ F0)].
Qed.
Theorem C11_pair_u : forall (c : Cfg) x y, Valid -> wf x -> wf y -> uval y <> 0 -> exact_division W N (uval x) (uval y) ->
  exists q r, wf q /\ wf r /\ uval q = uval x / uval y /\ uval r = uval x mod uval y /\
    overflowing_div_rem false x y = Ok (q, r, false) /\ checked_div_rem false x y = Ok (Some (q, r)).
Proof.
  intros c x y HV Hx Hy H0 HE. pose proof (uval_range HV x Hx) as Rx. pose proof (uval_range HV y Hy) as Ry.
  destruct (divmod_fits HV x y Hx H0 Ry) as (F1 & F2).
  assert (A : exact_division W N (Z.abs (uval x)) (Z.abs (uval y))) by (rewrite !Z.abs_eq by lia; auto).
  exists (ofZ (uval x / uval y)), (ofZ (uval x mod uval y)).
  split; [apply (wf_ofZ HV)|]. split; [apply (wf_ofZ HV)|]. split; [exact (val_ofZ_small HV false _ F1)|]. split; [exact (val_ofZ_small HV false _ F2)|].
  rewrite (overflowing_div_rem_ok HV), (checked_div_rem_ok HV) by auto. cbn [val]. rewrite soutcome_exact by auto.
  rewrite dnone_u. unfold dovf. cbn [andb]. apply Z.eqb_neq in H0. rewrite H0.
  rewrite Z.quot_div_nonneg, Z.rem_mod_nonneg by (apply Z.eqb_neq in H0; lia). auto.
Qed.
(** In every case the quotient is right whenever there is one; panics are as
    in C08. *)
Theorem C11_quotient_s : forall (c : Cfg) x y, Valid -> wf x -> wf y -> sval y <> 0 ->
  (returns_s (wrapping_div true x y) (swrap BITS (Z.quot (sval x) (sval y))) \/ wrapping_div true x y = Panic) /\
  (wrapping_div true x y = Panic <->
     2 ^ (BITS - W) <= Z.abs (sval y) < Z.abs (sval x) /\ has_correction W (Z.abs (sval x)) (Z.abs (sval y)) = true).
Proof.
  intros c x y HV Hx Hy H0. rewrite (wrapping_div_ok HV) by auto. cbn [val]. rewrite <- (soutcome_none HV) by auto. unfold sq.
  destruct (soutcome (sval x) (sval y)) as [[q r]|] eqn:E; cbn [option_map lift1 fst].
  - rewrite (soutcome_some _ _ _ _ H0 E). split; [left; apply (retS HV); reflexivity|split; discriminate].
  - split; [auto|tauto].
Qed.
(** Without the hypothesis: a remainder larger in magnitude than the divisor. *)
Theorem C11_rem_refuted : exists (c : Cfg) x y r, Valid /\ wf x /\ wf y /\ sval y <> 0 /\ ~ min_over_m1 x y /\
  op_rem true x y = Ok r /\ Z.rem (sval x) (sval y) = 0 /\ sval r < - Z.abs (sval y).
Proof.
  set (y := 2 ^ 126 + 2 ^ 63 - 1). set (q := (2 ^ 64 - 2) * 2 ^ 64 + 100).
  exists c256_64, (E64 (- (q * y))), (E64 y), (E64 (- 3138550867693340381917894711603833208051177722232017256448)).
  split; [apply valid_c256_64|]. split; [apply (wf_ofZ valid_c256_64)|]. split; [apply (wf_ofZ valid_c256_64)|].
  split; [vm_compute; discriminate|]. split; [intros (_ & E); vm_compute in E; discriminate|]. vm_compute. auto.
Qed.
Example C11_ex1 : @op_div c256_64 true (E64 (-7)) (E64 2) = Ok (E64 (-3)) /\ @op_rem c256_64 true (E64 (-7)) (E64 2) = Ok (E64 (-1))
  /\ @op_rem c256_32 true (E32 7) (E32 (-2)) = Ok (E32 1) /\ @saturating_div c384_64 true (E384 (- 2 ^ 383)) (E384 (-1)) = Ok (E384 (2 ^ 383 - 1)).
Proof. vm_compute. auto. Qed.

Example C11_ex2 : @overflowing_div_rem c512_32 true (E512 (-7)) (E512 2) = Ok (E512 (-3), E512 (-1), false)
  /\ @overflowing_div_rem c384_64 true (E384 (- 2 ^ 383)) (E384 (-1)) = Ok (E384 (- 2 ^ 383), E384 0, true)
  /\ @checked_div_rem c256_64 false (E64 (2 ^ 200)) (E64 10) = Ok (Some (E64 (2 ^ 200 / 10), E64 6)).
Proof. vm_compute. auto. Qed.

(** ** C12: Euclidean division *)

Theorem C12_euclid_s : forall (c : Cfg) x y, Valid -> wf x -> wf y -> sval y <> 0 ->
  exact_division W N (Z.abs (sval x)) (Z.abs (sval y)) ->
  exists q r, sval x = q * sval y + r /\ 0 <= r < Z.abs (sval y) /\
    returns_s (wrapping_div_euclid true x y) (swrap BITS q) /\ returns_s (wrapping_rem_euclid true x y) r /\
    (~ min_over_m1 x y -> fits_s BITS q /\ returns_s (div_euclid true x y) q /\ returns_s (rem_euclid true x y) r /\
       returns_s (strict_div_euclid true x y) q /\ returns_s (strict_rem_euclid true x y) r /\
       (exists a, checked_div_euclid true x y = Ok (Some a) /\ wf a /\ sval a = q) /\ (exists a, checked_rem_euclid true x y = Ok (Some a) /\ wf a /\ sval a = r) /\
       returns_s_flag (overflowing_div_euclid true x y) q False /\ returns_s_flag (overflowing_rem_euclid true x y) r False).
Proof.
  intros c x y HV Hx Hy H0 HE. pose proof (sval_range HV x Hx) as Rx. pose proof (sval_range HV y Hy) as Ry.
  pose proof (emod_fits (sval x) _ Ry H0) as FR. assert (P : 0 < Z.abs (sval y)) by lia.
  pose proof (Z.mod_pos_bound (sval x) _ P) as MB. assert (P0 : Z.abs (sval y) <> 0) by lia. pose proof (Z.div_mod (sval x) _ P0) as DM.
  destruct (esq_exact true (sval x) (sval y) H0 ltac:(discriminate) HE) as (EQ & ER).
  exists (Z.sgn (sval y) * (sval x / Z.abs (sval y))), (sval x mod Z.abs (sval y)).
  split. { rewrite DM at 1. pose proof (Z.sgn_abs (sval y)). nia. }
  split; auto.
  split; [apply (retS HV); rewrite (wrapping_div_euclid_ok HV) by auto; cbn [val]; rewrite EQ; reflexivity|].
  split; [apply (retS1 HV); auto; rewrite (wrapping_rem_euclid_ok HV) by auto; cbn [val]; rewrite ER; reflexivity|].
  intros HM. pose proof (ediv_fits HV _ _ Rx Ry H0 HM) as FQ.
  assert (DN : dnone true (sval x) (sval y) = false) by (apply dnone_no; auto).
  assert (DV : dovf true (sval x) (sval y) = false) by (apply dovf_no; auto).
  assert (O2 : forall m v, m = Ok (ofZ v, false) -> fits_s BITS v -> returns_s_flag m v False).
  { intros m v -> F. exists (ofZ v), false. split; auto. split; [apply (wf_ofZ HV)|]. split; [exact (val_ofZ_small HV true v F)|]. split; [discriminate|tauto]. }
  rewrite (div_euclid_ok HV), (rem_euclid_ok HV), (strict_div_euclid_ok HV), (strict_rem_euclid_ok HV), (checked_div_euclid_ok HV), (checked_rem_euclid_ok HV),
    (overflowing_div_euclid_ok HV), (overflowing_rem_euclid_ok HV) by auto. cbn [val]. unfold opd, chko. rewrite DN, DV, EQ, ER, andb_false_r.
  cbn [lift1 lift_o lift_f]. split; [exact FQ|].
  repeat split; try (apply (retS1 HV); auto; fail); try (apply O2; auto; fail).
  - eexists. split; [reflexivity|]. split; [apply (wf_ofZ HV)|exact (val_ofZ_small HV true _ FQ)].
  - eexists. split; [reflexivity|]. split; [apply (wf_ofZ HV)|exact (val_ofZ_small HV true _ FR)].
Qed.
Theorem C12_euclid_u : forall (c : Cfg) x y, Valid -> wf x -> wf y -> uval y <> 0 -> exact_division W N (uval x) (uval y) ->
  returns_u (wrapping_div_euclid false x y) (uval x / uval y) /\ returns_u (wrapping_rem_euclid false x y) (uval x mod uval y) /\
  returns_u (div_euclid false x y) (uval x / uval y) /\ returns_u (rem_euclid false x y) (uval x mod uval y).
Proof.
  intros c x y HV Hx Hy H0 HE. pose proof (uval_range HV x Hx) as Rx. pose proof (uval_range HV y Hy) as Ry.
  destruct (divmod_fits HV x y Hx H0 Ry) as (F1 & F2).
  assert (A : exact_division W N (Z.abs (uval x)) (Z.abs (uval y))) by (rewrite !Z.abs_eq by lia; auto).
  assert (NN : false = false -> 0 <= uval x /\ 0 <= uval y) by lia.
  destruct (esq_exact false (uval x) (uval y) H0 NN A) as (EQ & ER).
  rewrite Z.abs_eq in EQ, ER by lia. rewrite Z.sgn_pos, Z.mul_1_l in EQ by lia.
  rewrite (wrapping_div_euclid_ok HV), (wrapping_rem_euclid_ok HV), (div_euclid_ok HV), (rem_euclid_ok HV) by auto. cbn [val]. unfold opd.
  rewrite dnone_u. destruct (Z.eqb_spec (uval y) 0); [contradiction|]. rewrite EQ, ER, andb_false_r. cbn [lift1].
  repeat split; apply (retU1 HV); auto.
Qed.
(** MIN / -1 *)
Theorem C12_min_over_m1 : forall (c : Cfg) x y, Valid -> wf x -> wf y -> min_over_m1 x y ->
  returns_s (wrapping_div_euclid true x y) (- 2 ^ (BITS - 1)) /\ returns_s (wrapping_rem_euclid true x y) 0 /\
  returns_s_flag (overflowing_div_euclid true x y) (- 2 ^ (BITS - 1)) True /\ returns_s_flag (overflowing_rem_euclid true x y) 0 True.
Proof.
  intros c x y HV Hx Hy HM. pose proof HM as (Ex & Ey). pose proof (pBh HV) as PH. pose proof (pBhalf HV) as PB.
  pose proof (proj2 (dovf_iff _ _) HM) as DV. assert (H0 : sval y <> 0) by lia.
  assert (F0 : fits_s BITS 0) by (unfold fits_s; lia). assert (FM : fits_s BITS (- 2 ^ (BITS - 1))) by (unfold fits_s; lia).
  assert (HE : exact_division W N (Z.abs (sval x)) (Z.abs (sval y))) by (rewrite Ey; apply (exact_m1 HV)).
  destruct (esq_exact true (sval x) (sval y) H0 ltac:(discriminate) HE) as (EQ & ER).
  assert (O2 : forall m v, m = Ok (ofZ v, true) -> fits_s BITS v -> returns_s_flag m v True).
  { intros m v -> F. exists (ofZ v), true. split; auto. split; [apply (wf_ofZ HV)|]. split; [exact (val_ofZ_small HV true v F)|]. tauto. }
  rewrite (wrapping_div_euclid_ok HV), (wrapping_rem_euclid_ok HV), (overflowing_div_euclid_ok HV), (overflowing_rem_euclid_ok HV) by auto. cbn [val].
  rewrite EQ, ER, DV. rewrite Ey. change (Z.abs (-1)) with 1. change (Z.sgn (-1)) with (-1). rewrite Z.mod_1_r, Z.div_1_r, Ex. cbn [lift1].
  repeat split; try (apply (retS1 HV); auto; fail); try (apply O2; auto; fail).
  apply (retS1 HV); auto. f_equal. apply (ofZ_eq_mod HV). rewrite <- (Z.mod_add (- 2 ^ (BITS - 1)) 1) by lia. f_equal. lia.
Qed.
(** Without exactness: a negative Euclidean remainder and a quotient off by one. *)
Theorem C12_euclid_refuted : exists (c : Cfg) x y q r, Valid /\ wf x /\ wf y /\ sval y <> 0 /\ ~ min_over_m1 x y /\
  wrapping_div_euclid true x y = Ok q /\ wrapping_rem_euclid true x y = Ok r /\ sval r < 0 /\ sval q = sval x / sval y - 1.
Proof.
  set (y := 2 ^ 126 + 2 ^ 63 - 1). set (q := (2 ^ 64 - 2) * 2 ^ 64 + 100).
  exists c256_64, (E64 (- (q * y))), (E64 y), (E64 (- q - 1)), (E64 (-3138550867693340381832824119873598592176110698337220427777)).
  split; [apply valid_c256_64|]. split; [apply (wf_ofZ valid_c256_64)|]. split; [apply (wf_ofZ valid_c256_64)|].
  split; [vm_compute; discriminate|]. split; [intros (_ & E); vm_compute in E; discriminate|]. vm_compute. auto.
Qed.
Example C12_ex1 : @div_euclid c256_64 true (E64 (-7)) (E64 (-2)) = Ok (E64 4) /\ @rem_euclid c256_64 true (E64 (-7)) (E64 (-2)) = Ok (E64 1)
  /\ @wrapping_div_euclid c256_32 true (E32 (-7)) (E32 2) = Ok (E32 (-4)) /\ @wrapping_rem_euclid c256_32 true (E32 (-7)) (E32 2) = Ok (E32 1).
Proof. vm_compute. auto. Qed.

(** ** C13: rounding division *)

Theorem C13_floor_ceil_u : forall (c : Cfg) x y, Valid -> wf x -> wf y -> uval y <> 0 -> exact_division W N (uval x) (uval y) ->
  returns_u (u_div_floor x y) (uval x / uval y) /\ returns_u (u_div_ceil x y) (- ((- uval x) / uval y)).
Proof.
  intros c x y HV Hx Hy H0 HE. split; [apply C07_div_rem_partial; auto|].
  pose proof (uval_range HV x Hx) as Rx. pose proof (uval_range HV y Hy) as Ry.
  assert (A : exact_division W N (Z.abs (uval x)) (Z.abs (uval y))) by (rewrite !Z.abs_eq by lia; auto).
  apply (retU1 HV).
  - rewrite (u_div_ceil_ok HV) by auto. rewrite soutcome_exact by auto. cbn [option_map]. rewrite ceil_num by auto. reflexivity.
  - assert (P : 0 < uval y) by lia. pose proof (Z.mod_pos_bound (- uval x) _ P). pose proof (Z.div_mod (- uval x) _ H0) as E.
    unfold fits_u. set (q := (- uval x) / uval y) in *. set (r := (- uval x) mod uval y) in *. clearbody q r. nia.
Qed.
Theorem C13_floor_ceil_s : forall (c : Cfg) x y, Valid -> wf x -> wf y -> sval y <> 0 ->
  exact_division W N (Z.abs (sval x)) (Z.abs (sval y)) ->
  returns_s (s_div_floor x y) (swrap BITS (sval x / sval y)) /\ returns_s (s_div_ceil x y) (swrap BITS (- ((- sval x) / sval y))) /\
  (~ min_over_m1 x y -> returns_s (s_div_floor x y) (sval x / sval y) /\ returns_s (s_div_ceil x y) (- ((- sval x) / sval y))).
Proof.
  intros c x y HV Hx Hy H0 HE. pose proof (sval_range HV x Hx) as Rx. pose proof (sval_range HV y Hy) as Ry.
  assert (E1 : s_div_floor x y = Ok (ofZ (sval x / sval y))).
  { rewrite (s_div_floor_ok HV) by auto. rewrite soutcome_exact by auto. cbn [option_map]. rewrite floor_num by auto. reflexivity. }
  assert (E2 : s_div_ceil x y = Ok (ofZ (- ((- sval x) / sval y)))).
  { rewrite (s_div_ceil_ok HV) by auto. rewrite soutcome_exact by auto. cbn [option_map]. rewrite ceil_num by auto. reflexivity. }
  split; [apply (retS HV); auto|]. split; [apply (retS HV); auto|]. intros HM.
  split; apply (retS1 HV); auto; [apply (floor_fits HV)|apply (ceil_fits HV)]; auto.
Qed.
(** The unsigned floor is right whenever the division returns at all. *)
Theorem C13_floor_u : forall (c : Cfg) x y q, Valid -> wf x -> wf y -> uval y <> 0 -> u_div_floor x y = Ok q -> uval q = uval x / uval y.
Proof.
  intros c x y q HV Hx Hy H0. unfold u_div_floor, wrapping_div. destruct (wrapping_div_rem false x y) as [[a b]| |] eqn:E; cbn [bind]; try discriminate.
  intros EE. inversion EE; subst. apply (C08_quotient_u c x y q b); auto.
Qed.
(** Without exactness both roundings can miss by one. *)
Theorem C13_rounding_refuted : exists (c : Cfg) x nx y q, Valid /\ wf x /\ wf nx /\ wf y /\ uval y <> 0 /\
  uval x = q * uval y /\ sval nx = - sval x /\ u_div_ceil x y = Ok (ofZ (q + 1)) /\ s_div_ceil x y = Ok (ofZ (q + 1)) /\ s_div_floor nx y = Ok (ofZ (- q - 1)).
Proof.
  set (y := 2 ^ 126 + 2 ^ 63 - 1). set (q := (2 ^ 64 - 2) * 2 ^ 64 + 100).
  exists c256_64, (E64 (q * y)), (E64 (- (q * y))), (E64 y), q.
  split; [apply valid_c256_64|]. split; [apply (wf_ofZ valid_c256_64)|]. split; [apply (wf_ofZ valid_c256_64)|]. split; [apply (wf_ofZ valid_c256_64)|].
  split; [vm_compute; discriminate|]. vm_compute. auto.
Qed.
Example C13_ex1 : @s_div_floor c256_64 (E64 (-7)) (E64 2) = Ok (E64 (-4)) /\ @s_div_ceil c256_64 (E64 (-7)) (E64 2) = Ok (E64 (-3))
  /\ @u_div_ceil c256_32 (E32 7) (E32 2) = Ok (E32 4) /\ @s_div_ceil c256_32 (E32 7) (E32 2) = Ok (E32 4).
Proof. vm_compute. auto. Qed.

(** ** C14: multiples *)

(** The smallest multiple of a positive number at or above [x] (for a negative
    one: the largest multiple at or below). *)
Definition next_multiple (x y m : Z) : Prop :=
  (y | m) /\ (0 < y -> x <= m < x + y) /\ (y < 0 -> x + y < m <= x).

Theorem C14_next_multiple_u : forall (c : Cfg) x y, Valid -> wf x -> wf y -> uval y <> 0 -> exact_division W N (uval x) (uval y) ->
  exists m, next_multiple (uval x) (uval y) m /\
    returns_u_opt (u_checked_next_multiple_of x y) (fits_u BITS m) m /\
    (chk = true -> returns_u_or_panics (u_next_multiple_of x y) (fits_u BITS m) m) /\
    (chk = false -> returns_u (u_next_multiple_of x y) (m mod 2 ^ BITS)).
Proof.
  intros c x y HV Hx Hy H0 HE. pose proof (uval_range HV y Hy) as Ry. exists (nm (uval x) (uval y)). split.
  - assert (P : 0 < uval y) by lia. destruct (nm_pos (uval x) _ P). repeat split; auto; lia.
  - split; [|apply (opU HV), (u_next_multiple_of_ok HV); auto]. apply (optU HV). rewrite (u_checked_next_multiple_of_ok HV) by auto.
    destruct (Z.eqb_spec (uval y) 0); [contradiction|reflexivity].
Qed.
Theorem C14_next_multiple_s : forall (c : Cfg) x y, Valid -> wf x -> wf y -> sval y <> 0 ->
  exact_division W N (Z.abs (sval x)) (Z.abs (sval y)) ->
  exists m, next_multiple (sval x) (sval y) m /\
    returns_s_opt (s_checked_next_multiple_of x y) (fits_s BITS m) m /\
    (chk = true -> returns_s_or_panics (s_next_multiple_of x y) (fits_s BITS m) m) /\
    (chk = false -> returns_s (s_next_multiple_of x y) (swrap BITS m)).
Proof.
  intros c x y HV Hx Hy H0 HE. exists (nm (sval x) (sval y)). split.
  - destruct (Z.lt_trichotomy (sval y) 0) as [L|[L|L]]; [|contradiction|].
    + destruct (nm_neg (sval x) _ L). repeat split; auto; lia.
    + destruct (nm_pos (sval x) _ L). repeat split; auto; lia.
  - split; [|apply (opS HV), (s_next_multiple_of_ok HV); auto]. apply (optS HV). rewrite (s_checked_next_multiple_of_ok HV) by auto.
    destruct (Z.eqb_spec (sval y) 0); [contradiction|reflexivity].
Qed.
Theorem C14_zero : forall (c : Cfg) x y, Valid -> wf x -> wf y -> uval y = 0 ->
  u_checked_next_multiple_of x y = Ok None /\ s_checked_next_multiple_of x y = Ok None.
Proof.
  intros c x y HV Hx Hy H0. assert (S0 : sval y = 0).
  { rewrite <- (ofZ_uval HV y Hy), H0. exact (val_ofZ_small HV true 0 (fits_0 HV true)). }
  rewrite (u_checked_next_multiple_of_ok HV), (s_checked_next_multiple_of_ok HV); auto.
  - rewrite H0, S0. auto.
  - rewrite S0. right. left. apply (pow2_pos W (W_nonneg HV)).
  - rewrite H0. right. left. apply (pow2_pos W (W_nonneg HV)).
Qed.
Theorem C14_is_multiple_of : forall (c : Cfg) x y, Valid -> wf x -> wf y -> exact_division W N (uval x) (uval y) ->
  exists b, u_is_multiple_of x y = Ok b /\ (b = true <-> (uval y | uval x)).
Proof.
  intros c x y HV Hx Hy HE. rewrite (u_is_multiple_of_ok HV) by auto. eexists. split; [reflexivity|].
  destruct (Z.eqb_spec (uval y) 0) as [E|E].
  - rewrite E, Z.eqb_eq. split; [intros ->; apply Z.divide_0_r|apply Z.divide_0_l].
  - rewrite Z.eqb_eq. apply Z.mod_divide. auto.
Qed.
Theorem C14_multiples_refuted : exists (c : Cfg) x y, Valid /\ wf x /\ wf y /\ uval y <> 0 /\ (uval y | uval x) /\
  u_is_multiple_of x y = Ok false /\ u_checked_next_multiple_of x y = Ok None /\ u_next_multiple_of x y = Panic /\
  s_checked_next_multiple_of x y <> Ok (Some x).
Proof.
  set (y := 2 ^ 126 + 2 ^ 63 - 1). set (q := (2 ^ 64 - 2) * 2 ^ 64 + 100).
  exists c256_64, (E64 (q * y)), (E64 y).
  split; [apply valid_c256_64|]. split; [apply (wf_ofZ valid_c256_64)|]. split; [apply (wf_ofZ valid_c256_64)|].
  split; [vm_compute; discriminate|]. split; [exists q; vm_compute; reflexivity|].
  split; [vm_compute; reflexivity|]. split; [vm_compute; reflexivity|]. split; [vm_compute; reflexivity|]. vm_compute. discriminate.
Qed.
Example C14_ex1 : @u_checked_next_multiple_of c256_64 (E64 17) (E64 5) = Ok (Some (E64 20)) /\ @u_checked_next_multiple_of c256_64 (E64 (-1)) (E64 2) = Ok None
  /\ @s_checked_next_multiple_of c256_64 (E64 17) (E64 (-5)) = Ok (Some (E64 15)) /\ @s_next_multiple_of c256_32 (E32 (-17)) (E32 5) = Ok (E32 (-15))
  /\ @u_is_multiple_of c256_64 (E64 20) (E64 5) = Ok true /\ @u_is_multiple_of c256_32 (E32 0) (E32 0) = Ok true.
Proof. vm_compute. auto 10. Qed.

(** ** C34, general base *)

(** From the base on, the answer is the logarithm, unless the division of the
    value by the base panics (C08); the loop always ends. *)
Theorem C34_checked_ilog_u_partial : forall (c : Cfg) x b, Valid -> wf x -> wf b -> 2 <= uval b <= uval x ->
  ~ (2 ^ (BITS - W) <= uval b < uval x /\ has_correction W (uval x) (uval b) = true) ->
  exists k, u_checked_ilog x b = Ok (Some k) /\ u_ilog x b = Ok k /\ 0 <= k < BITS /\ uval b ^ k <= uval x < uval b ^ (k + 1).
Proof.
  intros c x b HV Hx Hb Hab HP. pose proof (u_checked_ilog_ok HV x b Hx Hb Hab) as H.
  assert (E : ilog_panics (uval x) (uval b) = false).
  { destruct (ilog_panics (uval x) (uval b)) eqn:E; auto. exfalso. apply HP. unfold ilog_panics in E.
    apply andb_true_iff in E. destruct E as (E & HC). apply andb_true_iff in E. destruct E as (E1 & E2).
    apply Z.leb_le in E1. apply Z.ltb_lt in E2. auto. }
  rewrite E in H. destruct H as (k & Hk & R). exists k. unfold u_ilog. rewrite Hk. cbn [unwrap]. auto.
Qed.
(** Bases of fewer than all limbs are always fine. *)
Theorem C34_checked_ilog_short : forall (c : Cfg) x b, Valid -> wf x -> wf b -> 2 <= uval b <= uval x -> uval b < 2 ^ (BITS - W) ->
  exists k, u_checked_ilog x b = Ok (Some k) /\ u_ilog x b = Ok k /\ 0 <= k < BITS /\ uval b ^ k <= uval x < uval b ^ (k + 1).
Proof. intros c x b HV Hx Hb Hab HL. apply C34_checked_ilog_u_partial; auto. lia. Qed.
Theorem C34_checked_ilog_s : forall (c : Cfg) x b, Valid -> wf x -> wf b -> 2 <= sval b <= sval x -> sval b < 2 ^ (BITS - W) ->
  exists k, s_checked_ilog x b = Ok (Some k) /\ s_ilog x b = Ok k /\ 0 <= k < BITS /\ sval b ^ k <= sval x < sval b ^ (k + 1).
Proof.
  intros c x b HV Hx Hb Hab HL.
  assert (US : forall z, wf z -> 0 <= sval z -> uval z = sval z).
  { intros z Hz Hp. pose proof (sval_range HV z Hz). pose proof (pBhalf HV). rewrite <- (ofZ_sval HV z Hz) at 1.
    apply (val_ofZ_small HV false). apply fu. lia. }
  pose proof (US x Hx ltac:(lia)) as Ux. pose proof (US b Hb ltac:(lia)) as Ub.
  destruct (C34_checked_ilog_short c x b HV Hx Hb) as (k & E1 & _ & R); [lia|lia|]. rewrite Ux, Ub in R.
  assert (E : s_checked_ilog x b = Ok (Some k)).
  { rewrite (s_checked_ilog_eq HV) by auto. destruct (Z.leb_spec (sval x) 0); [lia|]. destruct (Z.leb_spec (sval b) 1); [lia|].
    cbn [orb]. rewrite E1. reflexivity. }
  exists k. split; auto. split; auto. unfold s_ilog. rewrite (from_u8_ok HV) by (unfold fits_u; lia). cbn [bind].
  rewrite (ge_const_ok HV) by (auto; apply (wf_ofZ HV)). cbn [bind val]. rewrite (sval_lit HV 2) by lia.
  destruct (Z.leb_spec 2 (sval b)); [|lia]. cbn [assert_ bind]. rewrite E. reflexivity.
Qed.
Theorem C34_checked_ilog_none : forall (c : Cfg) x b, Valid -> wf x -> wf b ->
  (uval x = 0 \/ uval b = 0 -> u_checked_ilog x b = Ok None /\ u_ilog x b = Panic) /\
  (sval x <= 0 \/ sval b <= 1 -> s_checked_ilog x b = Ok None /\ s_ilog x b = Panic).
Proof.
  intros c x b HV Hx Hb. split; intros H.
  - assert (E : u_checked_ilog x b = Ok None) by (apply (u_checked_ilog_none HV); tauto). unfold u_ilog. rewrite E. auto.
  - assert (E : s_checked_ilog x b = Ok None).
    { rewrite (s_checked_ilog_eq HV) by auto. destruct (Z.leb_spec (sval x) 0), (Z.leb_spec (sval b) 1); auto. lia. }
    split; auto. unfold s_ilog. rewrite (from_u8_ok HV) by (unfold fits_u; lia). cbn [bind].
    rewrite (ge_const_ok HV) by (auto; apply (wf_ofZ HV)). cbn [bind]. rewrite E. destruct (_ <=? _); reflexivity.
Qed.
(** A positive value below the base has logarithm zero, but the unsigned form
    answers [None] and the signed form panics. *)
Theorem C34_below_base : forall (c : Cfg) x b, Valid -> wf x -> wf b ->
  (0 < uval x < uval b -> u_checked_ilog x b = Ok None /\ u_ilog x b = Panic) /\
  (0 < sval x < sval b -> s_checked_ilog x b = Panic /\ s_ilog x b = Panic).
Proof.
  intros c x b HV Hx Hb. split; intros H.
  - assert (E : u_checked_ilog x b = Ok None) by (apply (u_checked_ilog_none HV); tauto). unfold u_ilog. rewrite E. auto.
  - assert (US : forall z, wf z -> 0 <= sval z -> uval z = sval z).
    { intros z Hz Hp. pose proof (sval_range HV z Hz). pose proof (pBhalf HV). rewrite <- (ofZ_sval HV z Hz) at 1.
      apply (val_ofZ_small HV false). apply fu. lia. }
    pose proof (US x Hx ltac:(lia)) as Ux. pose proof (US b Hb ltac:(lia)) as Ub.
    assert (E : s_checked_ilog x b = Panic).
    { rewrite (s_checked_ilog_eq HV) by auto. destruct (Z.leb_spec (sval x) 0); [lia|]. destruct (Z.leb_spec (sval b) 1); [lia|]. cbn [orb].
      unfold u_checked_ilog. rewrite (u_checked_ilog_none HV) by (auto; lia). reflexivity. }
    split; auto. unfold s_ilog. rewrite (from_u8_ok HV) by (unfold fits_u; lia). cbn [bind].
    rewrite (ge_const_ok HV) by (auto; apply (wf_ofZ HV)). cbn [bind]. rewrite E. destruct (_ <=? _); reflexivity.
Qed.
(** Base one should give [None]; the unsigned form never returns, whatever the
    number of iterations granted to its loop. *)
Theorem C34_base_one_diverges : forall (c : Cfg) x b, Valid -> wf x -> wf b -> uval b = 1 -> 1 <= uval x ->
  forall fuel v, u_checked_ilog_fuel fuel x b <> Ok v.
Proof. intros c x b HV Hx Hb H1 Hx1. apply (u_checked_ilog_1 HV); auto. Qed.
Theorem C34_checked_ilog_refuted : exists (c : Cfg) x b, Valid /\ wf x /\ wf b /\ 1 <= sval x /\ 2 <= sval b /\
  sval b ^ 0 <= sval x < sval b ^ 1 /\ u_checked_ilog x b = Ok None /\ s_checked_ilog x b = Panic.
Proof.
  exists c256_64, (E64 5), (E64 10).
  split; [apply valid_c256_64|]. split; [apply (wf_ofZ valid_c256_64)|]. split; [apply (wf_ofZ valid_c256_64)|].
  vm_compute. intuition discriminate.
Qed.
Theorem C34_checked_ilog_panic_refuted : exists (c : Cfg) x b, Valid /\ wf x /\ wf b /\ 2 <= uval b <= uval x /\ u_checked_ilog x b = Panic.
Proof.
  exists c256_64, (E64 (2 ^ 193 + 1)), (E64 (2 ^ 192 + 1)).
  split; [apply valid_c256_64|]. split; [apply (wf_ofZ valid_c256_64)|]. split; [apply (wf_ofZ valid_c256_64)|].
  vm_compute. intuition discriminate.
Qed.
Example C34_ex2 : @u_checked_ilog c256_64 (E64 (10 ^ 70 + 5)) (E64 10) = Ok (Some 70) /\ @s_checked_ilog c256_32 (E32 (3 ^ 100)) (E32 3) = Ok (Some 100)
  /\ @u_checked_ilog c256_64 (E64 0) (E64 10) = Ok None /\ @s_checked_ilog c256_64 (E64 (-5)) (E64 10) = Ok None
  /\ @u_checked_ilog_fuel c256_64 100 (E64 5) (E64 1) = OutOfFuel.
Proof. vm_compute. auto 10. Qed.

(** ** Assumptions (each must print "Closed under the global context") *)

Print Assumptions C07_div_rem_refuted.
Print Assumptions C07_rem_refuted.
Print Assumptions C07_div_rem_partial.
Print Assumptions C08_quotient_u.
Print Assumptions C08_exact_iff_u.
Print Assumptions C08_exact_scaled_u.
Print Assumptions C08_exact_below_u.
Print Assumptions C08_panic_iff_u.
Print Assumptions C08_short_divisor_u.
Print Assumptions C08_forms_u.
Print Assumptions C10_checked_none_u.
Print Assumptions C10_checked_none_s.
Print Assumptions C10_panics_u.
Print Assumptions C10_panics_s.
Print Assumptions C10_wrapping_zero_partial.
Print Assumptions C10_wrapping_zero_refuted.
Print Assumptions C10_operator_zero_refuted.
Print Assumptions C11_wrapping_s.
Print Assumptions C11_forms_s.
Print Assumptions C11_min_over_m1.
Print Assumptions C11_pair_s.
Print Assumptions C11_pair_u.
Print Assumptions C11_quotient_s.
Print Assumptions C11_rem_refuted.
Print Assumptions C12_euclid_s.
Print Assumptions C12_euclid_u.
Print Assumptions C12_min_over_m1.
Print Assumptions C12_euclid_refuted.
Print Assumptions C13_floor_ceil_u.
Print Assumptions C13_floor_ceil_s.
Print Assumptions C13_floor_u.
Print Assumptions C13_rounding_refuted.
Print Assumptions C14_next_multiple_u.
Print Assumptions C14_next_multiple_s.
Print Assumptions C14_zero.
Print Assumptions C14_is_multiple_of.
Print Assumptions C14_multiples_refuted.
Print Assumptions C34_checked_ilog_u_partial.
Print Assumptions C34_checked_ilog_short.
Print Assumptions C34_checked_ilog_s.
Print Assumptions C34_checked_ilog_none.
Print Assumptions C34_below_base.
Print Assumptions C34_base_one_diverges.
Print Assumptions C34_checked_ilog_refuted.
Print Assumptions C34_checked_ilog_panic_refuted.
