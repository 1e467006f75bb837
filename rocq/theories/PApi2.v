(** * Proofs about MApi.v: checked and overflowing forms, Euclidean division,
      rounding, multiples *)

Require Import ZArith List Bool Lia.
From Verif Require Import Prim Spec Facts MAdd PAdd MMul MShift MCore PCore PBits PWide MArith PArith PArith2 PPow PMisc
  MDiv DivSpec PDiv PKnuth PDivFull MApi PApi.
Import ListNotations.
Local Open Scope Z_scope.

Section P.
Context {c : Cfg}.
Hypothesis HV : Valid.
Local Notation W0 := (W_nonneg HV).

(** ** When the checked forms refuse *)

Definition dovf (sg : bool) (x y : Z) : bool := sg && (x =? - 2 ^ (BITS - 1)) && (y =? -1).
Definition dnone (sg : bool) (x y : Z) : bool := (y =? 0) || dovf sg x y.

Lemma eqb_ofZ : forall sg x v, wf x -> fits sg v -> (uval x =? uval (ofZ v)) = (val sg x =? v).
Proof.
  intros sg x v Hx Hv. rewrite <- (val_ofZ_small HV sg v Hv) at 2.
  destruct (Z.eqb_spec (val sg x) (val sg (ofZ v))) as [E|E].
  - apply (val_inj HV) in E; auto; [|apply (wf_ofZ HV)]. rewrite E. apply Z.eqb_refl.
  - apply Z.eqb_neq. intros E2. apply E. f_equal. apply (uval_inj HV); auto. apply (wf_ofZ HV).
Qed.
Lemma fits_min : fits true (- 2 ^ (BITS - 1)).
Proof. cbn. unfold fits_s. pose proof (pBh HV). lia. Qed.
Lemma fits_m1 : fits true (-1).
Proof. cbn. unfold fits_s. pose proof (pBh HV). pose proof (pB_big HV). lia. Qed.

Lemma is_div_overflow_ok : forall sg x y, wf x -> wf y -> is_div_overflow sg x y = Ok (dovf sg (val sg x) (val sg y)).
Proof.
  intros [] x y Hx Hy; unfold is_div_overflow; [|reflexivity]. run.
  rewrite !(eqb_ofZ true) by auto using fits_min, fits_m1. reflexivity.
Qed.
Lemma is_div_none_ok : forall sg x y, wf x -> wf y -> is_div_none sg x y = Ok (dnone sg (val sg x) (val sg y)).
Proof.
  intros sg x y Hx Hy. unfold is_div_none. run. 
  replace (uval y =? 0) with (val sg y =? 0).
  2:{ rewrite <- (eqb_ofZ sg y 0) by (auto; apply (fits_0 HV)). rewrite (uval_lit HV) by lia. reflexivity. }
  unfold dnone. destruct sg.
  - destruct (Z.eqb_spec (val true y) 0); cbn [orb]; auto. apply is_div_overflow_ok; auto.
  - unfold dovf. cbn [andb]. rewrite orb_false_r. reflexivity.
Qed.

Definition lift_o (o : option Z) : res (option (list Z)) := match o with Some v => Ok (Some (ofZ v)) | None => Panic end.
Definition chko (sg : bool) (x y : Z) (o : option Z) : res (option (list Z)) :=
  if dnone sg x y then Ok None else lift_o o.
Lemma checked_by_ok : forall sg x y m o, wf x -> wf y -> m = lift1 o ->
  checked_by sg x y m = chko sg (val sg x) (val sg y) o.
Proof.
  intros sg x y m o Hx Hy ->. unfold checked_by, chko. rewrite is_div_none_ok by auto. cbn [bind].
  destruct (dnone _ _ _); auto. destruct o; reflexivity.
Qed.
Lemma unwrap_chko : forall sg x y o, unwrap (chko sg x y o) = if dnone sg x y then Panic else lift1 o.
Proof. intros. unfold chko. destruct (dnone _ _ _); auto. destruct o; reflexivity. Qed.

(** ** Euclidean division *)

Definition eq_of (y : Z) (qr : Z * Z) : Z :=
  if snd qr <? 0 then (if 0 <? y then fst qr - 1 else fst qr + 1) else fst qr.
Definition er_of (y : Z) (qr : Z * Z) : Z := if snd qr <? 0 then snd qr + Z.abs y else snd qr.

(** The remainder of a signed division never looks like the other sign. *)
Lemma soutcome_rfits : forall x y q r, fits_s BITS x -> fits_s BITS y -> soutcome x y = Some (q, r) -> fits_s BITS r.
Proof.
  intros x y q r Hx Hy E. unfold fits_s in *. pose proof (pBhalf HV). pose proof (pBh HV).
  destruct (Z.eq_dec y 0) as [->|Hy0].
  { rewrite soutcome_0 in E. destruct (x =? 0); inversion E; subst. lia. }
  unfold soutcome in E. destruct (div_outcome W N (Z.abs x) (Z.abs y)) as [[q' r']|] eqn:D; [|discriminate].
  destruct (outcome_range HV (Z.abs x) (Z.abs y) q' r' ltac:(lia) ltac:(lia) D) as (R1 & R2).
  specialize (R2 ltac:(lia) ltac:(lia)). inversion E; subst. destruct (x <? 0); lia.
Qed.
Lemma sval_ofZ_fits : forall v, fits_s BITS v -> sval (ofZ v) = v.
Proof. intros v H. apply (val_ofZ_small HV true); auto. Qed.

Lemma fitsU1 : fits_u W 1.
Proof. apply (fits_u_small HV). lia. Qed.

Lemma s_wrapping_div_euclid_ok : forall x y, wf x -> wf y ->
  s_wrapping_div_euclid x y = lift1 (option_map (eq_of (sval y)) (soutcome (sval x) (sval y))).
Proof.
  intros x y Hx Hy. unfold s_wrapping_div_euclid. rewrite (wrapping_div_rem_ok HV) by auto. cbn [val].
  destruct (soutcome _ _) as [[q r]|] eqn:E; cbn [lift_qr bind option_map lift1]; auto.
  pose proof (soutcome_rfits _ _ _ _ (sval_range HV x Hx) (sval_range HV y Hy) E) as Fr.
  run. rewrite sval_ofZ_fits by auto. unfold eq_of. cbn [fst snd].
  destruct (r <? 0); auto. destruct (0 <? sval y).
  - rewrite (val_ofZ HV), (ofZ_sub_l HV). reflexivity.
  - rewrite (val_ofZ HV), (ofZ_add_l HV). reflexivity.
Qed.
Lemma s_wrapping_rem_euclid_ok : forall x y, wf x -> wf y ->
  s_wrapping_rem_euclid x y = lift1 (option_map (er_of (sval y)) (soutcome (sval x) (sval y))).
Proof.
  intros x y Hx Hy. unfold s_wrapping_rem_euclid. rewrite (wrapping_rem_ok HV) by auto. unfold sr. cbn [val].
  destruct (soutcome _ _) as [[q r]|] eqn:E; cbn [lift1 bind option_map snd]; auto.
  pose proof (soutcome_rfits _ _ _ _ (sval_range HV x Hx) (sval_range HV y Hy) E) as Fr.
  run. rewrite sval_ofZ_fits by auto. unfold er_of. cbn [fst snd].
  destruct (r <? 0); auto. rewrite !(val_ofZ HV), (ofZ_add_l HV), (ofZ_add_r HV). reflexivity.
Qed.

Lemma euclid_num : forall x y, y <> 0 ->
  eq_of y (Z.quot x y, Z.rem x y) = Z.sgn y * (x / Z.abs y) /\ er_of y (Z.quot x y, Z.rem x y) = x mod Z.abs y.
Proof.
  intros x y Hy. unfold eq_of, er_of. cbn [fst snd].
  pose proof (Z.quot_rem' x y) as E. pose proof (Z.rem_bound_abs x y Hy) as R.
  set (q := Z.quot x y) in *. set (r := Z.rem x y) in *. clearbody q r.
  destruct (Z.ltb_spec r 0).
  - destruct (Z.ltb_spec 0 y).
    + rewrite Z.sgn_pos, Z.abs_eq in * by lia. rewrite <- (Z.div_unique x y (q - 1) (r + y)) by lia.
      rewrite <- (Z.mod_unique x y (q - 1) (r + y)) by lia. lia.
    + rewrite Z.sgn_neg, Z.abs_neq in * by lia. rewrite <- (Z.div_unique x (- y) (- (q + 1)) (r + - y)) by lia.
      rewrite <- (Z.mod_unique x (- y) (- (q + 1)) (r + - y)) by lia. lia.
  - destruct (Z.ltb_spec 0 y).
    + rewrite Z.sgn_pos, Z.abs_eq in * by lia. rewrite <- (Z.div_unique x y q r) by lia.
      rewrite <- (Z.mod_unique x y q r) by lia. lia.
    + rewrite Z.sgn_neg, Z.abs_neq in * by lia. rewrite <- (Z.div_unique x (- y) (- q) r) by lia.
      rewrite <- (Z.mod_unique x (- y) (- q) r) by lia. lia.
Qed.

Definition esq (sg : bool) (x y : Z) : option Z := if sg then option_map (eq_of y) (soutcome x y) else sq x y.
Definition esr (sg : bool) (x y : Z) : option Z := if sg then option_map (er_of y) (soutcome x y) else sr x y.
Lemma wrapping_div_euclid_ok : forall sg x y, wf x -> wf y ->
  wrapping_div_euclid sg x y = lift1 (esq sg (val sg x) (val sg y)).
Proof. intros [] x y Hx Hy; cbn; [apply s_wrapping_div_euclid_ok|apply (wrapping_div_ok HV false)]; auto. Qed.
Lemma wrapping_rem_euclid_ok : forall sg x y, wf x -> wf y ->
  wrapping_rem_euclid sg x y = lift1 (esr sg (val sg x) (val sg y)).
Proof. intros [] x y Hx Hy; cbn; [apply s_wrapping_rem_euclid_ok|apply (wrapping_rem_ok HV false)]; auto. Qed.
Lemma esq_exact : forall sg x y, y <> 0 -> (sg = false -> 0 <= x /\ 0 <= y) -> exact_division W N (Z.abs x) (Z.abs y) ->
  esq sg x y = Some (Z.sgn y * (x / Z.abs y)) /\ esr sg x y = Some (x mod Z.abs y).
Proof.
  intros sg x y Hy Hs HU. unfold esq, esr, sq, sr. rewrite soutcome_exact by auto. cbn [option_map fst snd].
  destruct (euclid_num x y Hy) as (-> & ->). destruct sg; auto. destruct (Hs eq_refl).
  rewrite Z.quot_div_nonneg, Z.rem_mod_nonneg, Z.abs_eq, Z.sgn_pos by lia. split; f_equal. lia.
Qed.

(** ** All the forms *)

Lemma checked_div_ok : forall sg x y, wf x -> wf y ->
  checked_div sg x y = chko sg (val sg x) (val sg y) (sq (val sg x) (val sg y)).
Proof. intros. apply checked_by_ok; auto. apply (wrapping_div_ok HV); auto. Qed.
Lemma checked_rem_ok : forall sg x y, wf x -> wf y ->
  checked_rem sg x y = chko sg (val sg x) (val sg y) (sr (val sg x) (val sg y)).
Proof. intros. apply checked_by_ok; auto. apply (wrapping_rem_ok HV); auto. Qed.
Lemma checked_div_euclid_ok : forall sg x y, wf x -> wf y ->
  checked_div_euclid sg x y = chko sg (val sg x) (val sg y) (esq sg (val sg x) (val sg y)).
Proof. intros. apply checked_by_ok; auto. apply wrapping_div_euclid_ok; auto. Qed.
Lemma checked_rem_euclid_ok : forall sg x y, wf x -> wf y ->
  checked_rem_euclid sg x y = chko sg (val sg x) (val sg y) (esr sg (val sg x) (val sg y)).
Proof. intros. apply checked_by_ok; auto. apply wrapping_rem_euclid_ok; auto. Qed.
Lemma checked_div_rem_ok : forall sg x y, wf x -> wf y ->
  checked_div_rem sg x y = if dnone sg (val sg x) (val sg y) then Ok None else
    match soutcome (val sg x) (val sg y) with Some (q, r) => Ok (Some (ofZ q, ofZ r)) | None => Panic end.
Proof.
  intros. unfold checked_div_rem, checked_by. rewrite is_div_none_ok, (wrapping_div_rem_ok HV) by auto. cbn [bind].
  destruct (dnone _ _ _); auto. destruct (soutcome _ _) as [[q r]|]; reflexivity.
Qed.

(** the operators and strict forms *)
Definition opd (sg : bool) (x y : Z) (o : option Z) : res (list Z) :=
  if chk && dnone sg x y then Panic else lift1 o.
Lemma opd_eq : forall sg x y o, (if negb chk then lift1 o else unwrap (chko sg x y o)) = opd sg x y o.
Proof. intros. unfold opd. destruct chk; cbn [negb andb]; auto. apply unwrap_chko. Qed.
Lemma op_div_ok : forall sg x y, wf x -> wf y ->
  op_div sg x y = opd sg (val sg x) (val sg y) (sq (val sg x) (val sg y)).
Proof. intros. unfold op_div. rewrite (wrapping_div_ok HV), checked_div_ok by auto. apply opd_eq. Qed.
Lemma op_rem_ok : forall sg x y, wf x -> wf y ->
  op_rem sg x y = opd sg (val sg x) (val sg y) (sr (val sg x) (val sg y)).
Proof. intros. unfold op_rem. rewrite (wrapping_rem_ok HV), checked_rem_ok by auto. apply opd_eq. Qed.
Lemma div_euclid_ok : forall sg x y, wf x -> wf y ->
  div_euclid sg x y = opd sg (val sg x) (val sg y) (esq sg (val sg x) (val sg y)).
Proof. intros. unfold div_euclid. rewrite wrapping_div_euclid_ok, checked_div_euclid_ok by auto. apply opd_eq. Qed.
Lemma rem_euclid_ok : forall sg x y, wf x -> wf y ->
  rem_euclid sg x y = opd sg (val sg x) (val sg y) (esr sg (val sg x) (val sg y)).
Proof.
  intros sg x y Hx Hy. unfold rem_euclid. rewrite checked_rem_euclid_ok by auto.
  rewrite <- opd_eq. destruct sg; [rewrite wrapping_rem_euclid_ok by auto; reflexivity|].
  rewrite (wrapping_rem_ok HV) by auto. reflexivity.
Qed.
Lemma div_rem_ok : forall sg x y, wf x -> wf y ->
  div_rem sg x y = if chk && dnone sg (val sg x) (val sg y) then Panic else lift_qr (soutcome (val sg x) (val sg y)).
Proof.
  intros sg x y Hx Hy. unfold div_rem. rewrite (wrapping_div_rem_ok HV), checked_div_rem_ok by auto.
  destruct chk; cbn [negb andb]; auto. destruct (dnone _ _ _); auto. destruct (soutcome _ _) as [[q r]|]; reflexivity.
Qed.
Lemma strict_div_ok : forall sg x y, wf x -> wf y ->
  strict_div sg x y = if dnone sg (val sg x) (val sg y) then Panic else lift1 (sq (val sg x) (val sg y)).
Proof. intros. unfold strict_div. rewrite checked_div_ok by auto. apply unwrap_chko. Qed.
Lemma strict_rem_ok : forall sg x y, wf x -> wf y ->
  strict_rem sg x y = if dnone sg (val sg x) (val sg y) then Panic else lift1 (sr (val sg x) (val sg y)).
Proof. intros. unfold strict_rem. rewrite checked_rem_ok by auto. apply unwrap_chko. Qed.
Lemma strict_div_euclid_ok : forall sg x y, wf x -> wf y ->
  strict_div_euclid sg x y = if dnone sg (val sg x) (val sg y) then Panic else lift1 (esq sg (val sg x) (val sg y)).
Proof. intros. unfold strict_div_euclid. rewrite checked_div_euclid_ok by auto. apply unwrap_chko. Qed.
Lemma strict_rem_euclid_ok : forall sg x y, wf x -> wf y ->
  strict_rem_euclid sg x y = if dnone sg (val sg x) (val sg y) then Panic else lift1 (esr sg (val sg x) (val sg y)).
Proof. intros. unfold strict_rem_euclid. rewrite checked_rem_euclid_ok by auto. apply unwrap_chko. Qed.

(** overflowing *)
Definition lift_f (o : option Z) : res (list Z * bool) := match o with Some v => Ok (ofZ v, false) | None => Panic end.
Lemma dovf_min : forall sg x y, wf x -> dovf sg (val sg x) y = true -> ofZ (- 2 ^ (BITS - 1)) = x.
Proof.
  intros sg x y Hx H. unfold dovf in H. apply andb_true_iff in H. destruct H as (H & _). apply andb_true_iff in H.
  destruct H as (-> & H). apply Z.eqb_eq in H. rewrite <- H. apply (ofZ_val HV true); auto.
Qed.
Lemma overflowing_div_ok : forall sg x y, wf x -> wf y ->
  overflowing_div sg x y = if dovf sg (val sg x) (val sg y) then Ok (ofZ (- 2 ^ (BITS - 1)), true)
                           else lift_f (sq (val sg x) (val sg y)).
Proof.
  intros sg x y Hx Hy. unfold overflowing_div. rewrite is_div_overflow_ok by auto. cbn [bind].
  destruct (dovf _ _ _) eqn:D; [rewrite (dovf_min sg x _ Hx D); auto|]. rewrite (wrapping_div_ok HV) by auto. destruct (sq _ _); reflexivity.
Qed.
Lemma overflowing_div_euclid_ok : forall sg x y, wf x -> wf y ->
  overflowing_div_euclid sg x y = if dovf sg (val sg x) (val sg y) then Ok (ofZ (- 2 ^ (BITS - 1)), true)
                           else lift_f (esq sg (val sg x) (val sg y)).
Proof.
  intros sg x y Hx Hy. unfold overflowing_div_euclid. rewrite is_div_overflow_ok by auto. cbn [bind].
  destruct (dovf _ _ _) eqn:D; [rewrite (dovf_min sg x _ Hx D); auto|]. rewrite wrapping_div_euclid_ok by auto. destruct (esq _ _ _); reflexivity.
Qed.
Lemma ovf_rem_eq : forall sg x y, wf x -> dovf sg (val sg x) y = true ->
  (let* z := from_u8 0 in let* m := s_min_value in let* b := eq_const x m in Ok (z, b)) = Ok (ofZ 0, true).
Proof.
  intros sg x y Hx D. run. rewrite (dovf_min sg x y Hx D). rewrite Z.eqb_refl. reflexivity.
Qed.
Lemma overflowing_rem_ok : forall sg x y, wf x -> wf y ->
  overflowing_rem sg x y = if dovf sg (val sg x) (val sg y) then Ok (ofZ 0, true)
                           else lift_f (sr (val sg x) (val sg y)).
Proof.
  intros sg x y Hx Hy. unfold overflowing_rem. rewrite is_div_overflow_ok by auto. cbn [bind].
  destruct (dovf _ _ _) eqn:D; [apply (ovf_rem_eq sg x _ Hx D)|]. rewrite (wrapping_rem_ok HV) by auto. destruct (sr _ _); reflexivity.
Qed.
Lemma overflowing_rem_euclid_ok : forall sg x y, wf x -> wf y ->
  overflowing_rem_euclid sg x y = if dovf sg (val sg x) (val sg y) then Ok (ofZ 0, true)
                           else lift_f (esr sg (val sg x) (val sg y)).
Proof.
  intros sg x y Hx Hy. unfold overflowing_rem_euclid. rewrite is_div_overflow_ok by auto. cbn [bind].
  destruct (dovf _ _ _) eqn:D; [apply (ovf_rem_eq sg x _ Hx D)|]. rewrite wrapping_rem_euclid_ok by auto. destruct (esr _ _ _); reflexivity.
Qed.
Lemma overflowing_div_rem_ok : forall sg x y, wf x -> wf y ->
  overflowing_div_rem sg x y = if dovf sg (val sg x) (val sg y) then Ok (ofZ (- 2 ^ (BITS - 1)), ofZ 0, true)
    else match soutcome (val sg x) (val sg y) with Some (q, r) => Ok (ofZ q, ofZ r, false) | None => Panic end.
Proof.
  intros sg x y Hx Hy. unfold overflowing_div_rem. rewrite is_div_overflow_ok by auto. cbn [bind].
  destruct (dovf _ _ _) eqn:D; [run; rewrite (dovf_min sg x _ Hx D); reflexivity|].
  rewrite (wrapping_div_rem_ok HV) by auto. destruct (soutcome _ _) as [[q r]|]; reflexivity.
Qed.
Lemma saturating_div_ok : forall sg x y, wf x -> wf y ->
  saturating_div sg x y = if dovf sg (val sg x) (val sg y) then Ok (ofZ (2 ^ (BITS - 1) - 1)) else lift1 (sq (val sg x) (val sg y)).
Proof.
  intros [] x y Hx Hy; unfold saturating_div.
  - rewrite overflowing_div_ok by auto. destruct (dovf _ _ _); cbn [bind]; [run; reflexivity|]. destruct (sq _ _); reflexivity.
  - rewrite (wrapping_div_ok HV) by auto. reflexivity.
Qed.
End P.
