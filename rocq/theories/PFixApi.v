(** * Proofs about the division family over a corrected division (MFix.v)

    [dr] is any [wrapping_div_rem] that truncates and panics on a zero
    divisor; [fix_wrapping_div_rem] is one. *)

Require Import ZArith List Bool Lia.
From Verif Require Import Prim Spec Facts MAdd PAdd MMul MShift MCore PCore PBits PWide MArith PArith PArith2 PPow PMisc
  MDiv DivSpec PDiv PKnuth PDivFull MApi PApi PApi2 PApi3 PIlog MFix PFixDiv.
Import ListNotations.
Local Open Scope Z_scope.

Section P.
Context {c : Cfg}.
Hypothesis HV : Valid.
Local Notation W0 := (W_nonneg HV).

(** Truncated division, [None] for a zero divisor. *)
Definition tdiv (x y : Z) : option (Z * Z) := if y =? 0 then None else Some (Z.quot x y, Z.rem x y).
Definition tq (x y : Z) := option_map fst (tdiv x y).
Definition tr (x y : Z) := option_map snd (tdiv x y).
Lemma tdiv_nz : forall x y, y <> 0 -> tdiv x y = Some (Z.quot x y, Z.rem x y).
Proof. intros x y H. unfold tdiv. destruct (Z.eqb_spec y 0); auto; contradiction. Qed.
Lemma tdiv_rfits : forall x y q r, fits_s BITS x -> fits_s BITS y -> tdiv x y = Some (q, r) -> fits_s BITS r.
Proof.
  intros x y q r Hx Hy E. unfold tdiv in E. destruct (Z.eqb_spec y 0) as [|H0]; inversion E; subst. apply s_mod_facts; auto.
Qed.

(** ** The corrected array division gives a corrected [wrapping_div_rem] *)
Lemma fix_full_ok : forall x y, wf x -> wf y ->
  fix_div_full x y = if uval y =? 0 then Panic else Ok (ofZ (uval x / uval y), ofZ (uval x mod uval y)).
Proof.
  intros x y (Lx & Dx) (Ly & Dy). pose proof (N_ge4 HV). unfold uval.
  rewrite (fix_div_full_ok (HW2 HV)) by (auto; lia). rewrite Lx, Ly. reflexivity.
Qed.
Lemma fix_wrapping_div_rem_ok : forall sg x y, wf x -> wf y ->
  fix_wrapping_div_rem sg x y = lift_qr (tdiv (val sg x) (val sg y)).
Proof.
  intros sg x y Hx Hy. unfold fix_wrapping_div_rem, d_wrapping_div_rem, tdiv. destruct sg; cbn [val].
  - unfold d_s_wrapping_div_rem. run. rewrite fix_full_ok by apply (wf_ofZ HV). rewrite !(uval_abs HV) by auto.
    destruct (Z.eqb_spec (sval y) 0) as [E|E].
    { rewrite E. reflexivity. }
    destruct (Z.eqb_spec (Z.abs (sval y)) 0); [lia|]. cbn [bind].
    destruct (quot_rem_signs (sval x) (sval y) E) as (-> & ->).
    unfold as_signed. repeat (rewrite (mk_ok HV); cbn [bind]).
    destruct (sval x <? 0), (sval y <? 0); cbn [eqb negb xorb bind]; rewrite ?(neg_ofZ HV); cbn [bind]; rewrite ?(neg_ofZ HV); reflexivity.
  - unfold d_u_wrapping_div_rem. rewrite fix_full_ok by auto. destruct (Z.eqb_spec (uval y) 0); [reflexivity|]. cbn [bind].
    repeat (rewrite (mk_ok HV); cbn [bind]). cbn [lift_qr].
    pose proof (uval_range HV x Hx). pose proof (uval_range HV y Hy).
    rewrite Z.quot_div_nonneg, Z.rem_mod_nonneg by lia. reflexivity.
Qed.

Section D.
Variable dr : bool -> list Z -> list Z -> res (list Z * list Z).
Hypothesis Hdr : forall sg x y, wf x -> wf y -> dr sg x y = lift_qr (tdiv (val sg x) (val sg y)).

Lemma d_wrapping_div_ok : forall sg x y, wf x -> wf y -> d_wrapping_div dr sg x y = lift1 (tq (val sg x) (val sg y)).
Proof.
  intros sg x y Hx Hy. unfold d_wrapping_div. rewrite Hdr by auto. unfold tq. destruct (tdiv _ _) as [[q r]|]; reflexivity.
Qed.
Lemma d_wrapping_rem_ok : forall sg x y, wf x -> wf y -> d_wrapping_rem dr sg x y = lift1 (tr (val sg x) (val sg y)).
Proof.
  intros sg x y Hx Hy. unfold d_wrapping_rem. rewrite Hdr by auto. unfold tr. destruct (tdiv _ _) as [[q r]|]; reflexivity.
Qed.
Lemma tq_nz : forall x y, y <> 0 -> tq x y = Some (Z.quot x y).
Proof. intros. unfold tq. rewrite tdiv_nz by auto. reflexivity. Qed.
Lemma tr_nz : forall x y, y <> 0 -> tr x y = Some (Z.rem x y).
Proof. intros. unfold tr. rewrite tdiv_nz by auto. reflexivity. Qed.
Lemma d_s_wrapping_div_euclid_ok : forall x y, wf x -> wf y ->
  d_s_wrapping_div_euclid dr x y = lift1 (option_map (eq_of (sval y)) (tdiv (sval x) (sval y))).
Proof.
  intros x y Hx Hy. unfold d_s_wrapping_div_euclid. rewrite Hdr by auto. cbn [val].
  destruct (tdiv _ _) as [[q r]|] eqn:E; cbn [lift_qr bind option_map lift1]; auto.
  pose proof (tdiv_rfits _ _ _ _ (sval_range HV x Hx) (sval_range HV y Hy) E) as Fr.
  run. rewrite (sval_ofZ_fits HV) by auto. unfold eq_of. cbn [fst snd].
  destruct (r <? 0); auto. destruct (0 <? sval y).
  - rewrite (val_ofZ HV), (ofZ_sub_l HV). reflexivity.
  - rewrite (val_ofZ HV), (ofZ_add_l HV). reflexivity.
Qed.
Lemma d_s_wrapping_rem_euclid_ok : forall x y, wf x -> wf y ->
  d_s_wrapping_rem_euclid dr x y = lift1 (option_map (er_of (sval y)) (tdiv (sval x) (sval y))).
Proof.
  intros x y Hx Hy. unfold d_s_wrapping_rem_euclid. rewrite d_wrapping_rem_ok by auto. unfold tr. cbn [val].
  destruct (tdiv _ _) as [[q r]|] eqn:E; cbn [lift1 bind option_map snd]; auto.
  pose proof (tdiv_rfits _ _ _ _ (sval_range HV x Hx) (sval_range HV y Hy) E) as Fr.
  run. rewrite (sval_ofZ_fits HV) by auto. unfold er_of. cbn [fst snd].
  destruct (r <? 0); auto. rewrite !(val_ofZ HV), (ofZ_add_l HV), (ofZ_add_r HV). reflexivity.
Qed.
Definition teq (sg : bool) (x y : Z) : option Z := if sg then option_map (eq_of y) (tdiv x y) else tq x y.
Definition ter (sg : bool) (x y : Z) : option Z := if sg then option_map (er_of y) (tdiv x y) else tr x y.
Lemma teq_nz : forall sg x y, y <> 0 -> (sg = false -> 0 <= x /\ 0 <= y) ->
  teq sg x y = Some (Z.sgn y * (x / Z.abs y)) /\ ter sg x y = Some (x mod Z.abs y).
Proof.
  intros sg x y Hy Hs. unfold teq, ter, tq, tr. rewrite tdiv_nz by auto. cbn [option_map fst snd].
  destruct (euclid_num x y Hy) as (-> & ->). destruct sg; auto. destruct (Hs eq_refl).
  rewrite Z.quot_div_nonneg, Z.rem_mod_nonneg, Z.abs_eq, Z.sgn_pos by lia. split; f_equal. lia.
Qed.
Lemma d_wrapping_div_euclid_ok : forall sg x y, wf x -> wf y ->
  d_wrapping_div_euclid dr sg x y = lift1 (teq sg (val sg x) (val sg y)).
Proof. intros [] x y Hx Hy; cbn; [apply d_s_wrapping_div_euclid_ok|apply (d_wrapping_div_ok false)]; auto. Qed.
Lemma d_wrapping_rem_euclid_ok : forall sg x y, wf x -> wf y ->
  d_wrapping_rem_euclid dr sg x y = lift1 (ter sg (val sg x) (val sg y)).
Proof. intros [] x y Hx Hy; cbn; [apply d_s_wrapping_rem_euclid_ok|apply (d_wrapping_rem_ok false)]; auto. Qed.
Lemma d_checked_div_ok : forall sg x y, wf x -> wf y ->
  d_checked_div dr sg x y = chko sg (val sg x) (val sg y) (tq (val sg x) (val sg y)).
Proof. intros. apply (checked_by_ok HV); auto. apply d_wrapping_div_ok; auto. Qed.
Lemma d_checked_rem_ok : forall sg x y, wf x -> wf y ->
  d_checked_rem dr sg x y = chko sg (val sg x) (val sg y) (tr (val sg x) (val sg y)).
Proof. intros. apply (checked_by_ok HV); auto. apply d_wrapping_rem_ok; auto. Qed.
Lemma d_checked_div_euclid_ok : forall sg x y, wf x -> wf y ->
  d_checked_div_euclid dr sg x y = chko sg (val sg x) (val sg y) (teq sg (val sg x) (val sg y)).
Proof. intros. apply (checked_by_ok HV); auto. apply d_wrapping_div_euclid_ok; auto. Qed.
Lemma d_checked_rem_euclid_ok : forall sg x y, wf x -> wf y ->
  d_checked_rem_euclid dr sg x y = chko sg (val sg x) (val sg y) (ter sg (val sg x) (val sg y)).
Proof. intros. apply (checked_by_ok HV); auto. apply d_wrapping_rem_euclid_ok; auto. Qed.
Lemma d_checked_div_rem_ok : forall sg x y, wf x -> wf y ->
  d_checked_div_rem dr sg x y = if dnone sg (val sg x) (val sg y) then Ok None else
    match tdiv (val sg x) (val sg y) with Some (q, r) => Ok (Some (ofZ q, ofZ r)) | None => Panic end.
Proof.
  intros. unfold d_checked_div_rem, checked_by. rewrite (is_div_none_ok HV), Hdr by auto. cbn [bind].
  destruct (dnone _ _ _); auto. destruct (tdiv _ _) as [[q r]|]; reflexivity.
Qed.
Lemma d_op_div_ok : forall sg x y, wf x -> wf y ->
  d_op_div dr sg x y = opd sg (val sg x) (val sg y) (tq (val sg x) (val sg y)).
Proof. intros. unfold d_op_div. rewrite d_wrapping_div_ok, d_checked_div_ok by auto. apply opd_eq. Qed.
Lemma d_op_rem_ok : forall sg x y, wf x -> wf y ->
  d_op_rem dr sg x y = opd sg (val sg x) (val sg y) (tr (val sg x) (val sg y)).
Proof. intros. unfold d_op_rem. rewrite d_wrapping_rem_ok, d_checked_rem_ok by auto. apply opd_eq. Qed.
Lemma d_div_euclid_ok : forall sg x y, wf x -> wf y ->
  d_div_euclid dr sg x y = opd sg (val sg x) (val sg y) (teq sg (val sg x) (val sg y)).
Proof. intros. unfold d_div_euclid. rewrite d_wrapping_div_euclid_ok, d_checked_div_euclid_ok by auto. apply opd_eq. Qed.
Lemma d_rem_euclid_ok : forall sg x y, wf x -> wf y ->
  d_rem_euclid dr sg x y = opd sg (val sg x) (val sg y) (ter sg (val sg x) (val sg y)).
Proof.
  intros sg x y Hx Hy. unfold d_rem_euclid. rewrite d_checked_rem_euclid_ok by auto.
  rewrite <- opd_eq. destruct sg; [rewrite d_wrapping_rem_euclid_ok by auto; reflexivity|].
  rewrite d_wrapping_rem_ok by auto. reflexivity.
Qed.
Lemma d_div_rem_ok : forall sg x y, wf x -> wf y ->
  d_div_rem dr sg x y = if chk && dnone sg (val sg x) (val sg y) then Panic else lift_qr (tdiv (val sg x) (val sg y)).
Proof.
  intros sg x y Hx Hy. unfold d_div_rem. rewrite Hdr, d_checked_div_rem_ok by auto.
  destruct chk; cbn [negb andb]; auto. destruct (dnone _ _ _); auto. destruct (tdiv _ _) as [[q r]|]; reflexivity.
Qed.
Lemma d_strict_div_ok : forall sg x y, wf x -> wf y ->
  d_strict_div dr sg x y = if dnone sg (val sg x) (val sg y) then Panic else lift1 (tq (val sg x) (val sg y)).
Proof. intros. unfold d_strict_div. rewrite d_checked_div_ok by auto. apply unwrap_chko. Qed.
Lemma d_strict_rem_ok : forall sg x y, wf x -> wf y ->
  d_strict_rem dr sg x y = if dnone sg (val sg x) (val sg y) then Panic else lift1 (tr (val sg x) (val sg y)).
Proof. intros. unfold d_strict_rem. rewrite d_checked_rem_ok by auto. apply unwrap_chko. Qed.
Lemma d_strict_div_euclid_ok : forall sg x y, wf x -> wf y ->
  d_strict_div_euclid dr sg x y = if dnone sg (val sg x) (val sg y) then Panic else lift1 (teq sg (val sg x) (val sg y)).
Proof. intros. unfold d_strict_div_euclid. rewrite d_checked_div_euclid_ok by auto. apply unwrap_chko. Qed.
Lemma d_strict_rem_euclid_ok : forall sg x y, wf x -> wf y ->
  d_strict_rem_euclid dr sg x y = if dnone sg (val sg x) (val sg y) then Panic else lift1 (ter sg (val sg x) (val sg y)).
Proof. intros. unfold d_strict_rem_euclid. rewrite d_checked_rem_euclid_ok by auto. apply unwrap_chko. Qed.
Lemma d_overflowing_div_ok : forall sg x y, wf x -> wf y ->
  d_overflowing_div dr sg x y = if dovf sg (val sg x) (val sg y) then Ok (ofZ (- 2 ^ (BITS - 1)), true)
                           else lift_f (tq (val sg x) (val sg y)).
Proof.
  intros sg x y Hx Hy. unfold d_overflowing_div. rewrite (is_div_overflow_ok HV) by auto. cbn [bind].
  destruct (dovf _ _ _) eqn:D; [rewrite (dovf_min HV sg x _ Hx D); auto|]. rewrite d_wrapping_div_ok by auto. destruct (tq _ _); reflexivity.
Qed.
Lemma d_overflowing_div_euclid_ok : forall sg x y, wf x -> wf y ->
  d_overflowing_div_euclid dr sg x y = if dovf sg (val sg x) (val sg y) then Ok (ofZ (- 2 ^ (BITS - 1)), true)
                           else lift_f (teq sg (val sg x) (val sg y)).
Proof.
  intros sg x y Hx Hy. unfold d_overflowing_div_euclid. rewrite (is_div_overflow_ok HV) by auto. cbn [bind].
  destruct (dovf _ _ _) eqn:D; [rewrite (dovf_min HV sg x _ Hx D); auto|]. rewrite d_wrapping_div_euclid_ok by auto. destruct (teq _ _ _); reflexivity.
Qed.
Lemma d_overflowing_rem_ok : forall sg x y, wf x -> wf y ->
  d_overflowing_rem dr sg x y = if dovf sg (val sg x) (val sg y) then Ok (ofZ 0, true)
                           else lift_f (tr (val sg x) (val sg y)).
Proof.
  intros sg x y Hx Hy. unfold d_overflowing_rem. rewrite (is_div_overflow_ok HV) by auto. cbn [bind].
  destruct (dovf _ _ _) eqn:D; [apply (ovf_rem_eq HV sg x _ Hx D)|]. rewrite d_wrapping_rem_ok by auto. destruct (tr _ _); reflexivity.
Qed.
Lemma d_overflowing_rem_euclid_ok : forall sg x y, wf x -> wf y ->
  d_overflowing_rem_euclid dr sg x y = if dovf sg (val sg x) (val sg y) then Ok (ofZ 0, true)
                           else lift_f (ter sg (val sg x) (val sg y)).
Proof.
  intros sg x y Hx Hy. unfold d_overflowing_rem_euclid. rewrite (is_div_overflow_ok HV) by auto. cbn [bind].
  destruct (dovf _ _ _) eqn:D; [apply (ovf_rem_eq HV sg x _ Hx D)|]. rewrite d_wrapping_rem_euclid_ok by auto. destruct (ter _ _ _); reflexivity.
Qed.
Lemma d_overflowing_div_rem_ok : forall sg x y, wf x -> wf y ->
  d_overflowing_div_rem dr sg x y = if dovf sg (val sg x) (val sg y) then Ok (ofZ (- 2 ^ (BITS - 1)), ofZ 0, true)
    else match tdiv (val sg x) (val sg y) with Some (q, r) => Ok (ofZ q, ofZ r, false) | None => Panic end.
Proof.
  intros sg x y Hx Hy. unfold d_overflowing_div_rem. rewrite (is_div_overflow_ok HV) by auto. cbn [bind].
  destruct (dovf _ _ _) eqn:D; [run; rewrite (dovf_min HV sg x _ Hx D); reflexivity|].
  rewrite Hdr by auto. destruct (tdiv _ _) as [[q r]|]; reflexivity.
Qed.
Lemma d_saturating_div_ok : forall sg x y, wf x -> wf y ->
  d_saturating_div dr sg x y = if dovf sg (val sg x) (val sg y) then Ok (ofZ (2 ^ (BITS - 1) - 1)) else lift1 (tq (val sg x) (val sg y)).
Proof.
  intros [] x y Hx Hy; unfold d_saturating_div.
  - rewrite d_overflowing_div_ok by auto. destruct (dovf _ _ _); cbn [bind]; [run; reflexivity|]. destruct (tq _ _); reflexivity.
  - rewrite d_wrapping_div_ok by auto. reflexivity.
Qed.
Lemma d_s_div_floor_ok : forall x y, wf x -> wf y ->
  d_s_div_floor dr x y = lift1 (option_map (fl_of (sval x) (sval y)) (tdiv (sval x) (sval y))).
Proof.
  intros x y Hx Hy. unfold d_s_div_floor. rewrite Hdr by auto. cbn [val].
  destruct (tdiv _ _) as [[q r]|] eqn:E; cbn [lift_qr bind option_map lift1]; auto.
  pose proof (tdiv_rfits _ _ _ _ (sval_range HV x Hx) (sval_range HV y Hy) E) as Fr.
  rewrite !(is_negative_ok HV) by auto. cbn [bind]. rewrite (from_u8_ok HV) by wfauto. cbn [bind].
  rewrite (eq_const_ok HV) by wfauto. cbn [bind]. rewrite (eqb0 HV true) by wfauto. cbn [val].
  rewrite (sval_ofZ_fits HV) by auto. unfold fl_of. cbn [fst snd].
  destruct (r =? 0); cbn [negb]; auto. rewrite (wrapping_sub_ulimb_ok HV) by wfauto.
  rewrite (val_ofZ HV), (ofZ_sub_l HV). reflexivity.
Qed.
Lemma d_s_div_ceil_ok : forall x y, wf x -> wf y ->
  d_s_div_ceil dr x y = lift1 (option_map (ce_of (sval x) (sval y)) (tdiv (sval x) (sval y))).
Proof.
  intros x y Hx Hy. unfold d_s_div_ceil. rewrite Hdr by auto. cbn [val].
  destruct (tdiv _ _) as [[q r]|] eqn:E; cbn [lift_qr bind option_map lift1]; auto.
  pose proof (sval_range HV x Hx) as Rx. pose proof (sval_range HV y Hy) as Ry.
  pose proof (tdiv_rfits _ _ _ _ Rx Ry E) as Fr.
  rewrite (from_u8_ok HV) by wfauto. cbn [bind]. rewrite (bitxor_ok HV) by auto. cbn [bind].
  rewrite (tbits1 HV). cbn [bind]. rewrite (op_shr_ok HV) by (try lia; wfauto).
  pose proof (BITS_ge HV). pose proof (BITS_lt31 HV).
  assert (S : shift_ok false 32 (BITS - 1) = true).
  { unfold shift_ok. rewrite Z.mod_small by lia. apply andb_true_iff. split; [apply Z.ltb_lt|apply Z.leb_le]; lia. }
  rewrite S, andb_false_r. cbn [bind].
  rewrite (ofZ_lxor_s HV) by auto. cbn [val].
  rewrite (sval_ofZ_fits HV) by (apply lxor_fits_s; auto; lia).
  rewrite (Z.mod_small (BITS - 1) (2 ^ 32)), Z.mod_small by lia. rewrite xor_sign_div by auto.
  rewrite (op_add_ok HV) by wfauto. cbn [val].
  assert (F : forall b, fits_s BITS (- b2z b)).
  { intros []; cbn [b2z]; [apply (fits_m1 HV)|apply (fits_0 HV true)]. }
  rewrite (sval_ofZ_fits HV (- b2z _)), (sval_lit HV) by (auto; lia).
  rewrite op_result_fits.
  2:{ apply (fits_small HV). destruct (xorb _ _); cbn [b2z]; lia. }
  cbn [bind]. rewrite (from_u8_ok HV) by wfauto. cbn [bind]. rewrite (eq_const_ok HV) by wfauto. cbn [bind]. rewrite (eqb0 HV true) by wfauto. cbn [val].
  rewrite (sval_ofZ_fits HV) by auto. unfold ce_of. cbn [fst snd].
  destruct (r =? 0); cbn [negb]; auto. rewrite (wrapping_add_ok HV) by wfauto.
  rewrite !(val_ofZ HV), (ofZ_add_l HV), (ofZ_add_r HV). reflexivity.
Qed.
Lemma d_u_div_ceil_ok : forall x y, wf x -> wf y ->
  d_u_div_ceil dr x y = lift1 (option_map (ce_of (uval x) (uval y)) (tdiv (uval x) (uval y))).
Proof.
  intros x y Hx Hy. unfold d_u_div_ceil. rewrite Hdr by auto. cbn [val].
  pose proof (uval_range HV x Hx) as Rx. pose proof (uval_range HV y Hy) as Ry.
  unfold tdiv. destruct (Z.eqb_spec (uval y) 0) as [|H0]; [reflexivity|]. cbn [lift_qr bind option_map lift1].
  assert (Py : 0 < uval y) by lia. pose proof (Z.mod_pos_bound (uval x) (uval y) Py) as Rm.
  rewrite Z.quot_div_nonneg, Z.rem_mod_nonneg by lia. set (q := uval x / uval y). set (r := uval x mod uval y) in *.
  rewrite (from_u8_ok HV) by wfauto. cbn [bind]. rewrite (eq_const_ok HV) by wfauto. cbn [bind].
  rewrite (eqb0 HV false) by wfauto. rewrite (val_ofZ_small HV false r) by (apply fu; lia).
  unfold ce_of. cbn [fst snd]. destruct (r =? 0); cbn [negb]; auto.
  rewrite (wrapping_add_ulimb_ok HV) by wfauto. rewrite (val_ofZ HV), (ofZ_add_l HV).
  destruct (Z.ltb_spec (uval x) 0); [lia|]. destruct (Z.ltb_spec (uval y) 0); [lia|]. reflexivity.
Qed.
Lemma d_u_next_multiple_of_ok : forall x y, wf x -> wf y -> uval y <> 0 ->
  d_u_next_multiple_of dr x y = op_result false (nm (uval x) (uval y)).
Proof.
  intros x y Hx Hy Hy0. pose proof (uval_range HV x Hx) as Rx. pose proof (uval_range HV y Hy) as Ry.
  unfold d_u_next_multiple_of. rewrite d_op_rem_ok by auto. cbn [val].
  rewrite tr_nz by auto. unfold opd, dnone, dovf. cbn [andb orb].
  destruct (Z.eqb_spec (uval y) 0); [lia|]. cbn [orb andb]. rewrite andb_false_r. cbn [lift1 bind].
  rewrite Z.rem_mod_nonneg by lia. assert (Py : 0 < uval y) by lia. pose proof (Z.mod_pos_bound (uval x) (uval y) Py) as Rm.
  rewrite (u_min_value_ok HV). cbn [bind]. rewrite (derived_eq_ok HV) by wfauto. rewrite (eqb0 HV false) by wfauto.
  rewrite (val_ofZ_small HV false (uval x mod uval y)) by (apply fu; lia). unfold nm.
  destruct (uval x mod uval y =? 0).
  - rewrite op_result_fits by exact Rx. rewrite (ofZ_uv HV) by auto. reflexivity.
  - rewrite (op_sub_ok HV) by wfauto. cbn [val]. change (uval (ofZ (uval x mod uval y))) with (val false (ofZ (uval x mod uval y))).
    rewrite (val_ofZ_small HV false (uval x mod uval y)) by (apply fu; lia).
    rewrite op_result_fits by (apply fu; lia). cbn [bind]. rewrite (op_add_ok HV) by wfauto.
    rewrite (val_ofZ_small HV false (uval y - uval x mod uval y)) by (apply fu; lia). reflexivity.
Qed.
Lemma d_u_checked_next_multiple_of_ok : forall x y, wf x -> wf y ->
  d_u_checked_next_multiple_of dr x y =
  Ok (if uval y =? 0 then None else some_if (fitsb false (nm (uval x) (uval y))) (nm (uval x) (uval y))).
Proof.
  intros x y Hx Hy. pose proof (uval_range HV x Hx) as Rx. pose proof (uval_range HV y Hy) as Ry.
  unfold d_u_checked_next_multiple_of. rewrite d_checked_rem_ok by auto. cbn [val]. unfold chko, dnone, dovf. cbn [andb].
  rewrite orb_false_r. destruct (Z.eqb_spec (uval y) 0); [reflexivity|].
  rewrite tr_nz by auto. cbn [lift_o bind].
  rewrite Z.rem_mod_nonneg by lia. assert (Py : 0 < uval y) by lia. pose proof (Z.mod_pos_bound (uval x) (uval y) Py) as Rm.
  rewrite (u_min_value_ok HV). cbn [bind]. rewrite (derived_eq_ok HV) by wfauto. rewrite (eqb0 HV false) by wfauto.
  rewrite (val_ofZ_small HV false (uval x mod uval y)) by (apply fu; lia). unfold nm.
  destruct (uval x mod uval y =? 0).
  - destruct (fitsb_reflect false (uval x)) as [F|F]; [|exfalso; apply F; exact Rx]. unfold some_if. rewrite (ofZ_uv HV) by auto. reflexivity.
  - rewrite (wrapping_sub_ok HV) by wfauto. cbn [bind val]. change (uval (ofZ (uval x mod uval y))) with (val false (ofZ (uval x mod uval y))).
    rewrite (val_ofZ_small HV false (uval x mod uval y)) by (apply fu; lia).
    rewrite (checked_add_ok HV) by wfauto. rewrite (val_ofZ_small HV false (uval y - uval x mod uval y)) by (apply fu; lia). reflexivity.
Qed.
Lemma d_u_is_multiple_of_ok : forall x y, wf x -> wf y ->
  d_u_is_multiple_of dr x y = Ok (if uval y =? 0 then uval x =? 0 else uval x mod uval y =? 0).
Proof.
  intros x y Hx Hy. pose proof (uval_range HV x Hx) as Rx. pose proof (uval_range HV y Hy) as Ry.
  unfold d_u_is_multiple_of. rewrite (u_min_value_ok HV). cbn [bind]. rewrite (derived_eq_ok HV) by wfauto.
  rewrite (eqb0 HV false) by auto. cbn [val]. destruct (Z.eqb_spec (uval y) 0).
  - rewrite (eq_const_ok HV) by wfauto. rewrite (eqb0 HV false) by auto. reflexivity.
  - rewrite d_wrapping_rem_ok by auto. cbn [val]. rewrite tr_nz by auto. cbn [lift1 bind].
    rewrite Z.rem_mod_nonneg by lia. assert (Py : 0 < uval y) by lia. pose proof (Z.mod_pos_bound (uval x) (uval y) Py) as Rm.
    rewrite (eq_const_ok HV) by wfauto. rewrite (eqb0 HV false) by wfauto.
    rewrite (val_ofZ_small HV false (uval x mod uval y)) by (apply fu; lia). reflexivity.
Qed.
Lemma d_s_next_multiple_of_ok : forall x y, wf x -> wf y -> sval y <> 0 ->
  d_s_next_multiple_of dr x y = op_result true (nm (sval x) (sval y)).
Proof.
  intros x y Hx Hy H0. pose proof (sval_range HV x Hx) as Rx. pose proof (sval_range HV y Hy) as Ry.
  unfold d_s_next_multiple_of. rewrite (from_i8_ok HV) by wfauto. cbn [bind]. rewrite (eq_const_ok HV) by wfauto. cbn [bind].
  rewrite (eqb_ofZ HV true) by (auto; apply (fits_m1 HV)). cbn [val].
  destruct (Z.eqb_spec (sval y) (-1)) as [E|E].
  { rewrite E, nm_m1, op_result_fits by exact Rx. rewrite (ofZ_sval HV) by auto. reflexivity. }
  rewrite (from_u8_ok HV) by wfauto. cbn [bind]. rewrite d_op_rem_ok by auto. cbn [val].
  rewrite tr_nz by auto. unfold opd. rewrite dnone_m1, andb_false_r by auto. cbn [lift1 bind].
  destruct (s_mod_facts _ _ Rx Ry H0) as (F1 & F2 & F3).
  rewrite (gt_const_ok HV) by wfauto. cbn [bind val]. rewrite (lt_const_ok HV) by wfauto. cbn [bind val].
  rewrite (lt_const_ok HV) by wfauto. cbn [bind val]. rewrite (gt_const_ok HV) by wfauto. cbn [bind val].
  rewrite !(sval_ofZ_fits HV (Z.rem _ _)), !(sval_lit HV 0) by (auto; lia).
  assert (M : (if ((0 <? Z.rem (sval x) (sval y)) && (sval y <? 0)) || ((Z.rem (sval x) (sval y) <? 0) && (0 <? sval y))
               then op_add true (ofZ (Z.rem (sval x) (sval y))) y else Ok (ofZ (Z.rem (sval x) (sval y)))) = Ok (ofZ (sval x mod sval y))).
  { pose proof (mod_of_rem (sval x) (sval y) H0) as MR. destruct (_ || _).
    - rewrite (op_add_ok HV) by wfauto. cbn [val]. rewrite (sval_ofZ_fits HV) by auto. rewrite <- MR.
      apply op_result_fits. exact F2.
    - rewrite MR. reflexivity. }
  rewrite M. cbn [bind]. rewrite (eq_const_ok HV) by wfauto. cbn [bind]. rewrite (eqb0 HV true) by wfauto. cbn [val].
  rewrite (sval_ofZ_fits HV) by auto. unfold nm. destruct (sval x mod sval y =? 0).
  - rewrite op_result_fits by exact Rx. rewrite (ofZ_sval HV) by auto. reflexivity.
  - rewrite (op_sub_ok HV) by wfauto. cbn [val]. rewrite (sval_ofZ_fits HV) by auto. rewrite op_result_fits by exact F3.
    cbn [bind]. rewrite (op_add_ok HV) by wfauto. cbn [val]. rewrite (sval_ofZ_fits HV) by auto. reflexivity.
Qed.
Lemma d_s_checked_next_multiple_of_ok : forall x y, wf x -> wf y ->
  d_s_checked_next_multiple_of dr x y =
  Ok (if sval y =? 0 then None else some_if (fitsb true (nm (sval x) (sval y))) (nm (sval x) (sval y))).
Proof.
  intros x y Hx Hy. pose proof (sval_range HV x Hx) as Rx. pose proof (sval_range HV y Hy) as Ry.
  unfold d_s_checked_next_multiple_of. rewrite (from_i8_ok HV) by wfauto. cbn [bind]. rewrite (eq_const_ok HV) by wfauto. cbn [bind].
  rewrite (eqb_ofZ HV true) by (auto; apply (fits_m1 HV)). cbn [val].
  assert (FX : fitsb true (sval x) = true) by (apply fitsb_spec; exact Rx).
  destruct (Z.eqb_spec (sval y) (-1)) as [E|E].
  { rewrite E, nm_m1. cbn [Z.eqb]. rewrite FX. unfold some_if. rewrite (ofZ_sval HV) by auto. reflexivity. }
  rewrite (from_u8_ok HV) by wfauto. cbn [bind]. rewrite d_checked_rem_ok by auto. cbn [val]. unfold chko.
  destruct (Z.eqb_spec (sval y) 0) as [E0|H0].
  { unfold dnone. rewrite E0. reflexivity. }
  rewrite dnone_m1 by auto. rewrite tr_nz by auto. cbn [lift_o bind].
  destruct (s_mod_facts _ _ Rx Ry H0) as (F1 & F2 & F3).
  rewrite (is_positive_ok HV) by wfauto. cbn [bind]. rewrite (is_negative_ok HV) by wfauto. cbn [bind].
  rewrite (is_negative_ok HV) by wfauto. cbn [bind]. rewrite (is_positive_ok HV) by wfauto. cbn [bind].
  rewrite ?(sval_ofZ_fits HV (Z.rem _ _)) by auto.
  assert (M : (if ((0 <? Z.rem (sval x) (sval y)) && (sval y <? 0)) || ((Z.rem (sval x) (sval y) <? 0) && (0 <? sval y))
               then op_add true (ofZ (Z.rem (sval x) (sval y))) y else Ok (ofZ (Z.rem (sval x) (sval y)))) = Ok (ofZ (sval x mod sval y))).
  { pose proof (mod_of_rem (sval x) (sval y) H0) as MR. destruct (_ || _).
    - rewrite (op_add_ok HV) by wfauto. cbn [val]. rewrite (sval_ofZ_fits HV) by auto. rewrite <- MR.
      apply op_result_fits. exact F2.
    - rewrite MR. reflexivity. }
  rewrite M. cbn [bind]. rewrite (eq_const_ok HV) by wfauto. cbn [bind]. rewrite (eqb0 HV true) by wfauto. cbn [val].
  rewrite (sval_ofZ_fits HV) by auto. unfold nm. destruct (sval x mod sval y =? 0).
  - rewrite FX. unfold some_if. rewrite (ofZ_sval HV) by auto. reflexivity.
  - rewrite (op_sub_ok HV) by wfauto. cbn [val]. rewrite (sval_ofZ_fits HV) by auto. rewrite op_result_fits by exact F3.
    cbn [bind]. rewrite (checked_add_ok HV) by wfauto. cbn [val]. rewrite (sval_ofZ_fits HV) by auto. reflexivity.
Qed.

(** ** Logarithm *)
Lemma d_u_op_div_ok : forall x y, wf x -> wf y -> uval y <> 0 -> d_op_div dr false x y = Ok (ofZ (uval x / uval y)).
Proof.
  intros x y Hx Hy H0. pose proof (uval_range HV x Hx) as Rx. pose proof (uval_range HV y Hy) as Ry.
  rewrite d_op_div_ok by auto. cbn [val]. unfold opd, dnone, dovf. cbn [andb].
  destruct (Z.eqb_spec (uval y) 0); [contradiction|]. rewrite andb_false_r. rewrite tq_nz by auto.
  rewrite Z.quot_div_nonneg by lia. reflexivity.
Qed.
Lemma d_ilog_loop_ok : forall x b, wf x -> wf b -> 2 <= uval b ->
  forall fuel n, 0 <= n -> uval b ^ n <= uval x -> Z.log2 (uval x) < n + Z.of_nat fuel ->
  exists k, d_ilog_loop dr fuel x b n (ofZ (uval b ^ n)) = Ok k /\ 0 <= k < BITS /\ uval b ^ k <= uval x < uval b ^ (k + 1).
Proof.
  intros x b Hx Hb Hb2. pose proof (uval_range HV x Hx) as Rx. pose proof (uval_range HV b Hb) as Rb.
  assert (B0 : uval b <> 0) by lia. assert (B1 : 0 < uval b) by lia.
  assert (LB : forall n, 0 <= n -> uval b ^ n <= uval x -> n <= Z.log2 (uval x)).
  { intros n Hn H. apply Z.log2_le_pow2; [|apply Z.le_trans with (uval b ^ n); auto; apply Z.pow_le_mono_l; lia].
    pose proof (Z.pow_pos_nonneg (uval b) n B1 Hn). lia. }
  assert (P0 : forall n, 0 <= n -> 0 < uval b ^ n) by (intros; apply Z.pow_pos_nonneg; lia).
  assert (LX : Z.log2 (uval x) < BITS).
  { destruct (Z.le_gt_cases (uval x) 0) as [|G]; [rewrite Z.log2_nonpos by auto; pose proof (BITS_pos HV); lia|].
    apply Z.log2_lt_pow2; lia. }
  induction fuel as [|fuel IH]; intros n Hn H HF.
  - pose proof (LB n Hn H). cbn [Z.of_nat] in HF. lia.
  - assert (Fn : 0 <= uval b ^ n < 2 ^ BITS) by (pose proof (P0 n Hn); lia).
    cbn [d_ilog_loop]. rewrite d_u_op_div_ok by (auto; lia). cbn [bind].
    rewrite (le_const_ok HV) by wfauto. cbn [bind].
    pose proof (Z.div_mod (uval x) (uval b) B0) as DM. pose proof (Z.mod_pos_bound (uval x) (uval b) B1) as MB.
    assert (Fq : 0 <= uval x / uval b < 2 ^ BITS).
    { split; [apply Z.div_pos; lia|]. apply Z.le_lt_trans with (uval x); [apply Z.div_le_upper_bound; nia|lia]. }
    rewrite (val_ofZ_small HV false (uval b ^ n)) by exact Fn. rewrite (val_ofZ_small HV false (uval x / uval b)) by exact Fq.
    assert (PS : uval b ^ (n + 1) = uval b ^ n * uval b) by (rewrite Z.pow_add_r by lia; rewrite Z.pow_1_r; reflexivity).
    destruct (Z.leb_spec (uval b ^ n) (uval x / uval b)) as [L|L].
    + assert (H' : uval b ^ (n + 1) <= uval x) by (rewrite PS; clear - L DM MB Hb2; nia).
      assert (Hn' : 0 <= n + 1) by lia. pose proof (LB _ Hn' H') as L1. pose proof (BITS_lt31 HV).
      pose proof (P0 _ Hn').
      assert (FM : fits false (val false (ofZ (uval b ^ n)) * val false b)).
      { rewrite (val_ofZ_small HV false (uval b ^ n)) by exact Fn. cbn [val]. rewrite <- PS. apply fu. lia. }
      unfold uadd. rewrite fb32 by lia. cbn [bind]. rewrite (op_mul_fits HV) by (auto; wfauto).
      rewrite (val_ofZ_small HV false (uval b ^ n)) by exact Fn. cbn [val bind]. rewrite <- PS. apply IH; auto; lia.
    + exists n. split; auto. pose proof (LB n Hn H). split; [lia|]. split; auto. rewrite PS. clear - L DM MB Hb2; nia.
Qed.
Lemma fix_u_checked_ilog_ok : forall x b, wf x -> wf b ->
  if (1 <=? uval x) && (2 <=? uval b)
  then exists k, fix_u_checked_ilog dr x b = Ok (Some k) /\ 0 <= k < BITS /\ uval b ^ k <= uval x < uval b ^ (k + 1)
  else fix_u_checked_ilog dr x b = Ok None.
Proof.
  intros x b Hx Hb. pose proof (uval_range HV x Hx) as Rx. pose proof (uval_range HV b Hb) as Rb.
  unfold fix_u_checked_ilog, fix_u_checked_ilog_fuel. rewrite !(from_u8_ok HV) by wfauto. cbn [bind].
  rewrite (le_const_ok HV) by wfauto. cbn [bind].
  rewrite (derived_eq_ok HV) by wfauto. rewrite (eqb0 HV false) by auto. rewrite (val_ofZ_small HV false 1) by (apply (fits_small HV); lia).
  cbn [val]. destruct (Z.leb_spec 1 (uval x)), (Z.leb_spec 2 (uval b)), (Z.eqb_spec (uval x) 0), (Z.leb_spec (uval b) 1);
    try lia; cbn [andb orb]; auto.
  rewrite (lt_const_ok HV) by wfauto. cbn [bind val]. destruct (Z.ltb_spec (uval x) (uval b)) as [L|L].
  { exists 0. split; auto. pose proof (BITS_pos HV). split; [lia|]. change (0 + 1) with 1. rewrite Z.pow_0_r, Z.pow_1_r. lia. }
  assert (Hab : 2 <= uval b <= uval x) by lia. destruct (ilog_start _ _ Hab) as (S1 & S2).
  rewrite (tb2W HV). rewrite !(ilog2_ok HV) by auto. cbn [val].
  destruct (Z.leb_spec (uval x) 0); [lia|]. cbn [bind].
  destruct (Z.leb_spec (uval b) 0); [lia|]. cbn [bind].
  pose proof (log2_lt_BITS HV _ Rx). pose proof (log2_lt_BITS HV _ Rb). pose proof (BITS_lt31 HV).
  pose proof (Z.log2_nonneg (uval x)). pose proof (Z.log2_nonneg (uval b)).
  unfold uadd. rewrite fb32 by lia. cbn [bind]. unfold udiv. destruct (Z.eqb_spec (Z.log2 (uval b) + 1) 0); [lia|]. cbn [bind].
  pose proof (Z.pow_nonneg (uval b) (Z.log2 (uval x) / (Z.log2 (uval b) + 1)) ltac:(tauto)).
  rewrite (pow_fits HV) by (auto; try lia; apply fu; cbn [val]; lia). cbn [bind val].
  destruct (d_ilog_loop_ok x b Hx Hb ltac:(lia) (S (Z.to_nat tbits)) (Z.log2 (uval x) / (Z.log2 (uval b) + 1)))
      as (k & Hk & R); auto; try lia.
  { rewrite tbits_BITS. pose proof (BITS_pos HV). lia. }
  exists k. rewrite Hk. cbn [bind]. auto.
Qed.
Lemma fix_s_checked_ilog_ok : forall x b, wf x -> wf b ->
  if (1 <=? sval x) && (2 <=? sval b)
  then exists k, fix_s_checked_ilog dr x b = Ok (Some k) /\ 0 <= k < BITS /\ sval b ^ k <= sval x < sval b ^ (k + 1)
  else fix_s_checked_ilog dr x b = Ok None.
Proof.
  intros x b Hx Hb.
  assert (E : fix_s_checked_ilog dr x b = if (sval x <=? 0) || (sval b <=? 1) then Ok None
              else let* r := unwrap (fix_u_checked_ilog dr x b) in Ok (Some r)).
  { unfold fix_s_checked_ilog. rewrite !(from_u8_ok HV) by wfauto. cbn [bind].
    rewrite !(le_const_ok HV) by wfauto. cbn [bind val].
    rewrite !(sval_lit HV) by lia. destruct (_ || _); auto. unfold as_unsigned. rewrite !(mk_ok HV) by auto. reflexivity. }
  rewrite E. destruct (Z.leb_spec 1 (sval x)), (Z.leb_spec 2 (sval b)), (Z.leb_spec (sval x) 0), (Z.leb_spec (sval b) 1);
    try lia; cbn [andb orb]; auto.
  assert (US : forall z, wf z -> 0 <= sval z -> uval z = sval z).
  { intros z Hz Hp. pose proof (sval_range HV z Hz). pose proof (pBhalf HV). rewrite <- (ofZ_sval HV z Hz) at 1.
    apply (val_ofZ_small HV false). apply fu. lia. }
  pose proof (fix_u_checked_ilog_ok x b Hx Hb) as U. rewrite !US in U by (auto; lia).
  destruct (Z.leb_spec 1 (sval x)), (Z.leb_spec 2 (sval b)); try lia. cbn [andb] in U.
  destruct U as (k & -> & R). exists k. auto.
Qed.
End D.
End P.
