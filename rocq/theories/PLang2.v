(** * Proofs: the operations as published, away from their defects (for C87) *)

Require Import ZArith List Bool Lia.
From Verif Require Import Prim Spec Facts MAdd MMul MShift MCore PCore PBits PWide MArith PArith PArith2 PPow PMisc PBits2 PRet
  MDiv DivSpec PDiv PKnuth PDivFull PDivExact MApi PApi PApi2 PApi3 MScalar PScalar TextSpec MTraits PTraits PropsDiv PropsDivAll
  MFix PFixDiv PFixApi PFixScalar PropsFix MFix2 PFixMul PFixPow PFixScalar2 PropsFix2 MFix3 PropsFix3 MOrd Lang PLang.
Import ListNotations.
Local Open Scope Z_scope.


Section P.
Context {c : Cfg}.
Hypothesis HV : Valid.

(** *** As published *)
Lemma ovf_good : forall sg p, bad_product sg p = false -> ovf sg p = negb (fitsb sg p).
Proof.
  intros sg p H. destruct sg; [|reflexivity]. unfold bad_product, ovf, fitsb, in_s in *. cbn [andb] in H.
  pose proof (pow_slack HV). pose proof (pBh HV).
  destruct (Z.ltb_spec (- (2 ^ (BITS - 1) + 2 ^ (BITS - W))) p), (Z.ltb_spec p (- 2 ^ (BITS - 1))); try discriminate;
    destruct (Z.leb_spec (2 ^ (BITS - 1)) p), (Z.leb_spec p (- (2 ^ (BITS - 1) + 2 ^ (BITS - W)))), (Z.leb_spec (- 2 ^ (BITS - 1)) p), (Z.ltb_spec p (2 ^ (BITS - 1)));
    cbn; try reflexivity; lia.
Qed.
Lemma product_bad : forall sg p, bad_product sg p = true -> ovf sg p = false /\ fitsb sg p = false.
Proof.
  intros sg p H. destruct sg; [|discriminate]. unfold bad_product, ovf, fitsb, in_s in *. cbn [andb] in H. apply andb_true_iff in H. destruct H as (A & B). apply Z.ltb_lt in A, B.
  pose proof (pow_slack HV). pose proof (pBh HV).
  destruct (Z.leb_spec (2 ^ (BITS - 1)) p), (Z.leb_spec p (- (2 ^ (BITS - 1) + 2 ^ (BITS - W)))), (Z.leb_spec (- 2 ^ (BITS - 1)) p); cbn; try lia; auto.
Qed.
Lemma good1 : forall sg o x, proper1 sg o -> wf x -> bad1 known_defects sg o (number sg x) = false -> run1 published sg o x = run1 corrected sg o x.
Proof.
  intros sg o x P Hx. destruct o as [| | | | | | |k|k|e]; cbn [run1 published corrected bad1 known_defects proper1] in *; intros B; [reflexivity|reflexivity| |reflexivity|reflexivity|reflexivity| | | |].
  - subst sg. unfold fix_s_abs. rewrite (s_abs_ok HV), (s_wrapping_abs_ok HV), (s_checked_abs_ok HV), unwrap_some_if by auto. unfold ok_if.
    destruct (fitsb true (Z.abs (sval x))) eqn:F; [destruct chk; reflexivity|]. destruct chk; [reflexivity|]. exfalso. cbn [negb andb number] in B. apply Z.eqb_neq in B.
    assert (NF : fits true (Z.abs (sval x))); [|apply fitsb_spec in NF; congruence].
    pose proof (sval_range HV x Hx). cbn [fits]. unfold fits_s in *. lia.
  - destruct sg; [reflexivity|]. f_equal. cbn [negb andb number] in B. apply Z.eqb_neq in B. rewrite (s_try_from_unsigned_ok HV) by auto.
    unfold fix_s_try_from_unsigned. rewrite (s_max_value_ok HV). cbn [bind]. unfold as_unsigned. rewrite (mk_ok HV). cbn [bind].
    rewrite (le_const_ok HV) by wfauto. cbn [bind]. unfold as_signed. rewrite (mk_ok HV). cbn [bind]. pose proof (pBhalf HV). pose proof (pBh HV).
    rewrite (val_ofZ_small HV false) by (cbn; unfold fits_u; lia). cbn [val].
    destruct (Z.ltb_spec (uval x) (2 ^ (BITS - 1) - 1)), (Z.leb_spec (uval x) (2 ^ (BITS - 1) - 1)); auto; lia.
  - rewrite (op_shl_ok HV) by (auto; lia). unfold fix_op_shl. rewrite (fix_amount_ok HV false 128) by (try lia; unfold fits_u; lia).
    unfold shift_ok. pose proof (BITS_lt31 HV). pose proof (BITS_pos HV). rewrite (Z.mod_small BITS) by lia. rewrite (andb_comm (k <? BITS)).
    destruct (chk && negb ((0 <=? k) && (k <? BITS))); [reflexivity|]. cbn [bind]. rewrite (wrapping_shl_ok HV) by auto. reflexivity.
  - rewrite (op_shr_ok HV) by (auto; lia). unfold fix_op_shr. rewrite (fix_amount_ok HV false 128) by (try lia; unfold fits_u; lia).
    unfold shift_ok. pose proof (BITS_lt31 HV). pose proof (BITS_pos HV). rewrite (Z.mod_small BITS) by lia. rewrite (andb_comm (k <? BITS)).
    destruct (chk && negb ((0 <=? k) && (k <? BITS))); [reflexivity|]. cbn [bind]. rewrite (wrapping_shr_ok HV) by auto. reflexivity.
  - rewrite (pow_ok HV), (m_pow_ok HV) by auto. destruct chk; [|reflexivity]. rewrite (ovf_good sg (val sg x ^ e)) by exact B. reflexivity.
Qed.
Lemma good_mulf : forall sg v w, bad_product sg (v * w) = false -> mulf sg v w = nof sg (v * w).
Proof. intros sg v w B. rewrite (mulf_ovf HV), ovf_good by auto. reflexivity. Qed.
Definition divides (o : op2) : bool := match o with Div | Rem | DivEuclid | RemEuclid | DivFloor | DivCeil => true | _ => false end.
Lemma good2 : forall sg o x y, divides o = false -> wf x -> wf y -> bad2 known_defects sg o (number sg x) (number sg y) = false -> run2 published sg o x y = run2 corrected sg o x y.
Proof.
  intros sg o x y Dv Hx Hy. set (v := number sg x). set (w := number sg y).
  destruct o; try discriminate Dv; cbn [run2 published corrected bad2 known_defects]; intros B;
    [reflexivity|reflexivity| |reflexivity|reflexivity|reflexivity| | | |reflexivity|reflexivity|reflexivity|reflexivity|reflexivity|reflexivity|reflexivity|reflexivity|].
  - rewrite (op_mul_ok HV), (m_op_mul_ok HV) by auto. destruct chk; [|reflexivity]. rewrite (good_mulf sg (val sg x) (val sg y)) by exact B. reflexivity.
  - unfold fix_op_shl_self. rewrite (op_shl_big_ok HV), (op_shl_self_ok HV) by auto. rewrite (andb_comm (val sg y <? BITS)).
    change (val sg y) with w. rewrite B. reflexivity.
  - unfold fix_op_shr_self. rewrite (op_shr_big_ok HV), (op_shr_self_ok HV) by auto. rewrite (andb_comm (val sg y <? BITS)).
    change (val sg y) with w. rewrite B. reflexivity.
  - destruct sg; [|reflexivity]. rewrite (s_midpoint_ok HV) by auto. cbn [andb] in B.
    destruct (C86_midpoint c x y HV Hx Hy) as (r & E & Hr & V). rewrite E. f_equal.
    assert (Q : Z.quot (sval x + sval y) 2 = (sval x + sval y) / 2).
    { change (sval x) with v. change (sval y) with w. destruct (Z.ltb_spec (v + w) 0) as [L|L]; [|apply Z.quot_div_nonneg; lia].
      cbn [andb] in B. rewrite <- Z.negb_even in B. apply negb_false_iff, Z.even_spec in B. destruct B as (k & ->).
      rewrite Z.mul_comm, Z.quot_mul, Z.div_mul by lia. reflexivity. }
    rewrite Q. apply (val_inj HV true); auto; [apply (wf_ofZ HV)|]. change (val true r) with (number true r). rewrite V. apply (val_ofZ_small HV true).
    change (val true) with (number true) in *. rewrite <- V. apply (number_range HV true r Hr).
  - rewrite (m_saturating_mul_ok HV) by auto. destruct sg.
    + rewrite (s_saturating_mul_ok HV) by auto. rewrite (good_mulf true (sval x) (sval y)) by exact B. unfold nof.
      destruct (fitsb true (sval x * sval y)) eqn:F; cbn [negb]; [|reflexivity]. apply fitsb_spec in F. rewrite clamp_fits by exact F. reflexivity.
    + rewrite (u_saturating_mul_ok HV) by auto. reflexivity.
Qed.

Lemma goodo : forall sg o x y, wf x -> wf y -> bado known_defects sg o (number sg x) (number sg y) = false -> runo published sg o x y = runo corrected sg o x y.
Proof.
  intros sg o x y Hx Hy. destruct o; cbn [runo published corrected bado known_defects]; intros B; [reflexivity|reflexivity|].
  rewrite (overflowing_mul_ok HV), (m_overflowing_mul_ok HV) by auto. rewrite (good_mulf sg (val sg x) (val sg y)) by exact B. reflexivity.
Qed.

(** *** Divisions *)
Lemma fails_spec : forall v w, fails v w = true <-> division_fails v w.
Proof. intros v w. unfold fails, division_fails. rewrite !andb_true_iff, Z.leb_le, Z.ltb_lt. tauto. Qed.
Lemma inexact_spec : forall v w, inexact v w = true <-> ~ exact v w.
Proof.
  intros v w. unfold inexact, exact, exact_division. rewrite !andb_true_iff, negb_true_iff, andb_false_iff, Z.leb_le, !Z.ltb_lt, Z.ltb_ge, Z.eqb_neq.
  destruct (has_correction W (Z.abs v) (Z.abs w)); split; intuition (try discriminate; try lia).
Qed.
Lemma small_divisor : forall v w, Z.abs w <= 1 -> fails v w = false /\ inexact v w = false.
Proof.
  intros v w H. unfold fails, inexact. assert (A : 2 <= 2 ^ W) by (destruct (W_cases HV) as [-> | ->]; lia).
  assert (B : 2 <= 2 ^ (BITS - W)). { destruct (ptop HV) as (P & Q). destruct HV as (HW & (k & Hk & HB) & _). assert (2 ^ 1 <= 2 ^ (BITS - W)) by (apply Z.pow_le_mono_r; lia). lia. }
  destruct (Z.leb_spec (2 ^ (BITS - W)) (Z.abs w)), (Z.leb_spec (2 ^ W) (Z.abs w)); try lia; auto.
Qed.
Lemma meets_right : forall sg v m, meets (stands sg) (Done v) m <-> right sg m v.
Proof. intros. split; intros (r & E & H); exists r; split; auto. Qed.
Lemma meets_some : forall sg v m, meets (opt_rel (stands sg)) (Done (Some v)) m <-> right sg (of_option m) v.
Proof.
  intros sg v m. split.
  - intros (r & -> & H). destruct r as [r|]; [|contradiction]. exists r. split; [reflexivity|exact H].
  - intros (r & E & H). destruct m as [[a|]| |]; try discriminate. cbn in E. inversion E; subst. exists (Some r). split; [reflexivity|exact H].
Qed.
Lemma zero_out : forall sg v, lift1 (sq v 0) = (if v =? 0 then Ok (ofZ 1) else Panic) /\ lift1 (sr v 0) = (if v =? 0 then Ok (ofZ 0) else Panic) /\
  (exists r, lift1 (esq sg v 0) = if v =? 0 then Ok r else Panic) /\ (exists r, lift1 (esr sg v 0) = if v =? 0 then Ok r else Panic).
Proof.
  intros sg v. unfold esq, esr, sq, sr. rewrite soutcome_0. destruct (v =? 0); destruct sg; cbn [lift1 option_map fst snd]; (split; [reflexivity|split; [reflexivity|]]);
    split; first [exists nil; reflexivity|eexists; reflexivity].
Qed.
Lemma three_cases : forall sg x y, wf x -> wf y -> let v := number sg x in let w := number sg y in
  w = 0 \/ (sg = true /\ w = -1 /\ v = - 2 ^ (BITS - 1) /\ dnone sg v w = true /\ min_m1 BITS sg v w = true) \/
  (divisible sg v w /\ w <> 0 /\ dnone sg v w = false /\ min_m1 BITS sg v w = false).
Proof.
  intros sg x y Hx Hy v w. destruct (Z.eq_dec w 0) as [E|E]; [auto|right]. rewrite dnone_split. destruct (Z.eqb_spec w 0); [contradiction|]. cbn [orb].
  unfold min_m1. destruct sg; cbn [andb]; [|right; split; [split; [auto|intros (X & _); discriminate]|auto]].
  destruct (Z.eqb_spec v (- 2 ^ (BITS - 1))), (Z.eqb_spec w (-1)); cbn [andb]; [left; auto| | |]; right; (split; [split; [auto|tauto]|auto]).
Qed.

(** the quotient, the remainder and their rounded forms, where a quotient exists *)
Section Quotients.
Variables (sg : bool) (x y : list Z).
Hypothesis Hx : wf x.
Hypothesis Hy : wf y.
Let v := number sg x.
Let w := number sg y.
Hypothesis Dv : divisible sg v w.
Lemma q_right : forall f, fails v w = false <-> right sg (quotient f sg x y) (Z.quot v w).
Proof.
  intros f. destruct (C76_quotient c f sg x y HV Hx Hy Dv) as (A & B). change (num sg x) with v in *. change (num sg y) with w in *.
  destruct (fails v w) eqn:E.
  - apply fails_spec in E. rewrite A by auto. split; [discriminate|]. intros (r & X & _). discriminate.
  - split; auto. intros _. apply B. intros F. apply fails_spec in F. congruence.
Qed.
Lemma exact_dec : (inexact v w = false /\ exact v w) \/ (inexact v w = true /\ ~ exact v w).
Proof.
  destruct (inexact v w) eqn:E; [right; split; auto; apply inexact_spec; auto|left; split; auto].
  assert (K : exact v w \/ ~ exact v w). { unfold exact, exact_division. destruct (has_correction W (Z.abs v) (Z.abs w)); lia. }
  destruct K as [K|K]; auto. apply inexact_spec in K. congruence.
Qed.
Lemma fails_dec : (fails v w = false /\ ~ division_fails v w) \/ (fails v w = true /\ division_fails v w).
Proof. destruct (fails v w) eqn:E; [right; split; auto; apply fails_spec; auto|left; split; auto]. intros F. apply fails_spec in F. congruence. Qed.
Lemma r_right : forall f, inexact v w = false <-> right sg (remainder f sg x y) (Z.rem v w).
Proof.
  intros f. destruct (C76_remainder c f sg x y HV Hx Hy Dv) as (A & _). change (num sg x) with v in *. change (num sg y) with w in *.
  rewrite A. destruct exact_dec as [(-> & K)|(-> & K)]; intuition discriminate.
Qed.
Lemma er_right : forall f, inexact v w = false <-> right sg (euclid_remainder f sg x y) (v mod Z.abs w).
Proof.
  intros f. pose proof (C76_euclid_remainder c f sg x y HV Hx Hy Dv) as A. change (num sg x) with v in *. change (num sg y) with w in *.
  rewrite A. destruct exact_dec as [(-> & K)|(-> & K)]; intuition discriminate.
Qed.
Lemma round_right : forall b m t, (right sg m t <-> ~ division_fails v w /\ (exact v w \/ b = false \/ Z.rem v w <> 0)) ->
  (fails v w || (misrounded v w && b) = false <-> right sg m t).
Proof.
  intros b m t ->. unfold misrounded. rewrite <- Z.eqb_neq. destruct fails_dec as [(-> & F)|(-> & F)], exact_dec as [(-> & K)|(-> & K)], b, (Z.rem v w =? 0); cbn; intuition discriminate.
Qed.
Lemma eq_right : forall f, fails v w || (misrounded v w && (v <? 0)) = false <-> right sg (euclid_quotient f sg x y) (Z.sgn w * (v / Z.abs w)).
Proof.
  intros f. apply round_right. rewrite Z.ltb_ge. apply (C76_euclid_quotient c f sg x y HV Hx Hy Dv).
Qed.
Lemma fl_right : fails v w || (misrounded v w && xorb (v <? 0) (w <? 0)) = false <-> right sg (if (sg : bool) then s_div_floor x y else u_div_floor x y) (v / w).
Proof.
  apply round_right. pose proof (C76_floor c sg x y HV Hx Hy Dv) as A. change (num sg x) with v in *. change (num sg y) with w in *. rewrite A.
  destruct (v <? 0), (w <? 0); cbn; intuition discriminate.
Qed.
Lemma ce_right : fails v w || (misrounded v w && negb (xorb (v <? 0) (w <? 0))) = false <-> right sg (if (sg : bool) then s_div_ceil x y else u_div_ceil x y) (- (- v / w)).
Proof.
  apply round_right. pose proof (C76_ceil c sg x y HV Hx Hy Dv) as A. change (num sg x) with v in *. change (num sg y) with w in *. rewrite A.
  destruct (v <? 0), (w <? 0); cbn; intuition congruence.
Qed.
End Quotients.

(** with a zero divisor, and for MIN and -1 *)
Lemma panics : forall sg (m : res (list Z)) r b, m = (if b : bool then Ok r else Panic) -> (b = false <-> meets (stands sg) Panicked m).
Proof. intros sg m r [] ->; cbn [meets]; split; auto; discriminate. Qed.
Lemma opd_zero : forall sg v (o : res (list Z)) r, o = (if v =? 0 then Ok r else Panic) -> (if chk && dnone sg v 0 then Panic else o) = if negb chk && (v =? 0) then Ok r else Panic.
Proof. intros sg v o r ->. unfold dnone. cbn [Z.eqb orb]. destruct chk, (v =? 0); reflexivity. Qed.
Lemma min_out : let m := - 2 ^ (BITS - 1) in
  soutcome m (-1) = Some (2 ^ (BITS - 1), 0).
Proof.
  intros m. destruct (outcomes HV m (-1) ltac:(lia)) as [(_ & E & _)|[(_ & _ & ->)|(_ & E & _)]].
  - exfalso. apply E. right. left. change (Z.abs (-1)) with 1. destruct (W_cases HV) as [-> | ->]; lia.
  - unfold m. change (-1) with (- (1)). rewrite Z.quot_opp_opp, Z.rem_opp_opp, Z.quot_1_r, Z.rem_1_r by lia. reflexivity.
  - exfalso. apply E. right. left. change (Z.abs (-1)) with 1. destruct (W_cases HV) as [-> | ->]; lia.
Qed.

Lemma list_div : forall sg o x y, divides o = true -> wf x -> wf y -> let v := number sg x in let w := number sg y in
  bad2 known_defects sg o v w = false <-> meets (stands (ty2 o sg)) (exact2 BITS chk sg o v w) (run2 published sg o x y).
Proof.
  intros sg o x y Do Hx Hy v w.
  assert (Q : ty2 o sg = sg) by (destruct o; try discriminate; reflexivity). rewrite Q. clear Q.
  pose proof (three_cases sg x y Hx Hy) as T. cbv zeta in T. fold v w in T. destruct T as [E|[(E1 & E2 & E3 & E4 & E5)|(D & E1 & E2 & E3)]].
  - destruct (small_divisor v w) as (S1 & S2); [lia|]. destruct (zero_out sg v) as (Z1 & Z2 & (r3 & Z3) & (r4 & Z4)).
    assert (M0 : min_m1 BITS sg v 0 = false) by (unfold min_m1; rewrite andb_false_r; reflexivity).
    destruct o; try discriminate Do; cbn [bad2 known_defects exact2 run2 published]; unfold misrounded; rewrite ?S1, ?S2, E, ?M0, Z.eqb_refl; cbn [orb andb]; rewrite ?andb_true_r, ?orb_false_r.
    + apply (panics _ _ (ofZ 1)). rewrite (op_div_ok HV) by auto. change (val sg x) with v. change (val sg y) with w. rewrite E. apply opd_zero. exact Z1.
    + apply (panics _ _ (ofZ 0)). rewrite (op_rem_ok HV) by auto. change (val sg x) with v. change (val sg y) with w. rewrite E. apply opd_zero. exact Z2.
    + apply (panics _ _ r3). rewrite (div_euclid_ok HV) by auto. change (val sg x) with v. change (val sg y) with w. rewrite E. apply opd_zero. exact Z3.
    + apply (panics _ _ r4). rewrite (rem_euclid_ok HV) by auto. change (val sg x) with v. change (val sg y) with w. rewrite E. apply opd_zero. exact Z4.
    + assert (G : exists r, (if sg then s_div_floor x y else u_div_floor x y) = if v =? 0 then Ok r else Panic).
      { destruct sg.
        - rewrite (s_div_floor_ok HV) by auto. change (sval x) with v. change (sval y) with w. rewrite E, soutcome_0. destruct (v =? 0); [eexists; reflexivity|exists nil; reflexivity].
        - unfold u_div_floor. rewrite (wrapping_div_ok HV) by auto. change (val false x) with v. change (val false y) with w. rewrite E. exists (ofZ 1). exact Z1. }
      destruct G as (r & G). apply (panics _ _ r). exact G.
    + assert (G : exists r, (if sg then s_div_ceil x y else u_div_ceil x y) = if v =? 0 then Ok r else Panic).
      { destruct sg; [rewrite (s_div_ceil_ok HV) by auto; change (sval x) with v; change (sval y) with w|rewrite (u_div_ceil_ok HV) by auto; change (uval x) with v; change (uval y) with w];
          rewrite E, soutcome_0; destruct (v =? 0); [eexists; reflexivity|exists nil; reflexivity|eexists; reflexivity|exists nil; reflexivity]. }
      destruct G as (r & G). apply (panics _ _ r). exact G.
  - destruct (small_divisor v w) as (S1 & S2); [lia|]. subst sg. pose proof (pBh HV) as PB. pose proof min_out as MO. rewrite <- E3 in MO.
    assert (N0 : (w =? 0) = false) by (apply Z.eqb_neq; lia).
    destruct o; try discriminate Do; cbn [bad2 known_defects exact2 run2 published]; unfold misrounded; rewrite ?S1, ?S2, ?E5, ?N0; cbn [orb andb]; rewrite ?andb_false_r, ?orb_true_r, ?andb_true_r.
    + split; auto. intros _. rewrite (op_div_ok HV) by auto. change (val true x) with v. change (val true y) with w. unfold opd. rewrite E4, andb_true_r. unfold sq. rewrite E2, MO.
      assert (QE : Z.quot v (-1) = 2 ^ (BITS - 1)). { rewrite E3. change (-1) with (- (1)). rewrite Z.quot_opp_opp, Z.quot_1_r by lia. reflexivity. } rewrite QE.
      pose proof (m_if HV true (2 ^ (BITS - 1))) as K. assert (NF : fitsb true (2 ^ (BITS - 1)) = false). { apply not_true_is_false. intros F. apply fitsb_spec in F. destruct F; lia. }
      rewrite NF in K. cbn [negb] in K. rewrite andb_true_r in K. exact K.
    + split; auto. intros _. rewrite (op_rem_ok HV) by auto. change (val true x) with v. change (val true y) with w. unfold opd. rewrite E4, andb_true_r. unfold sr. rewrite E2, MO.
      destruct chk; [reflexivity|]. cbn [option_map snd lift1].
      assert (QE : Z.rem v (-1) = 0). { rewrite E3. change (-1) with (- (1)). rewrite Z.rem_opp_opp, Z.rem_1_r by lia. reflexivity. } rewrite QE. apply (m_small HV). apply (fits_0 HV).
    + assert (G : exists r, div_euclid true x y = if negb chk then Ok r else Panic).
      { rewrite (div_euclid_ok HV) by auto. change (val true x) with v. change (val true y) with w. unfold opd. rewrite E4, andb_true_r. unfold esq. rewrite E2, MO. destruct chk; [exists nil|eexists]; reflexivity. }
      destruct G as (r & G). apply (panics _ _ r). exact G.
    + assert (G : exists r, rem_euclid true x y = if negb chk then Ok r else Panic).
      { rewrite (rem_euclid_ok HV) by auto. change (val true x) with v. change (val true y) with w. unfold opd. rewrite E4, andb_true_r. unfold esr. rewrite E2, MO. destruct chk; [exists nil|eexists]; reflexivity. }
      destruct G as (r & G). apply (panics _ _ r). exact G.
    + rewrite (s_div_floor_ok HV) by auto. change (sval x) with v. change (sval y) with w. rewrite E2, MO. split; [discriminate|]. intros H. discriminate H.
    + rewrite (s_div_ceil_ok HV) by auto. change (sval x) with v. change (sval y) with w. rewrite E2, MO. split; [discriminate|]. intros H. discriminate H.
  - assert (N0 : (w =? 0) = false) by (apply Z.eqb_neq; auto).
    destruct o; try discriminate Do; cbn [bad2 known_defects exact2 run2 published]; rewrite ?E3, ?N0; cbn [orb andb]; rewrite ?andb_false_r, ?orb_false_r, ?andb_false_r, ?orb_false_r.
    + unfold ranged. rewrite (proj2 (inside_spec sg (Z.quot v w))) by (apply (quot_in HV sg x y Hx Hy D)). rewrite meets_right. apply (q_right sg x y Hx Hy D Operator).
    + rewrite meets_right. apply (r_right sg x y Hx Hy D Operator).
    + rewrite meets_right. apply (eq_right sg x y Hx Hy D Operator).
    + rewrite meets_right. apply (er_right sg x y Hx Hy D Operator).
    + rewrite meets_right. apply (fl_right sg x y Hx Hy D).
    + rewrite meets_right. apply (ce_right sg x y Hx Hy D).
Qed.
Lemma list_c : forall sg o x y, wf x -> wf y -> let v := number sg x in let w := number sg y in
  badc known_defects sg o v w = false <-> meets (opt_rel (stands sg)) (exactc BITS sg o v w) (runc published sg o x y).
Proof.
  intros sg o x y Hx Hy v w. destruct (corrected_faithful HV) as (_ & _ & F2). destruct (F2 sg Add x y Hx Hy) as (_ & G & _).
  assert (Dn : dnone sg v w = true -> Z.abs w <= 1).
  { unfold dnone, dovf. destruct (Z.eqb_spec w 0); [lia|]. destruct (Z.eqb_spec w (-1)); [lia|]. rewrite andb_false_r. discriminate. }
  assert (DN : forall b o m t, (Z.abs w <= 1 -> b = false) -> m = chko sg v w o -> (divisible sg v w -> (b = false <-> right sg (of_option m) t)) ->
    (b = false <-> meets (opt_rel (stands sg)) (dividing BITS sg v w t) m)).
  { intros b o1 m t H1 H2 H3. unfold dividing. rewrite <- dnone_split. pose proof (three_cases sg x y Hx Hy) as T. cbv zeta in T. fold v w in T. destruct T as [E|[(E1 & E2 & E3 & E4 & E5)|(D & E1 & E2 & E3)]].
    - assert (E4 : dnone sg v w = true) by (rewrite dnone_split, E; reflexivity). rewrite E4, H2. unfold chko. rewrite E4. split; [|intros _; apply H1; lia]. intros _. exists None. split; [reflexivity|exact I].
    - rewrite E4, H2. unfold chko. rewrite E4. split; [|intros _; apply H1; lia]. intros _. exists None. split; [reflexivity|exact I].
    - rewrite E2, meets_some. apply H3. exact D. }
  destruct o; cbn [badc known_defects runc published exactc].
  - split; auto. intros _. exact (G CAdd).
  - split; auto. intros _. exact (G CSub).
  - rewrite (checked_mul_ok HV) by auto. change (val sg x) with v. change (val sg y) with w. rewrite (mulf_ovf HV). destruct (bad_product sg (v * w)) eqn:B.
    + split; [discriminate|]. intros (r & H1 & H2). destruct (product_bad _ _ B) as (B1 & B2). rewrite B1 in H1. cbn [negb some_if] in H1. inversion H1; subst r. unfold within in H2. rewrite inside_fitsb, B2 in H2. contradiction.
    + split; auto. intros _. rewrite ovf_good, negb_involutive by auto. apply (m_if_some HV).
  - apply (DN _ (sq v w)); [intros H; apply (small_divisor v w H)|apply (checked_div_ok HV); auto|]. intros D. apply (q_right sg x y Hx Hy D Checked).
  - apply (DN _ (sr v w)); [intros H; apply (small_divisor v w H)|apply (checked_rem_ok HV); auto|]. intros D. apply (r_right sg x y Hx Hy D Checked).
  - apply (DN _ (esq sg v w)); [intros H; destruct (small_divisor v w H) as (A & B); unfold misrounded; rewrite A, B; reflexivity|apply (checked_div_euclid_ok HV); auto|]. intros D. apply (eq_right sg x y Hx Hy D Checked).
  - apply (DN _ (esr sg v w)); [intros H; apply (small_divisor v w H)|apply (checked_rem_euclid_ok HV); auto|]. intros D. apply (er_right sg x y Hx Hy D Checked).
Qed.
Lemma list_o : forall sg o x y, wf x -> wf y -> let v := number sg x in let w := number sg y in
  bado known_defects sg o v w = false <-> meets (fun a b => stands sg (fst a) (fst b) /\ snd a = snd b) (exacto BITS sg o v w) (runo published sg o x y).
Proof.
  intros sg o x y Hx Hy v w. destruct (corrected_faithful HV) as (_ & _ & F2). destruct (F2 sg Add x y Hx Hy) as (_ & _ & G & _).
  destruct (bado known_defects sg o v w) eqn:B.
  - split; [discriminate|]. intros (r & H1 & H2). destruct o; cbn [bado known_defects runo published] in *; try discriminate. destruct (product_bad _ _ B) as (B1 & B2).
    rewrite (overflowing_mul_ok HV) in H1 by auto. change (val sg x) with v in H1. change (val sg y) with w in H1. rewrite (mulf_ovf HV), B1 in H1. inversion H1; subst r.
    cbn [snd fst] in H2. rewrite inside_fitsb, B2 in H2. destruct H2. discriminate.
  - split; auto. intros _. rewrite goodo by auto. exact (G o).
Qed.
Lemma list_1 : forall sg o x, proper1 sg o -> wf x -> let v := number sg x in
  bad1 known_defects sg o v = false <-> meets (stands (ty1 o sg)) (exact1 BITS chk sg o v) (run1 published sg o x).
Proof.
  intros sg o x P Hx v. destruct (corrected_faithful HV) as (_ & F1 & _). destruct (bad1 known_defects sg o v) eqn:B.
  - split; [discriminate|]. intros H. exfalso. destruct o; cbn [bad1 known_defects run1 published exact1 proper1] in *; try discriminate.
    + subst sg. apply andb_true_iff in B. destruct B as (B1 & B2). apply negb_true_iff in B1. apply Z.eqb_eq in B2.
      rewrite (s_abs_ok HV) in H by auto. change (sval x) with v in H. assert (NF : fitsb true (Z.abs v) = false). { apply not_true_is_false. intros F. apply fitsb_spec in F. pose proof (pBh HV). destruct F; lia. }
      rewrite NF in H. unfold ranged in H. rewrite inside_fitsb, NF, B1 in H. destruct H as (r & H & _). discriminate.
    + apply andb_true_iff in B. destruct B as (B1 & B2). destruct sg; [discriminate|]. apply Z.eqb_eq in B2. rewrite (s_try_from_unsigned_ok HV) in H by auto.
      change (uval x) with v in H. rewrite B2, Z.ltb_irrefl in H. rewrite (proj2 (inside_spec (negb false) (2 ^ (BITS - 1) - 1))) in H; [|pose proof (pBh HV); cbn; unfold fits_s; lia].
      destruct H as (r & H & _). discriminate.
    + apply andb_true_iff in B. destruct B as (B1 & B2). destruct (product_bad _ _ B2) as (B3 & B4). rewrite (pow_ok HV) in H by auto. change (val sg x) with v in H.
      rewrite B1, B3 in H. cbn [andb] in H; unfold ranged in H; rewrite inside_fitsb, B4 in H; rewrite ?B1 in H. discriminate H.
  - split; auto. intros _. rewrite good1 by auto. pose proof (F1 sg o x P Hx) as G. exact G.
Qed.
Lemma list_2 : forall sg o x y, wf x -> wf y -> let v := number sg x in let w := number sg y in
  bad2 known_defects sg o v w = false <-> meets (stands (ty2 o sg)) (exact2 BITS chk sg o v w) (run2 published sg o x y).
Proof.
  intros sg o x y Hx Hy v w. destruct (divides o) eqn:Do; [apply list_div; auto|].
  destruct (corrected_faithful HV) as (_ & _ & F2). destruct (F2 sg o x y Hx Hy) as (G & _).
  destruct (bad2 known_defects sg o v w) eqn:B; [|split; auto; intros _; rewrite good2 by auto; exact G].
  split; [discriminate|]. intros H. exfalso. clear G F2. destruct o; try discriminate Do; cbn [bad2 known_defects run2 published exact2 ty2] in *; try discriminate B.
  - apply andb_true_iff in B. destruct B as (B1 & B2). destruct (product_bad _ _ B2) as (B3 & B4). rewrite (op_mul_ok HV) in H by auto. change (val sg x) with v in H. change (val sg y) with w in H.
    rewrite (mulf_ovf HV), B1, B3 in H. cbn [andb] in H; unfold ranged in H; rewrite inside_fitsb, B4 in H; rewrite ?B1 in H. discriminate H.
  - apply andb_true_iff in B. destruct B as (B1 & B2). apply negb_true_iff in B2. unfold amount in H. rewrite B2, B1 in H. cbn [and_then meets] in H. rewrite (op_shl_self_ok HV) in H by auto. discriminate.
  - apply andb_true_iff in B. destruct B as (B1 & B2). apply negb_true_iff in B2. unfold amount in H. rewrite B2, B1 in H. cbn [and_then meets] in H. rewrite (op_shr_self_ok HV) in H by auto. discriminate.
  - apply andb_true_iff in B. destruct B as (B1 & B2). apply andb_true_iff in B1. destruct B1 as (B0 & B1). destruct sg; [|discriminate]. apply Z.ltb_lt in B1.
    rewrite (s_midpoint_ok HV) in H by auto. change (sval x) with v in H. change (sval y) with w in H. destruct H as (r & H1 & Hr & V). inversion H1; subst r.
    pose proof (sval_range HV x Hx) as Rx. pose proof (sval_range HV y Hy) as Ry. change (sval x) with v in Rx. change (sval y) with w in Ry. unfold fits_s in *.
    apply Z.odd_spec in B2. destruct B2 as (k & B2). rewrite B2 in *.
    assert (QE : Z.quot (2 * k + 1) 2 = k + 1). { replace (2 * k + 1) with (- (2 * (- k - 1) + 1)) by lia. rewrite Z.quot_opp_l, Z.quot_div_nonneg by lia. rewrite <- (Z.div_unique (2 * (- k - 1) + 1) 2 (- k - 1) 1) by lia. lia. }
    assert (DE : (2 * k + 1) / 2 = k). { symmetry. apply Z.div_unique with (r := 1); lia. }
    rewrite QE, DE in *. change (number true (ofZ (k + 1))) with (val true (ofZ (k + 1))) in V. rewrite (val_ofZ_small HV true) in V; [lia|]. cbn. unfold fits_s. lia.
  - destruct (product_bad _ _ B) as (B3 & B4). destruct sg; [|discriminate B]. rewrite (s_saturating_mul_ok HV) in H by auto. change (sval x) with v in H. change (sval y) with w in H.
    rewrite (mulf_ovf HV), B3 in H. destruct H as (r & H1 & Hr & V). inversion H1; subst r. unfold bad_product in B. cbn [andb] in B. apply andb_true_iff in B. destruct B as (L1 & L2). apply Z.ltb_lt in L1, L2.
    pose proof (pow_slack HV) as PS. pose proof (pBhalf HV) as PH. pose proof (pBh HV) as PB. unfold pinned in V. change (number true (ofZ (v * w))) with (val true (ofZ (v * w))) in V.
    assert (CE : ofZ (v * w) = ofZ (v * w + 2 ^ BITS)) by (apply (ofZ_cong2 HV); first [exists 1; lia|exists (-1); lia]). rewrite CE, (val_ofZ_small HV true) in V; [lia|]; unfold fits, fits_s; clear V CE; set (p := v * w) in *; clearbody p; lia.
Qed.
Lemma published_faithful : faithful published known_defects.
Proof.
  destruct (corrected_faithful HV) as (F0 & F1 & F2).
  split; [exact F0|split].
  - intros sg o x P Hx v. destruct (bad1 known_defects sg o v) eqn:B; [exact I|]. apply list_1; auto.
  - intros sg o x y Hx Hy v w. destruct (F2 sg o x y Hx Hy) as (G1 & G2 & G3 & G4). split; [|split; [|split]].
    + destruct (bad2 known_defects sg o v w) eqn:B; [exact I|]. apply list_2; auto.
    + intros o'. destruct (badc known_defects sg o' v w) eqn:B; [exact I|]. apply list_c; auto.
    + intros o'. destruct (bado known_defects sg o' v w) eqn:B; [exact I|]. apply list_o; auto.
    + exact G4.
Qed.

End P.
