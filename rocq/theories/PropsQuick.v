(** * Properties: the repository's random tests, for all inputs (C68)

    MQuick.v has the tests; a theorem here says that a test answers [true] on
    every input the generator can produce, or names an input on which it does
    not.  The types under test have 256 bits, on either limb size. *)

Require Import String ZArith List Bool Lia.
From Verif Require Import Prim Spec Facts DivSpec MAdd MMul MShift MCore PCore PBits PWide MArith PArith PArith2 PPow PMisc PBits2 PRot
  MDiv PDiv PDivFull MApi PApi PApi2 PApi3 MScalar PScalar PScalarDiv MTraits PTraits MForms MLayout PLayout PRet PropsDiv MQuick.
Import ListNotations.
Local Open Scope Z_scope.

(** What the generator can produce for a 128-bit half. *)
Definition half (sg : bool) (v : Z) : Prop := if sg then fits_s 128 v else fits_u 128 v.

Section Q.
Context {c : Cfg}.
Hypothesis HV : Valid.
Hypothesis HB : BITS = 256.

Lemma ushr_lit : forall v k, 0 <= k < 128 -> ushr 128 v k = Ok (v / 2 ^ k).
Proof.
  intros v k Hk. unfold ushr. destruct (in_u_reflect 32 k) as [_|F]; [|exfalso; apply F; unfold fits_u; lia].
  rewrite (proj2 (Z.ltb_lt k 128)) by lia. reflexivity.
Qed.
Lemma bytes_32 : BYTES = 32%nat.
Proof. pose proof (B8 HV). lia. Qed.
Lemma div_chain : forall v a b d, 0 <= a -> 0 <= b -> d = a + b -> v / 2 ^ d = v / 2 ^ a / 2 ^ b.
Proof. intros v a b d Ha Hb ->. pose proof (pow2_pos a Ha). pose proof (pow2_pos b Hb). rewrite Z.pow_add_r, Z.div_div by lia. reflexivity. Qed.
Lemma to_u256_ok : forall x y, fits_u 128 x -> fits_u 128 y -> to_u256 x y = Ok (ofZ (num256 x y)).
Proof.
  intros x y Hx Hy. unfold fits_u in *. unfold to_u256, num256. rewrite !ushr_lit by lia. cbn [bind].
  pose proof bytes_32 as B. destruct (W_cases HV) as [E|E]; rewrite E; cbn [Z.eqb Pos.eqb].
  - unfold from_le_u32, ucast. rewrite !(div_chain _ 64 32 96 ltac:(lia) ltac:(lia) eq_refl), !(div_chain _ 32 32 64 ltac:(lia) ltac:(lia) eq_refl).
    match goal with |- from_le_words _ _ ?l = _ => change l with (lenc 32 4 x ++ lenc 32 4 y) end.
    rewrite (from_le_words_ok HV 4 8 B false) by (auto; apply digits_app; split; apply digits_lenc; lia).
    cbn [ord]. change (w8 4) with 32. rewrite lval_app, !lval_lenc, length_lenc by lia. rewrite !Z.mod_small by (cbn in *; lia). reflexivity.
  - unfold from_le_u64, ucast.
    match goal with |- from_le_words _ _ ?l = _ => change l with (lenc 64 2 x ++ lenc 64 2 y) end.
    rewrite (from_le_words_ok HV 8 4 B false) by (auto; apply digits_app; split; apply digits_lenc; lia).
    cbn [ord]. change (w8 8) with 64. rewrite lval_app, !lval_lenc, length_lenc by lia. rewrite !Z.mod_small by (cbn in *; lia). reflexivity.
Qed.
Lemma num_fits : forall sg x0 x1, fits_u 128 x0 -> half sg x1 -> fits sg (num256 x0 x1).
Proof.
  intros [] x0 x1 H0 H1; unfold fits, half, fits_s, fits_u, num256 in *; rewrite HB;
    change (2 ^ 256) with (2 ^ 128 * 2 ^ 128); change (2 ^ (256 - 1)) with (2 ^ 128 * 2 ^ 127);
    change (128 - 1) with 127 in *; change (2 ^ 128) with (2 * 2 ^ 127) in *; lia.
Qed.
Lemma operand_ok : forall sg x0 x1, fits_u 128 x0 -> half sg x1 -> operand sg x0 x1 = Ok (ofZ (num256 x0 x1)).
Proof.
  intros [] x0 x1 H0 H1; cbn [operand half] in *.
  - rewrite to_u256_ok by (auto; unfold fits_u, ucast; apply Z.mod_pos_bound; lia). cbn [bind].
    unfold as_signed. rewrite (mk_ok HV). f_equal. apply (ofZ_eq_mod HV). rewrite HB. unfold num256, ucast.
    replace (2 ^ 256) with (2 ^ 128 * 2 ^ 128) by reflexivity.
    rewrite <- Zplus_mod_idemp_r. rewrite Z.mul_mod_distr_l, Z.mod_mod, <- Z.mul_mod_distr_l by lia. apply Zplus_mod_idemp_r.
  - apply to_u256_ok; auto.
Qed.
Lemma operand_val : forall sg x0 x1, fits_u 128 x0 -> half sg x1 ->
  exists x, operand sg x0 x1 = Ok x /\ wf x /\ val sg x = num256 x0 x1.
Proof.
  intros sg x0 x1 H0 H1. exists (ofZ (num256 x0 x1)). split; [apply operand_ok; auto|]. split; [apply (wf_ofZ HV)|].
  apply (val_ofZ_small HV). apply num_fits; auto.
Qed.

Lemma in256_fitsb : forall sg v, in256 sg v = fitsb sg v.
Proof.
  intros sg v. destruct (fitsb_reflect sg v) as [F|F]; unfold in256.
  - apply fits_bounds in F. unfold lo_of, hi_of in F. rewrite HB in F. apply andb_true_iff. rewrite !Z.leb_le. destruct sg; exact F.
  - apply andb_false_iff. rewrite !Z.leb_gt. unfold fits, fits_s, fits_u in F. rewrite HB in F.
    destruct sg; cbn [lo256 hi256]; change (256 - 1) with 255 in F; lia.
Qed.
Lemma sat256_clamp : forall sg v, sat256 sg v = clamp sg v.
Proof. intros sg v. unfold sat256, clamp, lo_of, hi_of. rewrite HB. destruct sg; reflexivity. Qed.

Lemma le32_ofZ : forall v, to_le_bytes false (ofZ v) = Ok (le_bytes 32 v).
Proof.
  intros v. pose proof (to_le_bytes_ok HV false (ofZ v) (wf_ofZ HV v)) as E. cbn [ord] in E. rewrite E. f_equal.
  rewrite le_bytes_lenc, bytes_32, (uval_ofZ HV), HB. change 256 with (8 * Z.of_nat 32). apply lenc_mod. lia.
Qed.
Lemma bytes_eqb_refl : forall l, bytes_eqb l l = true.
Proof. intros l. unfold bytes_eqb. destruct (list_eq_dec _ _ _); congruence. Qed.
Lemma same_wrap_ok : forall v, same_wrap v (ofZ v) = Ok true.
Proof. intros v. unfold same_wrap. rewrite le32_ofZ. cbn [bind]. rewrite bytes_eqb_refl. reflexivity. Qed.
Lemma same_over_ok : forall sg v, same_over (over256 sg v) (ofZ v, negb (fitsb sg v)) = Ok true.
Proof. intros. unfold same_over, over256. cbn [fst snd]. rewrite same_wrap_ok, in256_fitsb. cbn [bind]. rewrite eqb_reflx. reflexivity. Qed.
Lemma same_check_ok : forall sg v, same_check (check256 sg v) (some_if (fitsb sg v) v) = Ok true.
Proof. intros. unfold check256, some_if. rewrite in256_fitsb. destruct (fitsb sg v); cbn [same_check]; auto. apply same_wrap_ok. Qed.

Lemma ask1_ok : forall A B sg theirs (ours : list Z -> res B) (cmp : A -> B -> res bool) x0 x1, fits_u 128 x0 -> half sg x1 ->
  (forall x, wf x -> val sg x = num256 x0 x1 -> exists r, ours x = Ok r /\ cmp (theirs (val sg x)) r = Ok true) ->
  ask1 sg theirs ours cmp x0 x1 = Ok true.
Proof.
  intros A B sg theirs ours cmp x0 x1 H0 H1 H. destruct (operand_val sg x0 x1 H0 H1) as (x & Ex & Wx & Vx).
  unfold ask1. rewrite Ex. cbn [bind]. destruct (H x Wx Vx) as (r & -> & Hr). cbn [bind]. rewrite <- Vx. exact Hr.
Qed.
Lemma ask_n_ok : forall A B sg theirs (ours : list Z -> Z -> res B) (cmp : A -> B -> res bool) x0 x1 y, fits_u 128 x0 -> half sg x1 ->
  (forall x, wf x -> exists r, ours x y = Ok r /\ cmp (theirs (val sg x) y) r = Ok true) ->
  ask_n sg theirs ours cmp x0 x1 y = Ok true.
Proof.
  intros A B sg theirs ours cmp x0 x1 y H0 H1 H. destruct (operand_val sg x0 x1 H0 H1) as (x & Ex & Wx & Vx).
  unfold ask_n. rewrite Ex. cbn [bind]. destruct (H x Wx) as (r & -> & Hr). cbn [bind]. rewrite <- Vx. exact Hr.
Qed.
Lemma ask2_ok : forall A B sg theirs (ours : list Z -> list Z -> res B) (cmp : A -> B -> res bool) x0 x1 y0 y1,
  fits_u 128 x0 -> half sg x1 -> fits_u 128 y0 -> half sg y1 ->
  (forall x y, wf x -> wf y -> val sg x = num256 x0 x1 -> val sg y = num256 y0 y1 ->
     exists r, ours x y = Ok r /\ cmp (theirs (val sg x) (val sg y)) r = Ok true) ->
  ask2 sg theirs ours cmp x0 x1 y0 y1 = Ok true.
Proof.
  intros A B sg theirs ours cmp x0 x1 y0 y1 H0 H1 H2 H3 H. destruct (operand_val sg x0 x1 H0 H1) as (x & Ex & Wx & Vx).
  destruct (operand_val sg y0 y1 H2 H3) as (y & Ey & Wy & Vy).
  unfold ask2. rewrite Ex, Ey. cbn [bind]. destruct (H x y Wx Wy Vx Vy) as (r & -> & Hr). cbn [bind]. rewrite <- Vx, <- Vy. exact Hr.
Qed.

(** A test that holds on every pair of operands. *)
Definition holds2 (sg : bool) (t : test2) : Prop := forall x0 x1 y0 y1,
  fits_u 128 x0 -> half sg x1 -> fits_u 128 y0 -> half sg y1 -> snd t x0 x1 y0 y1 = Ok true.
Definition holds_n (sg : bool) (P : Z -> Prop) (t : test_n) : Prop := forall x0 x1 y,
  fits_u 128 x0 -> half sg x1 -> P y -> snd t x0 x1 y = Ok true.
Definition holds1 (sg : bool) (t : test1) : Prop := forall x0 x1, fits_u 128 x0 -> half sg x1 -> snd t x0 x1 = Ok true.

Ltac two L := intros x0 x1 y0 y1 H0 H1 H2 H3; cbn [snd]; apply ask2_ok; auto; intros x y Hx Hy _ _; eexists; split; [apply L; auto|];
  cbn [val]; rewrite ?sat256_clamp; first [apply same_wrap_ok|apply same_over_ok|apply same_check_ok].

Lemma u256_pairs_hold : Forall (holds2 false) u256_pairs.
Proof.
  unfold u256_pairs. repeat apply Forall_cons; try apply Forall_nil.
  - two (wrapping_add_ok HV false).
  - two (wrapping_sub_ok HV false).
  - two (wrapping_mul_ok HV false).
  - two (abs_diff_ok HV false).
  - two (overflowing_add_ok HV false).
  - two (overflowing_sub_ok HV false).
  - two (overflowing_mul_ok HV false).
  - two (checked_add_ok HV false).
  - two (checked_sub_ok HV false).
  - intros x0 x1 y0 y1 H0 H1 H2 H3; cbn [snd]. apply ask2_ok; auto. intros x y Hx Hy _ _. eexists. split; [apply (checked_mul_ok HV false); auto|].
    rewrite mulf_u, negb_involutive. apply same_check_ok.
  - two (u_saturating_add_ok HV).
  - two (u_saturating_sub_ok HV).
  - two (u_saturating_mul_ok HV).
  - two (u_midpoint_ok HV).
Qed.
Lemma i256_pairs_hold : Forall (holds2 true) i256_pairs.
Proof.
  unfold i256_pairs. repeat apply Forall_cons; try apply Forall_nil.
  - two (wrapping_add_ok HV true).
  - two (wrapping_sub_ok HV true).
  - two (s_saturating_sub_ok HV).
  - two (wrapping_mul_ok HV true).
  - two (overflowing_add_ok HV true).
  - two (overflowing_sub_ok HV true).
  - two (checked_add_ok HV true).
  - two (checked_sub_ok HV true).
  - two (s_midpoint_ok HV).
  - two (s_saturating_add_ok HV).
  - two (abs_diff_ok HV true).
Qed.
Ltac amount L := intros x0 x1 y H0 H1 Hy; cbn [snd]; apply ask_n_ok; auto; intros x Hx; eexists; split;
  [apply L; first [assumption|unfold fits_u in Hy; lia]|cbn [val]; rewrite ?HB].
Lemma same_shift : forall n v, same_check (if n <? 256 then Some v else None) (some_if (n <? 256) v) = Ok true.
Proof. intros. unfold some_if. destruct (n <? 256); cbn [same_check]; auto. apply same_wrap_ok. Qed.
Lemma same_wrap_mod : forall u v, u mod 2 ^ 256 = v mod 2 ^ 256 -> same_wrap u (ofZ v) = Ok true.
Proof. intros u v H. replace (ofZ v) with (ofZ u) by (apply (ofZ_eq_mod HV); rewrite HB; auto). apply same_wrap_ok. Qed.
Lemma val_pat : forall sg x, wf x -> val sg x mod 2 ^ 256 = uval x mod 2 ^ 256.
Proof. intros sg x Hx. rewrite <- HB. destruct sg; cbn [val]; auto. rewrite (sval_mod HV) by auto. symmetry. apply Z.mod_small. apply (uval_range HV); auto. Qed.
Lemma pat_uval : forall sg x, wf x -> pat256 (val sg x) = uval x.
Proof. intros sg x Hx. unfold pat256. rewrite val_pat by auto. apply Z.mod_small. rewrite <- HB. apply (uval_range HV); auto. Qed.
Lemma shl_pat : forall sg x n, wf x -> (val sg x * 2 ^ n) mod 2 ^ 256 = (uval x * 2 ^ n) mod 2 ^ 256.
Proof. intros sg x n Hx. rewrite <- Zmult_mod_idemp_l, val_pat, Zmult_mod_idemp_l by auto. reflexivity. Qed.
Lemma same_shift_mod : forall n u v, u mod 2 ^ 256 = v mod 2 ^ 256 ->
  same_check (if n <? 256 then Some u else None) (some_if (n <? 256) v) = Ok true.
Proof. intros n u v H. unfold some_if. destruct (n <? 256); cbn [same_check]; auto. apply same_wrap_mod; auto. Qed.

Lemma u256_amounts_hold : Forall (holds_n false (fits_u 32)) u256_amounts.
Proof.
  unfold u256_amounts. repeat apply Forall_cons; try apply Forall_nil.
  - amount (checked_shl_ok HV). apply same_shift.
  - amount (checked_shr_ok HV false). apply same_shift.
  - amount (wrapping_shl_ok HV). apply same_wrap_ok.
  - amount (wrapping_shr_ok HV false). apply same_wrap_ok.
  - amount (checked_pow_ok HV false). unfold ovf. rewrite negb_involutive. apply same_check_ok.
  - amount (rotate_left_ok HV). unfold turn256, rotv. cbn zeta. change (uval x) with (val false x). rewrite (pat_uval false) by auto. apply same_wrap_ok.
  - amount (rotate_right_ok HV). unfold turn256, rotv. cbn zeta. change (uval x) with (val false x). rewrite (pat_uval false) by auto. apply same_wrap_ok.
Qed.
Lemma i256_amounts_hold : Forall (holds_n true (fits_u 32)) i256_amounts.
Proof.
  unfold i256_amounts. repeat apply Forall_cons; try apply Forall_nil.
  - amount (checked_shl_ok HV). apply same_shift_mod. apply (shl_pat true); auto.
  - amount (checked_shr_ok HV true). apply same_shift.
  - amount (rotate_left_ok HV). unfold turn256, rotv. cbn zeta. change (sval x) with (val true x). rewrite (pat_uval true) by auto. apply same_wrap_ok.
  - amount (rotate_right_ok HV). unfold turn256, rotv. cbn zeta. change (sval x) with (val true x). rewrite (pat_uval true) by auto. apply same_wrap_ok.
  - amount (wrapping_pow_ok HV true). apply same_wrap_ok.
  - amount (wrapping_shl_ok HV). apply same_wrap_mod. apply (shl_pat true); auto.
  - amount (wrapping_shr_ok HV true). apply same_wrap_ok.
Qed.

(** *** Counts *)

Lemma testbit_val : forall sg x i, wf x -> 0 <= i < 256 -> Z.testbit (val sg x) i = Z.testbit (uval x) i.
Proof. intros sg x i Hx Hi. rewrite <- (Z.mod_pow2_bits_low (val sg x) 256 i), val_pat, Z.mod_pow2_bits_low by (auto; lia). reflexivity. Qed.
Lemma count_bits_count : forall t v v' n, (forall i, 0 <= i < Z.of_nat n -> Z.testbit v i = Z.testbit v' i) ->
  count_bits t v n = bit_count (Z.of_nat n) v' t.
Proof.
  intros t v v'. unfold bit_count. induction n as [|n IH]; intros H; [reflexivity|].
  rewrite Nat2Z.id in *. rewrite seq_S, filter_app, app_length. cbn [plus filter count_bits].
  rewrite IH by (intros; apply H; lia). rewrite H by lia. rewrite Nat2Z.inj_add.
  destruct (eqb (Z.testbit v' (Z.of_nat n)) t); cbn [length b2z]; lia.
Qed.
Lemma top_bits_run : forall t v v' n, (forall i, 0 <= i < Z.of_nat n -> Z.testbit v i = Z.testbit v' i) ->
  run_top (Z.of_nat n) v' t (top_bits t v n).
Proof.
  intros t v v'. unfold run_top. induction n as [|n IH]; intros H; [cbn; repeat split; intros; lia|].
  cbn [top_bits]. rewrite H by lia. destruct IH as (I1 & I2 & I3); [intros; apply H; lia|].
  destruct (eqb (Z.testbit v' (Z.of_nat n)) t) eqn:E.
  - apply eqb_prop in E. split; [lia|]. split.
    + intros i Hi. destruct (Z.eq_dec i (Z.of_nat n)) as [->|]; auto. apply I2. lia.
    + intros L. replace (Z.of_nat (S n) - 1 - (1 + top_bits t v n)) with (Z.of_nat n - 1 - top_bits t v n) by lia. apply I3. lia.
  - split; [lia|]. split; [intros; lia|]. intros _. replace (Z.of_nat (S n) - 1 - 0) with (Z.of_nat n) by lia.
    destruct (Z.testbit v' (Z.of_nat n)), t; first [reflexivity|discriminate E].
Qed.
Lemma low_bits_run : forall t n v v', (forall i, 0 <= i < Z.of_nat n -> Z.testbit v i = Z.testbit v' i) ->
  run_bot (Z.of_nat n) v' t (low_bits t v n).
Proof.
  intros t. unfold run_bot. induction n as [|n IH]; intros v v' H; [cbn; repeat split; intros; lia|].
  cbn [low_bits]. destruct (IH (v / 2) (v' / 2)) as (I1 & I2 & I3).
  { intros i Hi. rewrite !Z.div2_bits by lia. apply H. lia. }
  rewrite <- Z.bit0_odd, H by lia. destruct (eqb (Z.testbit v' 0) t) eqn:E.
  - apply eqb_prop in E. split; [lia|]. split.
    + intros i Hi. destruct (Z.eq_dec i 0) as [->|]; auto. specialize (I2 (i - 1) ltac:(lia)). rewrite Z.div2_bits in I2 by lia.
      rewrite <- I2. f_equal. lia.
    + intros L. specialize (I3 ltac:(lia)). rewrite Z.div2_bits in I3 by lia. rewrite <- I3. f_equal. lia.
  - split; [lia|]. split; [intros; lia|]. intros _. destruct (Z.testbit v' 0), t; first [reflexivity|discriminate E].
Qed.
Lemma mirror_rev : forall n v, mirror v n = p_reverse_bits n v.
Proof. induction n; intros; cbn [mirror p_reverse_bits]; auto. rewrite IHn. reflexivity. Qed.

Lemma int_ok : forall v r, v = r -> same_int v r = Ok true.
Proof. intros v r ->. unfold same_int. rewrite Z.eqb_refl. reflexivity. Qed.
Ltac one L := intros x0 x1 H0 H1; cbn [snd]; apply ask1_ok; auto; intros x Hx Vx; eexists; split; [apply L; auto|].
Ltac one_ex L := intros x0 x1 H0 H1; cbn [snd]; apply ask1_ok; auto; intros x Hx Vx;
  let r := fresh "r" in let R := fresh "R" in destruct (L x Hx) as (r & -> & R); eexists; split; [reflexivity|].
Lemma bits_hold : forall sg, Forall (holds1 sg) (bit_tests sg).
Proof.
  intros sg. assert (T : forall x, wf x -> forall i, 0 <= i < Z.of_nat 256 -> Z.testbit (val sg x) i = Z.testbit (uval x) i)
    by (intros; apply testbit_val; auto).
  unfold bit_tests. repeat apply Forall_cons; try apply Forall_nil.
  - one (count_ones_ok HV). apply int_ok. rewrite (count_bits_count _ _ (uval x)) by auto. rewrite HB. unfold bit_count, ones.
    do 2 f_equal. apply filter_ext. intros. destruct (Z.testbit _ _); reflexivity.
  - one (count_zeros_ok HV). apply int_ok. rewrite (count_bits_count _ _ (uval x)) by auto. rewrite HB. reflexivity.
  - one (leading_zeros_ok HV). apply int_ok. eapply run_top_unique; [apply top_bits_run; apply T; auto|].
    rewrite HB. apply lz_run; [lia|]. rewrite <- HB. apply (uval_range HV); auto.
  - one_ex (leading_ones_ok HV). apply int_ok. eapply run_top_unique; [apply top_bits_run; apply T; auto|].
    rewrite HB in R. exact R.
  - one_ex (trailing_zeros_ok HV). apply int_ok. eapply run_bot_unique; [apply low_bits_run; apply T; auto|].
    rewrite HB in R. apply tz_run; [lia|exact R].
  - one_ex (trailing_ones_ok HV). apply int_ok. eapply run_bot_unique; [apply low_bits_run; apply T; auto|].
    rewrite HB in R. exact R.
  - intros x0 x1 H0 H1. cbn [snd]. apply ask1_ok; auto. intros x Hx _. pose proof (swap_bytes_ok HV false x Hx) as E. cbn [ord] in E.
    eexists. split; [exact E|]. apply same_wrap_mod. f_equal. unfold swapz, revz. rewrite le_value_lval, le_bytes_lenc, bytes_32. do 2 f_equal.
    apply lenc_eq_mod; [lia|]. apply val_pat; auto.
  - intros x0 x1 H0 H1. cbn [snd]. apply ask1_ok; auto. intros x Hx _. pose proof (reverse_bits_ok HV false x Hx) as E. cbn [ord] in E.
    eexists. split; [exact E|]. apply same_wrap_mod. f_equal. unfold revbz, revz. rewrite mirror_rev, p_reverse_bits_ok, HB.
    change (Z.to_nat 256) with 256%nat. do 2 f_equal.
    apply lenc_eq_mod; [lia|]. apply val_pat; auto.
Qed.

Lemma half_max : forall sg x1, half sg x1 -> half sg (Z.max x1 1).
Proof. intros [] x1 H; unfold half, fits_s, fits_u in *; lia. Qed.
Lemma num_pos : forall x0 x1, fits_u 128 x0 -> 1 <= x1 -> 0 < num256 x0 x1.
Proof. intros x0 x1 H H1. unfold num256, fits_u in *. lia. Qed.
Lemma pow_log2 : forall v, 0 <= v -> ((v =? 2 ^ Z.log2 v) = true <-> exists k, 0 <= k /\ v = 2 ^ k).
Proof.
  intros v Hv. rewrite Z.eqb_eq. split.
  - intros E. exists (Z.log2 v). split; auto using Z.log2_nonneg.
  - intros (k & Hk & ->). rewrite Z.log2_pow2; auto.
Qed.
Lemma ilog_holds : forall sg x0 x1, fits_u 128 x0 -> half sg x1 -> 1 <= x1 -> ask1 sg Z.log2 (ilog2 sg) same_int x0 x1 = Ok true.
Proof.
  intros sg x0 x1 H0 H1 H2. apply ask1_ok; auto. intros x Hx Vx. rewrite (ilog2_ok HV) by auto.
  pose proof (num_pos x0 x1 H0 H2). rewrite (proj2 (Z.leb_gt _ _)) by lia. eexists. split; [reflexivity|]. apply int_ok. reflexivity.
Qed.
Lemma half_bits : PMisc.HB = 128.
Proof. destruct (HB_BITS HV) as (E & _). lia. Qed.
Lemma u256_singles_hold : Forall (holds1 false) u256_singles.
Proof.
  unfold u256_singles. repeat apply Forall_cons; try apply Forall_nil.
  - one (u_wrapping_neg_ok HV). apply same_wrap_ok.
  - intros x0 x1 H0 H1. cbn [snd]. apply ask1_ok; auto. intros x Hx _. exists x. rewrite <- (ofZ_val HV false x Hx).
    unfold cast_signed, as_signed. rewrite (mk_ok HV), (ofZ_val HV) by auto. split; [reflexivity|]. rewrite <- (ofZ_val HV false x Hx) at 2. apply same_wrap_ok.
  - intros x0 x1 H0 H1. cbn [snd]. apply ilog_holds; auto using half_max. lia.
  - one_ex (is_power_of_two_ok HV). unfold same_bool. f_equal. apply eqb_true_iff. cbn [val].
    pose proof (uval_range HV x Hx) as U. pose proof (pow_log2 (uval x) (proj1 U)) as P.
    destruct (uval x =? 2 ^ Z.log2 (uval x)), r; auto; [symmetry|]; tauto.
  - one (wrapping_next_power_of_two_ok HV). apply same_wrap_ok.
  - one (checked_next_power_of_two_ok HV). apply same_check_ok.
  - intros x0 x1 H0 H1. cbn [snd]. rewrite operand_ok by auto. cbn [bind]. rewrite (low_ok HV) by apply (wf_ofZ HV). cbn [bind].
    rewrite (as_u128_ok HV) by apply (wf_ofZ HV). cbn [bind]. f_equal. rewrite Z.eqb_eq. rewrite half_bits.
    pose proof (num_fits false x0 x1 H0 H1) as F. pose proof (val_ofZ_small HV false _ F) as E. cbn [val] in E. rewrite E.
    unfold num256, half, fits_u in *. replace ((x0 + 2 ^ 128 * x1) mod 2 ^ 128) with x0 by (rewrite Z.mul_comm, Z.mod_add, Z.mod_small; lia).
    pose proof (val_ofZ_small HV false x0) as E0. cbn [val fits] in E0. rewrite E0 by (unfold fits_u; rewrite HB; lia).
    apply Z.mod_small. lia.
  - intros x0 x1 H0 H1. cbn [snd]. rewrite operand_ok by auto. cbn [bind]. rewrite (high_ok HV) by apply (wf_ofZ HV). cbn [bind].
    rewrite (as_u128_ok HV) by apply (wf_ofZ HV). cbn [bind]. f_equal. rewrite Z.eqb_eq. rewrite half_bits.
    pose proof (num_fits false x0 x1 H0 H1) as F. pose proof (val_ofZ_small HV false _ F) as E. cbn [val] in E. rewrite E.
    unfold num256, half, fits_u in *. replace ((x0 + 2 ^ 128 * x1) / 2 ^ 128) with x1 by (rewrite Z.mul_comm, Z.div_add, Z.div_small; lia).
    pose proof (val_ofZ_small HV false x1) as E0. cbn [val fits] in E0. rewrite E0 by (unfold fits_u; rewrite HB; lia).
    apply Z.mod_small. lia.
Qed.
Lemma i256_ilog2_holds : forall x0 x1, fits_u 128 x0 -> fits_u 128 x1 -> i256_ilog2 x0 x1 = Ok true.
Proof.
  intros x0 x1 H0 H1. unfold i256_ilog2. cbn zeta. assert (E : scast 128 (Z.min x1 (2 ^ 127 - 1)) = Z.min x1 (2 ^ 127 - 1)).
  { unfold scast, swrap, fits_u in *. rewrite (Z.mod_small (Z.min _ _)) by lia. rewrite (proj2 (Z.ltb_lt _ _)); [reflexivity|]. change (128 - 1) with 127. lia. }
  rewrite E. apply ilog_holds; auto; [|lia]. unfold half, fits_s, fits_u in *. change (128 - 1) with 127. lia.
Qed.
Lemma i256_singles_hold : Forall (holds1 true) i256_singles.
Proof.
  unfold i256_singles. repeat apply Forall_cons; try apply Forall_nil.
  - one (s_wrapping_neg_ok HV). apply same_wrap_ok.
  - intros x0 x1 H0 H1. cbn [snd]. apply ask1_ok; auto. intros x Hx _. exists x. rewrite <- (ofZ_val HV true x Hx).
    unfold cast_unsigned, as_unsigned. rewrite (mk_ok HV), (ofZ_val HV) by auto. split; [reflexivity|]. rewrite <- (ofZ_val HV true x Hx) at 2. apply same_wrap_ok.
  - one (checked_ilog2_ok HV). cbn [val]. unfold same_int_opt. destruct (sval x <=? 0); rewrite ?Z.eqb_refl; reflexivity.
  - one (s_saturating_neg_ok HV). rewrite sat256_clamp. apply same_wrap_ok.
  - one (s_saturating_abs_ok HV). rewrite sat256_clamp. apply same_wrap_ok.
  - one (s_wrapping_abs_ok HV). apply same_wrap_ok.
  - one (unsigned_abs_ok HV). apply same_wrap_ok.
  - intros x0 x1 H0 H1. cbn [snd]. destruct (negb (x0 =? 2 ^ 128 - 1) && negb (x1 =? - 2 ^ 127)) eqn:G.
    + apply ask1_ok; auto. intros x Hx Vx. rewrite (s_abs_ok HV) by auto. unfold ok_if. apply andb_true_iff in G. destruct G as (_ & G).
      apply negb_true_iff, Z.eqb_neq in G. destruct (fitsb_reflect true (Z.abs (sval x))) as [F|F].
      * eexists. split; [reflexivity|]. apply same_wrap_ok.
      * exfalso. apply F. cbn [fits val] in *. unfold fits_s, half, fits_u in *. rewrite Vx, HB. unfold num256 in *.
        change (256 - 1) with 255. change (2 ^ 255) with (2 ^ 128 * 2 ^ 127). unfold fits_s in H1. change (128 - 1) with 127 in H1. lia.
    + apply ask1_ok; auto. intros x Hx Vx. rewrite (s_wrapping_abs_ok HV) by auto. eexists. split; [reflexivity|]. apply same_wrap_ok.
  - one (signum_ok HV). apply same_wrap_ok.
  - one (is_positive_ok HV). unfold same_bool. rewrite eqb_reflx. reflexivity.
  - one (is_negative_ok HV). unfold same_bool. rewrite eqb_reflx. reflexivity.
  - one (s_checked_abs_ok HV). apply same_check_ok.
Qed.
Lemma u256_high_mul_holds : forall x0 x1 y0 y1, fits_u 128 x0 -> fits_u 128 x1 -> fits_u 128 y0 -> fits_u 128 y1 ->
  u256_high_mul x0 x1 y0 y1 = Ok true.
Proof.
  intros x0 x1 y0 y1 H0 H1 H2 H3. unfold u256_high_mul. rewrite !operand_ok by auto. cbn [bind].
  rewrite (widening_mul_ok HV), (high_mul_ok HV) by apply (wf_ofZ HV). cbn [bind]. f_equal. unfold derived_eq. destruct (list_eq_dec _ _ _); congruence.
Qed.

(** *** Scalars *)

Definition sfits (ps : bool) (k : skind) (y : Z) : Prop := if ps then fits_s (kbits k) y else fits_u (kbits k) y.
Lemma kbits_range : forall k, 32 <= kbits k <= 128.
Proof. intros k. destruct (W_cases HV) as [E|E]; destruct k; cbn [kbits]; rewrite ?E; lia. Qed.
Lemma into_full_ok : forall ps k y, sfits ps k y -> into_full ps k y = Ok (ofZ y).
Proof.
  intros ps k y H. unfold into_full, from_trait.
  assert (P : pbits (scalar_prim k) = kbits k) by (destruct (W_cases HV) as [E|E]; destruct k; cbn [scalar_prim kbits]; rewrite ?E; reflexivity).
  apply (from_prim_ok HV); unfold prim_ok, pfits; rewrite P; auto. pose proof (kbits_range k). lia.
Qed.
Lemma small_fits : forall sg ps k y, (sg = false -> ps = false) -> sfits ps k y -> fits sg y.
Proof.
  intros sg ps k y Hs H. pose proof (kbits_range k) as K. pose proof (pow2_le_mono (kbits k) 128) as P1. pose proof (pow2_le_mono (kbits k - 1) 127) as P2.
  assert (P3 : 2 ^ 128 <= 2 ^ 255) by (apply pow2_le_mono; lia). assert (P4 : 2 ^ 127 <= 2 ^ 128) by (apply pow2_le_mono; lia).
  assert (P5 : 2 ^ 255 <= 2 ^ 256) by (apply pow2_le_mono; lia).
  unfold sfits, fits, fits_s, fits_u in *. rewrite HB. change (256 - 1) with 255. destruct sg, ps; try (specialize (Hs eq_refl); discriminate); lia.
Qed.
Lemma small_val : forall sg ps k y, (sg = false -> ps = false) -> sfits ps k y -> val sg (ofZ y) = y.
Proof. intros. apply (val_ofZ_small HV). eapply small_fits; eauto. Qed.
Lemma ours_wrap_ok : forall v, ours_wrap (ofZ v) (ofZ v) = Ok true.
Proof. intros v. unfold ours_wrap. rewrite le32_ofZ. cbn [bind]. rewrite bytes_eqb_refl. reflexivity. Qed.
Lemma ours_over_ok : forall v f, ours_over (ofZ v, f) (ofZ v, f) = Ok true.
Proof. intros. unfold ours_over. cbn [fst snd]. rewrite ours_wrap_ok, eqb_reflx. reflexivity. Qed.
Lemma ours_check_ok : forall b v, ours_check (some_if b v) (some_if b v) = Ok true.
Proof. intros []; intros; cbn [some_if ours_check]; auto. apply ours_wrap_ok. Qed.
Lemma ask_s_eq : forall A B sg ps k full (short : list Z -> Z -> res B) (cmp : A -> B -> res bool) x0 x1 y,
  fits_u 128 x0 -> half sg x1 -> sfits ps k y ->
  exists x, wf x /\ val sg x = num256 x0 x1 /\
    ask_s sg ps k full short cmp x0 x1 y = let* f := full x (ofZ y) in let* l := short x y in cmp f l.
Proof.
  intros A B sg ps k full short cmp x0 x1 y H0 H1 H2. destruct (operand_val sg x0 x1 H0 H1) as (x & Ex & Wx & Vx).
  exists x. split; [|split]; auto. unfold ask_s. rewrite Ex, into_full_ok by auto. reflexivity.
Qed.
Ltac scalar H2 := intros x0 x1 y H0 H1 H2; cbn [snd];
  match goal with |- ask_s ?sg ?ps ?k ?f ?s ?c ?x0 ?x1 ?y = _ =>
    let x := fresh "x" in let Hx := fresh "Hx" in let Vx := fresh "Vx" in
    destruct (ask_s_eq _ _ sg ps k f s c x0 x1 y) as (x & Hx & Vx & ->); auto end.
Lemma full_checked_ok : forall o sg x y, wf x -> wf y ->
  full_checked o sg x y = Ok (some_if (negb (oflag o sg (val sg x) (val sg y))) (sopz o (val sg x) (val sg y))).
Proof.
  intros [] sg x y Hx Hy; cbn [full_checked oflag sopz].
  - rewrite (checked_add_ok HV), negb_involutive by auto. reflexivity.
  - rewrite (checked_sub_ok HV), negb_involutive by auto. reflexivity.
  - apply (checked_mul_ok HV); auto.
Qed.
Lemma not_swapped : forall k, k <> K128 -> ~ swapped k.
Proof. intros k Hk (E & _). contradiction. Qed.
Lemma unsigned_scalar_holds : forall o k sg, k <> K128 -> Forall (holds_n sg (fits_u (kbits k))) (unsigned_scalar o k sg).
Proof.
  intros o k sg Hk. pose proof (not_swapped k Hk) as Hs.
  assert (V : forall y, fits_u (kbits k) y -> val sg (ofZ y) = y) by (intros; apply (small_val sg false k); auto).
  unfold unsigned_scalar. repeat apply Forall_cons; try apply Forall_nil; scalar Hy.
  - replace (full_wrapping o sg x (ofZ y)) with (wrapping_full o sg x (ofZ y)) by (destruct o; reflexivity). rewrite (wrapping_full_ok HV), (wrapping_us_ok HV), V by (auto; apply (wf_ofZ HV)).
    apply ours_wrap_ok.
  - replace (full_overflowing o sg x (ofZ y)) with (overflowing_full o sg x (ofZ y)) by (destruct o; reflexivity).
    rewrite (overflowing_full_ok HV), (overflowing_us_ok HV), V by (auto; apply (wf_ofZ HV)). apply ours_over_ok.
  - rewrite full_checked_ok, (checked_us_ok HV), V by (auto; apply (wf_ofZ HV)). apply ours_check_ok.
Qed.
Lemma signed_scalar_holds : forall o k, k <> K128 -> Forall (holds_n true (fits_s (kbits k))) (signed_scalar o k).
Proof.
  intros o k Hk. pose proof (not_swapped k Hk) as Hs.
  assert (V : forall y, fits_s (kbits k) y -> val true (ofZ y) = y) by (intros; apply (small_val true true k); auto).
  unfold signed_scalar. repeat apply Forall_cons; try apply Forall_nil; scalar Hy.
  - replace (full_wrapping o true x (ofZ y)) with (wrapping_full o true x (ofZ y)) by (destruct o; reflexivity). rewrite (wrapping_full_ok HV), (wrapping_is_ok HV), V by (auto; apply (wf_ofZ HV)).
    apply ours_wrap_ok.
  - replace (full_overflowing o true x (ofZ y)) with (overflowing_full o true x (ofZ y)) by (destruct o; reflexivity).
    rewrite (overflowing_full_ok HV), (overflowing_is_ok HV), V by (auto; apply (wf_ofZ HV)). apply ours_over_ok.
  - rewrite full_checked_ok, (checked_is_ok HV), V by (auto; apply (wf_ofZ HV)). apply ours_check_ok.
Qed.

(** *** Division by scalars *)

(** The divisor has two limbs, the numerator more, and some digit needs a correction. *)
Definition two_limb_correction (x y : Z) : bool := (2 ^ (2 * W) <=? Z.abs x) && (2 ^ W <=? Z.abs y) && has_correction W (Z.abs x) (Z.abs y).

Lemma small_no_correction : forall w x d, 0 < w -> 0 <= x < 2 ^ (2 * w) -> 2 ^ w <= d < 2 ^ (2 * w) -> has_correction w x d = false.
Proof.
  intros w x d Hw Hx Hd. pose proof (pow2_pos w ltac:(lia)) as Pw.
  assert (E2 : 2 ^ (2 * w) = 2 ^ w * 2 ^ w) by (rewrite <- Z.pow_add_r by lia; f_equal; lia).
  assert (L1 : w <= Z.log2 d) by (apply Z.log2_le_pow2; lia). assert (L2 : Z.log2 d < 2 * w) by (apply Z.log2_lt_pow2; lia).
  assert (Q : Z.log2 d / w = 1) by (symmetry; apply (Z.div_unique _ _ _ (Z.log2 d - w)); lia).
  assert (Lx : 0 <= Z.log2 x < 2 * w).
  { split; [apply Z.log2_nonneg|]. destruct (Z.eq_dec x 0) as [->|]; [rewrite Z.log2_nonpos; lia|apply Z.log2_lt_pow2; lia]. }
  assert (Qx : Z.log2 x / w <= 1) by (apply Z.lt_succ_r; apply Z.div_lt_upper_bound; lia).
  assert (Qx0 : 0 <= Z.log2 x / w) by (apply Z.div_pos; lia).
  unfold has_correction, norm_shift, limbs_of. rewrite Q. change (Z.to_nat (1 + 1)) with 2%nat.
  replace (Z.to_nat (Z.log2 x / w + 1) - 2)%nat with 0%nat by lia. cbn [plus seq existsb]. rewrite orb_false_r.
  set (s := w * (1 + 1) - 1 - Z.log2 d). assert (Hs : 0 <= s <= w - 1) by (unfold s; lia).
  pose proof (pow2_pos s ltac:(lia)) as Ps. assert (Sl : 2 ^ s <= 2 ^ (w - 1)) by (apply pow2_le_mono; lia).
  unfold overestimated, window. change (Z.of_nat 0) with 0. rewrite Z.mul_0_r. change (2 ^ 0) with 1. rewrite Z.div_1_r.
  assert (Xd : x < d * 2 ^ w) by nia. replace (d * 2 ^ s * 2 ^ w) with (d * 2 ^ w * 2 ^ s) by ring.
  rewrite (Z.mod_small (x * 2 ^ s)) by (split; [nia|apply Z.mul_lt_mono_pos_r; lia]).
  unfold digit_estimate. cbn zeta. change (Z.of_nat 2) with 2. change (2 - 1) with 1. change (2 - 2) with 0.
  rewrite Z.mul_1_r, Z.mul_0_r. change (2 ^ 0) with 1. rewrite !Z.div_1_r.
  assert (A : x * 2 ^ s / 2 ^ (w * 2) < 2 ^ s) by (apply Z.div_lt_upper_bound; [apply pow2_pos; lia|]; replace (w * 2) with (2 * w) by lia; nia).
  assert (Bd : 2 ^ (w - 1) <= d * 2 ^ s / 2 ^ w).
  { apply Z.div_le_lower_bound; [lia|]. rewrite <- Z.pow_add_r by lia. replace (w + (w - 1)) with (Z.log2 d + s) by (unfold s; lia).
    rewrite Z.pow_add_r by lia. apply Z.mul_le_mono_nonneg_r; [lia|]. apply Z.log2_spec. lia. }
  match goal with |- context [?a <? ?b] => destruct (Z.ltb_spec a b) as [F|F]; [apply Z.ltb_irrefl|exfalso] end. lia.
Qed.
(** What the two divisions see when no correction stands in the way. *)
Lemma no_two_limb : forall k x y, k <> K128 -> y <> 0 -> Z.abs y < 2 ^ kbits k -> two_limb_correction x y = false ->
  exact_division W N (Z.abs x) (Z.abs y) /\ exact_scalar W N (kbits k) (Z.abs x) (Z.abs y).
Proof.
  intros k x y Hk Hy Hb HF. unfold two_limb_correction in HF. pose proof (W_pos HV) as HW.
  assert (K : kbits k <= 2 * W) by (destruct (W_cases HV) as [E|E]; destruct k; cbn [kbits]; rewrite ?E; try lia; congruence).
  assert (PK : 2 ^ kbits k <= 2 ^ (2 * W)) by (apply Z.pow_le_mono_r; lia).
  unfold exact_division, exact_scalar.
  destruct (Z.leb_spec (2 ^ W) (Z.abs y)) as [G|G]; [|split; [tauto|]; right; right; tauto].
  destruct (Z.leb_spec (2 ^ (2 * W)) (Z.abs x)) as [G'|G']; cbn [andb] in HF.
  - rewrite HF. split; [tauto|]. do 4 right. left. tauto.
  - rewrite small_no_correction by lia. split; tauto.
Qed.
Lemma two_limb_none : forall k x y, k <> K128 -> W < kbits k -> two_limb_correction x y = true ->
  scalar_outcome W N (kbits k) (Z.abs x) (Z.abs y) = None.
Proof.
  intros k x y Hk HW HF. unfold two_limb_correction in HF. pose proof (W_pos HV) as HW0.
  assert (K : kbits k <= 2 * W) by (destruct (W_cases HV) as [E|E]; destruct k; cbn [kbits]; rewrite ?E; try lia; congruence).
  apply andb_true_iff in HF. destruct HF as (HF & H3). apply andb_true_iff in HF. destruct HF as (H1 & H2).
  unfold scalar_outcome. destruct (Z.leb_spec (kbits k) W); [lia|]. rewrite H1, H2, H3.
  apply Z.leb_le in H1, H2. assert (0 < 2 ^ W) by (apply pow2_pos; lia). assert (0 < 2 ^ (2 * W)) by (apply pow2_pos; lia).
  destruct (Z.eqb_spec (Z.abs x) 0); [lia|]. destruct (Z.eqb_spec (Z.abs y) 0); [lia|]. destruct (Z.leb_spec (kbits k) (2 * W)); [|lia]. reflexivity.
Qed.
Lemma limb_no_two : forall k x y, kbits k <= W -> Z.abs y < 2 ^ kbits k -> two_limb_correction x y = false.
Proof.
  intros k x y Hk Hy. unfold two_limb_correction. assert (2 ^ kbits k <= 2 ^ W) by (apply Z.pow_le_mono_r; lia).
  destruct (Z.leb_spec (2 ^ W) (Z.abs y)); [lia|]. rewrite andb_false_r. reflexivity.
Qed.
Lemma then_panic : forall A B (f : res A) (s : res B) (cmp : A -> B -> res bool), f <> OutOfFuel -> s = Panic ->
  (let* a := f in let* b := s in cmp a b) = Panic.
Proof. intros A B [a| |] s cmp Hf ->; cbn [bind]; congruence. Qed.
Lemma lift1_fuel : forall o, lift1 o <> OutOfFuel.
Proof. destruct o; discriminate. Qed.
Lemma lift_f_fuel : forall o, lift_f o <> OutOfFuel.
Proof. destruct o; discriminate. Qed.
Lemma chko_fuel : forall sg x y o, chko sg x y o <> OutOfFuel.
Proof. intros. unfold chko. destruct (dnone _ _ _); [discriminate|]. destruct o; discriminate. Qed.
Lemma ours_rem_ok : forall ps k r, sfits ps k r -> ours_rem ps k (ofZ r) r = Ok true.
Proof. intros. unfold ours_rem. rewrite into_full_ok by auto. cbn [bind]. f_equal. unfold derived_eq. destruct (list_eq_dec _ _ _); congruence. Qed.
Lemma ours_rem_over_ok : forall ps k r f, sfits ps k r -> ours_rem_over ps k (ofZ r, f) (r, f) = Ok true.
Proof. intros. unfold ours_rem_over. cbn [fst snd]. rewrite ours_rem_ok by auto. cbn [bind]. rewrite eqb_reflx. reflexivity. Qed.
Lemma ours_rem_check_ok : forall ps k r, sfits ps k r -> ours_rem_check ps k (Some (ofZ r)) (Some r) = Ok true.
Proof. intros. unfold ours_rem_check. rewrite into_full_ok by auto. cbn [bind]. apply ours_wrap_ok. Qed.

Definition decided (sg : bool) (P : Z -> Prop) (skip : Z -> Z -> Z -> bool) (t : test_n) : Prop := forall x0 x1 y,
  fits_u 128 x0 -> half sg x1 -> P y ->
  snd t x0 x1 y = if negb (skip x0 x1 y) && two_limb_correction (num256 x0 x1) y then Panic else Ok true.
Definition skip_zero (x0 x1 y : Z) : bool := y =? 0.
Definition skip_min (x0 x1 y : Z) : bool := (y =? 0) || (negb (y =? -1) && (x0 =? 0) && (x1 =? - 2 ^ 127)).

Ltac split_u := intros x0 x1 y H0 H1 Hy; cbn [snd]; unfold nonzero, skip_zero; destruct (Z.eqb_spec y 0) as [|Hy0]; [reflexivity|]; cbn [negb andb];
  match goal with |- ask_s ?sg ?ps ?k ?f ?s ?c ?x0 ?x1 ?y = _ =>
    let x := fresh "x" in let Hx := fresh "Hx" in let Vx := fresh "Vx" in
    destruct (ask_s_eq _ _ sg ps k f s c x0 x1 y) as (x & Hx & Vx & ->); auto; rewrite <- Vx end.

Lemma unsigned_scalar_division_decided : forall k, k <> K128 ->
  Forall (decided false (fits_u (kbits k)) skip_zero) (unsigned_scalar_division k).
Proof.
  intros k Hk. assert (V : forall y, fits_u (kbits k) y -> val false (ofZ y) = y) by (intros; apply (small_val false false k); auto).
  assert (X : forall x y, wf x -> fits_u (kbits k) y -> y <> 0 -> two_limb_correction (val false x) y = true ->
    wrapping_div_rem_us k false x y = Panic /\ overflowing_div_rem_us k false x y = Panic /\ checked_div_rem_us k false x y = Panic).
  { intros x y Hx Hy H0 HC. assert (E : wrapping_div_rem_us k false x y = Panic).
    { apply (wrapping_div_rem_us_panic HV); auto. assert (A : y = Z.abs y) by (unfold fits_u in Hy; lia). rewrite A at 1.
      apply two_limb_none; auto. destruct (Z.lt_ge_cases W (kbits k)) as [|G]; auto.
      rewrite (limb_no_two k) in HC by (auto; unfold fits_u in Hy; lia). discriminate. }
    unfold overflowing_div_rem_us, checked_div_rem_us. rewrite E. destruct (Z.eqb_spec y 0); [contradiction|]. auto. }
  assert (Y : forall x y, wf x -> fits_u (kbits k) y -> y <> 0 -> two_limb_correction (val false x) y = false ->
    sq (val false x) (val false (ofZ y)) = Some (uval x / y) /\ sr (val false x) (val false (ofZ y)) = Some (uval x mod y) /\
    wrapping_div_rem_us k false x y = Ok (ofZ (uval x / y), uval x mod y)).
  { intros x y Hx Hy H0 HC. destruct (no_two_limb k (val false x) y Hk H0) as (E1 & E2); auto; [unfold fits_u in Hy; lia|].
    rewrite V by auto. pose proof (uval_range HV x Hx) as U. cbn [val] in *. unfold fits_u in Hy.
    rewrite sq_exact, sr_exact by auto. rewrite Z.quot_div_nonneg, Z.rem_mod_nonneg by lia. split; [|split]; auto.
    rewrite (Z.abs_eq y) in E2 by lia. apply (wrapping_div_rem_us_ok HV k false); auto; unfold fits_u; lia. }
  assert (R : forall v y, fits_u (kbits k) y -> y <> 0 -> sfits false k (v mod y)).
  { intros v y Hy H0. cbn [sfits]. unfold fits_u in *. pose proof (Z.mod_pos_bound v y ltac:(lia)). lia. }
  assert (DN : forall v y, fits_u (kbits k) y -> y <> 0 -> dnone false v (val false (ofZ y)) = false).
  { intros v y Hy H0. rewrite V by auto. unfold dnone, dovf. cbn [andb]. destruct (Z.eqb_spec y 0); [contradiction|reflexivity]. }
  unfold unsigned_scalar_division. repeat apply Forall_cons; try apply Forall_nil; split_u;
    destruct (two_limb_correction (val false x) y) eqn:HC;
    first [destruct (X x y Hx Hy Hy0 HC) as (X1 & X2 & X3); clear X Y | destruct (Y x y Hx Hy Hy0 HC) as (Y1 & Y2 & Y3); clear X Y].
  - apply then_panic; [rewrite (wrapping_div_ok HV) by (auto; apply (wf_ofZ HV)); apply lift1_fuel|unfold wrapping_div_us; rewrite X1; reflexivity].
  - rewrite (wrapping_div_ok HV) by (auto; apply (wf_ofZ HV)). rewrite Y1. unfold wrapping_div_us. rewrite Y3. apply ours_wrap_ok.
  - apply then_panic; [rewrite (wrapping_rem_ok HV) by (auto; apply (wf_ofZ HV)); apply lift1_fuel|unfold wrapping_rem_us; rewrite X1; reflexivity].
  - rewrite (wrapping_rem_ok HV) by (auto; apply (wf_ofZ HV)). rewrite Y2. unfold wrapping_rem_us. rewrite Y3. apply ours_rem_ok; auto.
  - apply then_panic; [rewrite (overflowing_div_ok HV) by (auto; apply (wf_ofZ HV)); apply lift_f_fuel|unfold overflowing_div_us; rewrite X2; reflexivity].
  - rewrite (overflowing_div_ok HV) by (auto; apply (wf_ofZ HV)). rewrite Y1. unfold overflowing_div_us, overflowing_div_rem_us. rewrite Y3. apply ours_over_ok.
  - apply then_panic; [rewrite (overflowing_rem_ok HV) by (auto; apply (wf_ofZ HV)); apply lift_f_fuel|unfold overflowing_rem_us; rewrite X2; reflexivity].
  - rewrite (overflowing_rem_ok HV) by (auto; apply (wf_ofZ HV)). rewrite Y2. unfold overflowing_rem_us, overflowing_div_rem_us. rewrite Y3.
    apply ours_rem_over_ok. apply R; auto.
  - apply then_panic; [rewrite (checked_div_ok HV) by (auto; apply (wf_ofZ HV)); apply chko_fuel|unfold checked_div_us; rewrite X3; reflexivity].
  - rewrite (checked_div_ok HV) by (auto; apply (wf_ofZ HV)). unfold chko. rewrite DN, Y1 by auto. unfold checked_div_us, checked_div_rem_us. rewrite Y3.
    destruct (Z.eqb_spec y 0); [contradiction|]. apply ours_wrap_ok.
  - apply then_panic; [rewrite (checked_rem_ok HV) by (auto; apply (wf_ofZ HV)); apply chko_fuel|unfold checked_rem_us; rewrite X3; reflexivity].
  - rewrite (checked_rem_ok HV) by (auto; apply (wf_ofZ HV)). unfold chko. rewrite DN, Y2 by auto. unfold checked_rem_us, checked_div_rem_us. rewrite Y3.
    destruct (Z.eqb_spec y 0); [contradiction|]. apply ours_rem_check_ok. apply R; auto.
Qed.

Lemma dovf_fits : forall x y, wf x -> fits_s BITS y -> y <> 0 -> dovf true (sval x) y = negb (fitsb true (Z.quot (sval x) y)).
Proof.
  intros x y Hx Hy H0. pose proof (sval_range HV x Hx) as U. destruct (dovf true (sval x) y) eqn:D.
  - apply dovf_iff in D. destruct D as (E & ->). rewrite E. destruct (fitsb_reflect true (Z.quot (- 2 ^ (BITS - 1)) (-1))) as [F|F]; auto.
    exfalso. change (-1) with (- (1)) in F. rewrite Z.quot_opp_opp, Z.quot_1_r in F by lia. cbn in F. unfold fits_s in F. lia.
  - destruct (fitsb_reflect true (Z.quot (sval x) y)) as [F|F]; auto. exfalso. apply F. apply (quot_fits HV); auto.
    intros (E1 & E2). assert (dovf true (sval x) y = true) by (apply dovf_iff; auto). congruence.
Qed.
Lemma overflowing_is_eq : forall k x y, wf x -> y <> 0 -> fits_s (kbits k) y -> k <> K128 -> two_limb_correction (sval x) y = false ->
  overflowing_div_is k x y = Ok (ofZ (Z.quot (sval x) y), negb (fitsb true (Z.quot (sval x) y))) /\
  overflowing_rem_is k x y = Ok (Z.rem (sval x) y, negb (fitsb true (Z.quot (sval x) y))).
Proof.
  intros k x y Hx H0 Hy Hk HC. pose proof (kbits_range k) as KR.
  assert (Hb : Z.abs y < 2 ^ kbits k) by (unfold fits_s in Hy; rewrite (pow2_half (kbits k)) by lia; lia).
  destruct (no_two_limb k (sval x) y Hk H0 Hb HC) as (_ & HE).
  assert (G : overflowing_div_rem_is k x y = Ok (ofZ (Z.quot (sval x) y), Z.rem (sval x) y, negb (fitsb true (Z.quot (sval x) y))))
    by (apply (overflowing_div_rem_is_ok HV); auto).
  unfold overflowing_div_is, overflowing_rem_is. destruct k; try (rewrite G; split; reflexivity). clear G.
  assert (W32 : 32 <= W) by (destruct (W_cases HV); lia). cbn [kbits] in Hy, HE.
  assert (FW : fits_s W y).
  { unfold fits_s in *. assert (2 ^ (32 - 1) <= 2 ^ (W - 1)) by (apply Z.pow_le_mono_r; lia). lia. }
  rewrite (scast_fits W y) by (auto; lia).
  rewrite (overflowing_div_rem_is_ok HV) by (auto; left; cbn; lia).
  cbn [quo_flag rem_flag bind fst snd]. split; [reflexivity|]. f_equal. f_equal.
  apply (scast_fits 32); [lia|]. unfold fits_s in *. pose proof (Z.rem_bound_abs (sval x) y H0). lia.
Qed.
Lemma overflowing_is_panic : forall k x y, wf x -> y <> 0 -> y <> -1 -> fits_s (kbits k) y -> W < kbits k ->
  wrapping_div_rem_is k x y = Panic -> overflowing_div_is k x y = Panic /\ overflowing_rem_is k x y = Panic.
Proof.
  intros k x y Hx H0 H1 Hy HW HP. assert (E : overflowing_div_rem_is k x y = Panic).
  { unfold overflowing_div_rem_is. rewrite (s_min_value_ok HV). cbn [bind]. rewrite (eq_const_ok HV) by (auto; apply (wf_ofZ HV)). cbn [bind].
    destruct (Z.eqb_spec y (-1)); [contradiction|]. rewrite andb_false_r, HP. reflexivity. }
  unfold overflowing_div_is, overflowing_rem_is. destruct k; rewrite ?E; try (split; reflexivity).
  exfalso. cbn in HW. destruct (W_cases HV); lia.
Qed.

Ltac split_s := intros x0 x1 y H0 H1 Hy; cbn [snd]; unfold not_min, skip_min; destruct (Z.eqb_spec y 0) as [|Hy0]; [reflexivity|]; cbn [orb];
  match goal with |- (if ?g then _ else _) = _ => destruct g; [reflexivity|] end; cbn [negb andb];
  match goal with |- ask_s ?sg ?ps ?k ?f ?s ?c ?x0 ?x1 ?y = _ =>
    let x := fresh "x" in let Hx := fresh "Hx" in let Vx := fresh "Vx" in
    destruct (ask_s_eq _ _ sg ps k f s c x0 x1 y) as (x & Hx & Vx & ->); auto; rewrite <- Vx end.
Lemma signed_scalar_division_decided : forall k, k <> K128 ->
  Forall (decided true (fits_s (kbits k)) skip_min) (signed_scalar_division k).
Proof.
  intros k Hk. pose proof (kbits_range k) as KR.
  assert (V : forall y, fits_s (kbits k) y -> val true (ofZ y) = y) by (intros; apply (small_val true true k); auto).
  assert (Hb : forall y, fits_s (kbits k) y -> Z.abs y < 2 ^ kbits k)
    by (intros y Hy; unfold fits_s in Hy; rewrite (pow2_half (kbits k)) by lia; lia).
  assert (FB : forall y, fits_s (kbits k) y -> fits_s BITS y) by (intros y Hy; apply (small_fits true true k); auto).
  assert (X : forall x y, wf x -> fits_s (kbits k) y -> y <> 0 -> two_limb_correction (val true x) y = true ->
    wrapping_div_rem_is k x y = Panic /\ overflowing_div_is k x y = Panic /\ overflowing_rem_is k x y = Panic /\ checked_div_rem_is k x y = Panic).
  { intros x y Hx Hy H0 HC.
    assert (HW : W < kbits k).
    { destruct (Z.lt_ge_cases W (kbits k)) as [|G]; auto. rewrite (limb_no_two k) in HC by auto. discriminate. }
    assert (E : wrapping_div_rem_is k x y = Panic).
    { apply (wrapping_div_rem_is_panic HV); auto. apply two_limb_none; auto. }
    assert (N1 : y <> -1).
    { intros ->. unfold two_limb_correction in HC. pose proof (W_pos HV). assert (2 ^ 1 <= 2 ^ W) by (apply Z.pow_le_mono_r; lia).
      destruct (Z.leb_spec (2 ^ W) (Z.abs (-1))); [cbn in *; lia|]. rewrite andb_false_r in HC. discriminate. }
    destruct (overflowing_is_panic k x y) as (O1 & O2); auto. repeat split; auto.
    unfold checked_div_rem_is. destruct (Z.eqb_spec y 0); [contradiction|]. unfold overflowing_div_rem_is. rewrite (s_min_value_ok HV). cbn [bind].
    rewrite (eq_const_ok HV) by (auto; apply (wf_ofZ HV)). cbn [bind]. destruct (Z.eqb_spec y (-1)); [contradiction|]. rewrite andb_false_r, E. reflexivity. }
  assert (Y : forall x y, wf x -> fits_s (kbits k) y -> y <> 0 -> two_limb_correction (val true x) y = false ->
    sq (val true x) (val true (ofZ y)) = Some (Z.quot (sval x) y) /\ sr (val true x) (val true (ofZ y)) = Some (Z.rem (sval x) y) /\
    wrapping_div_rem_is k x y = Ok (ofZ (Z.quot (sval x) y), Z.rem (sval x) y) /\
    checked_div_rem_is k x y = Ok (if negb (fitsb true (Z.quot (sval x) y)) then None else Some (ofZ (Z.quot (sval x) y), Z.rem (sval x) y))).
  { intros x y Hx Hy H0 HC. destruct (no_two_limb k (val true x) y Hk H0 (Hb y Hy) HC) as (E1 & E2).
    rewrite V by auto. cbn [val] in *. rewrite sq_exact, sr_exact by auto. split; [|split; [|split]]; auto.
    - apply (wrapping_div_rem_is_ok HV); auto.
    - rewrite (checked_div_rem_is_ok HV) by auto. destruct (Z.eqb_spec y 0); [contradiction|reflexivity]. }
  assert (R : forall v y, fits_s (kbits k) y -> y <> 0 -> sfits true k (Z.rem v y)).
  { intros v y Hy H0. cbn [sfits]. unfold fits_s in *. pose proof (Z.rem_bound_abs v y H0). lia. }
  assert (Q : forall x y, wf x -> dovf true (sval x) y = true -> ofZ (- 2 ^ (BITS - 1)) = ofZ (Z.quot (sval x) y) /\ Z.rem (sval x) y = 0).
  { intros x y Hx D. apply dovf_iff in D. destruct D as (-> & ->). change (-1) with (- (1)).
    rewrite Z.quot_opp_opp, Z.quot_1_r, Z.rem_opp_opp, Z.rem_1_r by lia. split; [|reflexivity]. apply (ofZ_eq_mod HV).
    pose proof (pBh HV) as P. pose proof (pBhalf HV) as P2. rewrite <- (Z.mod_add (- 2 ^ (BITS - 1)) 1) by lia. f_equal. lia. }
  unfold signed_scalar_division. repeat apply Forall_cons; try apply Forall_nil; split_s;
    (destruct (two_limb_correction (val true x) y) eqn:HC;
    [destruct (X x y Hx Hy Hy0 HC) as (X1 & X2 & X2' & X3); clear X Y
    |destruct (Y x y Hx Hy Hy0 HC) as (Y1 & Y2 & Y3 & Y5); destruct (overflowing_is_eq k x y Hx Hy0 Hy Hk HC) as (O1 & O2); clear X Y;
     pose proof (dovf_fits x y Hx (FB y Hy) Hy0) as DF; pose proof (Q x y Hx) as DQ; clear Q]).
  - apply then_panic; [rewrite (wrapping_div_ok HV) by (auto; apply (wf_ofZ HV)); apply lift1_fuel|unfold wrapping_div_is; rewrite X1; reflexivity].
  - rewrite (wrapping_div_ok HV) by (auto; apply (wf_ofZ HV)). rewrite Y1. unfold wrapping_div_is. rewrite Y3. apply ours_wrap_ok.
  - apply then_panic; [rewrite (wrapping_rem_ok HV) by (auto; apply (wf_ofZ HV)); apply lift1_fuel|unfold wrapping_rem_is; rewrite X1; reflexivity].
  - rewrite (wrapping_rem_ok HV) by (auto; apply (wf_ofZ HV)). rewrite Y2. unfold wrapping_rem_is. rewrite Y3. apply ours_rem_ok; auto.
  - apply then_panic; [rewrite (overflowing_div_ok HV) by (auto; apply (wf_ofZ HV)); destruct (dovf _ _ _); [discriminate|apply lift_f_fuel]|auto].
  - rewrite (overflowing_div_ok HV) by (auto; apply (wf_ofZ HV)). rewrite Y1, V, O1 by auto. cbn [val]. rewrite <- DF.
    destruct (dovf true (sval x) y); [rewrite (proj1 (DQ eq_refl))|]; apply ours_over_ok.
  - apply then_panic; [rewrite (overflowing_rem_ok HV) by (auto; apply (wf_ofZ HV)); destruct (dovf _ _ _); [discriminate|apply lift_f_fuel]|auto].
  - rewrite (overflowing_rem_ok HV) by (auto; apply (wf_ofZ HV)). rewrite Y2, V, O2 by auto. cbn [val]. rewrite <- DF.
    pose proof (R (sval x) y Hy Hy0). destruct (dovf true (sval x) y); [rewrite (proj2 (DQ eq_refl)) in *|]; apply ours_rem_over_ok; auto; apply R; auto.
  - apply then_panic; [rewrite (checked_div_ok HV) by (auto; apply (wf_ofZ HV)); apply chko_fuel|unfold checked_div_is; rewrite X3; reflexivity].
  - rewrite (checked_div_ok HV) by (auto; apply (wf_ofZ HV)). unfold chko, dnone. rewrite Y1, V by auto. unfold checked_div_is. rewrite Y5, <- DF. cbn [val].
    destruct (Z.eqb_spec y 0); [contradiction|]. cbn [orb]. destruct (dovf true (sval x) y); [reflexivity|]. apply ours_wrap_ok.
  - apply then_panic; [rewrite (checked_rem_ok HV) by (auto; apply (wf_ofZ HV)); apply chko_fuel|unfold checked_rem_is; rewrite X3; reflexivity].
  - rewrite (checked_rem_ok HV) by (auto; apply (wf_ofZ HV)). unfold chko, dnone. rewrite Y2, V by auto. unfold checked_rem_is. rewrite Y5, <- DF. cbn [val].
    destruct (Z.eqb_spec y 0); [contradiction|]. cbn [orb]. destruct (dovf true (sval x) y); [reflexivity|]. apply ours_rem_check_ok. apply R; auto.
Qed.

(** *** Signed products and powers *)

(** The products the overflow test misses: below the minimum by less than one
    unit of the top limb. *)
Definition missed (v : Z) : bool := (- (2 ^ 255 + 2 ^ (256 - W)) <? v) && (v <? - 2 ^ 255).
Definition decided2 (sg : bool) (f : Z -> Z -> res bool) (t : test2) : Prop := forall x0 x1 y0 y1,
  fits_u 128 x0 -> half sg x1 -> fits_u 128 y0 -> half sg y1 -> snd t x0 x1 y0 y1 = f (num256 x0 x1) (num256 y0 y1).
Definition decided_n (sg : bool) (P : Z -> Prop) (f : Z -> Z -> res bool) (t : test_n) : Prop := forall x0 x1 y,
  fits_u 128 x0 -> half sg x1 -> P y -> snd t x0 x1 y = f (num256 x0 x1) y.

Lemma same_wrap_neq : forall u v, u mod 2 ^ 256 <> v mod 2 ^ 256 -> same_wrap u (ofZ v) = Ok false.
Proof.
  intros u v H. unfold same_wrap. rewrite le32_ofZ. cbn [bind]. f_equal. unfold bytes_eqb. destruct (list_eq_dec _ _ _) as [E|]; auto.
  exfalso. apply H. rewrite !le_bytes_lenc in E. apply (f_equal (lval 8)) in E. rewrite !lval_lenc in E by lia. exact E.
Qed.
Lemma missed_ovf : forall v, ovf true v = negb (fitsb true v) && negb (missed v).
Proof.
  intros v. unfold ovf, missed. rewrite HB. change (256 - 1) with 255. assert (P : 0 < 2 ^ (256 - W)) by (apply pow2_pos; pose proof (W_cases HV); lia).
  destruct (fitsb_reflect true v) as [F|F]; cbn [fits] in F; unfold fits_s in F; rewrite HB in F; change (256 - 1) with 255 in F; cbn [negb andb];
    destruct (Z.leb_spec (2 ^ 255) v), (Z.leb_spec v (- (2 ^ 255 + 2 ^ (256 - W)))), (Z.ltb_spec (- (2 ^ 255 + 2 ^ (256 - W))) v), (Z.ltb_spec v (- 2 ^ 255));
    cbn [orb andb negb]; try reflexivity; lia.
Qed.
Lemma missed_unfit : forall v, missed v = true -> fitsb true v = false /\ clamp true v mod 2 ^ 256 <> v mod 2 ^ 256.
Proof.
  intros v H. unfold missed in H. apply andb_true_iff in H. rewrite !Z.ltb_lt in H.
  assert (Q : 2 ^ (256 - W) <= 2 ^ 254) by (apply pow2_le_mono; destruct (W_cases HV); lia).
  split.
  - destruct (fitsb_reflect true v) as [F|]; auto. cbn [fits] in F. unfold fits_s in F. rewrite HB in F. change (256 - 1) with 255 in F. lia.
  - rewrite clamp_lo by (unfold lo_of; rewrite HB; change (256 - 1) with 255; lia). unfold lo_of. rewrite HB. change (256 - 1) with 255.
    intros E. assert (A : (- 2 ^ 255) mod 2 ^ 256 = 2 ^ 255) by reflexivity. rewrite A in E.
    assert (D : v mod 2 ^ 256 = v + 2 ^ 256).
    { symmetry. apply (Z.mod_unique_pos _ _ (-1)); [|lia]. change (2 ^ 256) with (4 * 2 ^ 254). change (2 ^ 255) with (2 * 2 ^ 254) in *. lia. }
    rewrite D in E. change (2 ^ 256) with (2 * 2 ^ 255) in E. lia.
Qed.
Lemma over_missed : forall v, same_over (over256 true v) (ofZ v, ovf true v) = Ok (negb (missed v)).
Proof.
  intros v. unfold same_over, over256. cbn [fst snd]. rewrite same_wrap_ok. cbn [bind andb]. rewrite in256_fitsb, missed_ovf.
  destruct (missed v) eqn:M; [destruct (missed_unfit v M) as (-> & _); reflexivity|]. rewrite andb_true_r, eqb_reflx. reflexivity.
Qed.
Lemma check_missed : forall v, same_check (check256 true v) (some_if (negb (ovf true v)) v) = Ok (negb (missed v)).
Proof.
  intros v. unfold check256, some_if. rewrite in256_fitsb, missed_ovf.
  destruct (missed v) eqn:M; [destruct (missed_unfit v M) as (-> & _); reflexivity|]. rewrite andb_true_r, negb_involutive.
  destruct (fitsb true v); cbn [same_check]; auto. apply same_wrap_ok.
Qed.
Lemma sat_missed : forall v, same_wrap (sat256 true v) (ofZ (if ovf true v then clamp true v else v)) = Ok (negb (missed v)).
Proof.
  intros v. rewrite sat256_clamp, missed_ovf.
  destruct (missed v) eqn:M; [destruct (missed_unfit v M) as (-> & U); apply same_wrap_neq; auto|]. rewrite andb_true_r.
  destruct (fitsb_reflect true v) as [F|F]; cbn [negb]; [|apply same_wrap_ok]. rewrite (clamp_fits true v F). apply same_wrap_ok.
Qed.
Lemma i256_products_decided : Forall (decided2 true (fun x y => Ok (negb (missed (x * y))))) i256_products.
Proof.
  unfold i256_products. repeat apply Forall_cons; try apply Forall_nil; intros x0 x1 y0 y1 H0 H1 H2 H3; cbn [snd]; unfold ask2;
    destruct (operand_val true x0 x1 H0 H1) as (x & -> & Wx & Vx); destruct (operand_val true y0 y1 H2 H3) as (y & -> & Wy & Vy);
    cbn [bind]; rewrite <- Vx, <- Vy; cbn [val].
  - rewrite (s_saturating_mul_ok HV), (mulf_ovf HV) by auto. apply sat_missed.
  - rewrite (overflowing_mul_ok HV true), (mulf_ovf HV) by auto. apply over_missed.
  - rewrite (checked_mul_ok HV true), (mulf_ovf HV) by auto. apply check_missed.
Qed.
Lemma i256_powers_decided : Forall (decided_n true (fits_u 32) (fun x n => Ok (negb (missed (x ^ n))))) i256_powers.
Proof.
  unfold i256_powers. repeat apply Forall_cons; try apply Forall_nil; intros x0 x1 y H0 H1 Hy; cbn [snd]; unfold ask_n;
    destruct (operand_val true x0 x1 H0 H1) as (x & -> & Wx & Vx); cbn [bind]; rewrite <- Vx; cbn [val].
  - rewrite (checked_pow_ok HV true) by auto. apply check_missed.
  - rewrite (s_saturating_pow_ok HV) by auto. apply sat_missed.
Qed.

(** *** Division *)

Lemma guarded_ok : forall A B sg theirs (ours : list Z -> list Z -> res B) (cmp : A -> B -> res bool) (P : Z -> Z -> Prop),
  (forall x y, wf x -> wf y -> val sg y <> 0 -> P (val sg x) (val sg y) ->
     exists r, ours x y = Ok r /\ cmp (theirs (val sg x) (val sg y)) r = Ok true) ->
  forall x0 x1 y0 y1, fits_u 128 x0 -> half sg x1 -> fits_u 128 y0 -> half sg y1 ->
  (y0 <> 0 -> y1 <> 0 -> P (num256 x0 x1) (num256 y0 y1)) ->
  guarded (ask2 sg theirs ours cmp) x0 x1 y0 y1 = Ok true.
Proof.
  intros A B sg theirs ours cmp P H x0 x1 y0 y1 H0 H1 H2 H3 HP. unfold guarded.
  destruct (Z.eqb_spec y0 0); [reflexivity|]. destruct (Z.eqb_spec y1 0); [reflexivity|]. cbn [negb andb].
  apply ask2_ok; auto. intros x y Hx Hy Vx Vy. apply H; auto.
  - rewrite Vy. unfold num256, fits_u in *. intros E. assert (y0 mod 2 ^ 128 = 0) by (replace y0 with ((- y1) * 2 ^ 128) by lia; apply Z.mod_mul; lia).
    rewrite Z.mod_small in *; lia.
  - rewrite Vx, Vy. auto.
Qed.
(** The test holds wherever the guard lets it run and the division is exact. *)
Definition holds_exact (sg : bool) (t : test2) : Prop := forall x0 x1 y0 y1,
  fits_u 128 x0 -> half sg x1 -> fits_u 128 y0 -> half sg y1 ->
  (y0 <> 0 -> y1 <> 0 -> exact_division W N (Z.abs (num256 x0 x1)) (Z.abs (num256 y0 y1))) -> snd t x0 x1 y0 y1 = Ok true.
Lemma over_small : forall sg v, fits sg v -> same_over (over256 sg v) (ofZ v, false) = Ok true.
Proof. intros sg v F. pose proof (same_over_ok sg v) as E. destruct (fitsb_reflect sg v); [exact E|contradiction]. Qed.
Lemma check_small : forall sg v, fits sg v -> same_check (check256 sg v) (Some (ofZ v)) = Ok true.
Proof. intros sg v F. pose proof (same_check_ok sg v) as E. destruct (fitsb_reflect sg v); [exact E|contradiction]. Qed.
Ltac divide L := intros x0 x1 y0 y1 H0 H1 H2 H3 HP; cbn [snd]; revert x0 x1 y0 y1 H0 H1 H2 H3 HP;
  apply (guarded_ok _ _ _ _ _ _ (fun x y => exact_division W N (Z.abs x) (Z.abs y))); intros x y Hx Hy Ny HE;
  rewrite (L x y) by auto.
Lemma u256_divisions_exact : Forall (holds_exact false) u256_divisions.
Proof.
  assert (U : forall x y, wf x -> wf y -> uval y <> 0 -> 0 <= uval x / uval y < 2 ^ BITS /\ 0 <= uval x mod uval y < 2 ^ BITS /\
    Z.quot (uval x) (uval y) = uval x / uval y /\ Z.rem (uval x) (uval y) = uval x mod uval y /\ 0 <= uval x /\ 0 < uval y).
  { intros x y Hx Hy H0. pose proof (uval_range HV x Hx) as Ux. pose proof (uval_range HV y Hy) as Uy.
    generalize dependent (uval x). generalize dependent (uval y). generalize (2 ^ BITS). intros M b Hb Ub a Ua.
    assert (0 <= a mod b < b) by (apply Z.mod_pos_bound; lia). assert (0 <= a / b) by (apply Z.div_pos; lia).
    assert (a / b <= a) by (apply Z.div_le_upper_bound; nia). rewrite Z.quot_div_nonneg, Z.rem_mod_nonneg by lia. repeat split; lia. }
  unfold u256_divisions. repeat apply Forall_cons; try apply Forall_nil.
  - divide (wrapping_div_ok HV false). rewrite sq_exact by auto. cbn [lift1 val]. destruct (U x y) as (_ & _ & E & _); auto. rewrite E. eexists. split; [reflexivity|]. apply same_wrap_ok.
  - divide (wrapping_rem_ok HV false). rewrite sr_exact by auto. cbn [lift1 val]. destruct (U x y) as (_ & _ & _ & E & _); auto. rewrite E. eexists. split; [reflexivity|]. apply same_wrap_ok.
  - change u_div_floor with (wrapping_div false). divide (wrapping_div_ok HV false). rewrite sq_exact by auto. cbn [lift1 val]. destruct (U x y) as (_ & _ & E & _); auto. rewrite E. eexists. split; [reflexivity|]. apply same_wrap_ok.
  - divide (u_div_ceil_ok HV). cbn [val] in *. rewrite soutcome_exact by auto. cbn [option_map]. rewrite ceil_num by auto. eexists. split; [reflexivity|]. apply same_wrap_ok.
  - divide (overflowing_div_ok HV false). rewrite sq_exact by auto. cbn [dovf andb lift_f val]. destruct (U x y) as (F & _ & E & _); auto. rewrite E. eexists. split; [reflexivity|]. apply over_small. exact F.
  - divide (overflowing_rem_ok HV false). rewrite sr_exact by auto. cbn [dovf andb lift_f val]. destruct (U x y) as (_ & F & _ & E & _); auto. rewrite E. eexists. split; [reflexivity|]. apply over_small. exact F.
  - divide (overflowing_div_euclid_ok HV false). cbn [dovf andb val] in *. destruct (U x y) as (F & F2 & E & E2 & P1 & P2); auto.
    destruct (esq_exact false (uval x) (uval y)) as (-> & _); auto; [intros; lia|]. cbn [lift_f]. rewrite Z.sgn_pos, Z.mul_1_l, (Z.abs_eq (uval y)) by lia. eexists. split; [reflexivity|]. apply over_small. exact F.
  - divide (overflowing_rem_euclid_ok HV false). cbn [dovf andb val] in *. destruct (U x y) as (F & F2 & E & E2 & P1 & P2); auto.
    destruct (esq_exact false (uval x) (uval y)) as (_ & ->); auto; [intros; lia|]. cbn [lift_f]. rewrite (Z.abs_eq (uval y)) by lia. eexists. split; [reflexivity|]. apply over_small. exact F2.
  - intros x0 x1 y0 y1 H0 H1 H2 H3 HP; cbn [snd]; revert x0 x1 y0 y1 H0 H1 H2 H3 HP.
    apply (guarded_ok _ _ _ _ _ _ (fun x y => exact_division W N (Z.abs x) (Z.abs y))); intros x y Hx Hy Ny HE. cbn [val] in *.
    destruct (U x y) as (F & F2 & E & E2 & P1 & P2); auto. rewrite (Z.abs_eq (uval x)), (Z.abs_eq (uval y)) in HE by lia.
    rewrite (u_checked_next_multiple_of_ok HV) by auto. destruct (Z.eqb_spec (uval y) 0); [contradiction|]. eexists. split; [reflexivity|].
    replace (nm (uval x) (uval y)) with (uval x + - uval x mod uval y); [apply same_check_ok|]. unfold nm. pose proof (Z.mod_pos_bound (uval x) (uval y) P2).
    destruct (Z.eqb_spec (uval x mod uval y) 0) as [E0|E0]; [rewrite Z.mod_opp_l_z by lia|rewrite Z.mod_opp_l_nz by lia]; lia.
  - divide (checked_div_ok HV false). unfold chko, dnone. rewrite sq_exact by auto. cbn [dovf andb val] in *. destruct (Z.eqb_spec (uval y) 0); [contradiction|]. cbn [orb lift_o].
    destruct (U x y) as (F & _ & E & _); auto. rewrite E. eexists. split; [reflexivity|]. apply check_small. exact F.
  - divide (checked_rem_ok HV false). unfold chko, dnone. rewrite sr_exact by auto. cbn [dovf andb val] in *. destruct (Z.eqb_spec (uval y) 0); [contradiction|]. cbn [orb lift_o].
    destruct (U x y) as (_ & F & _ & E & _); auto. rewrite E. eexists. split; [reflexivity|]. apply check_small. exact F.
Qed.

Lemma dovf_euclid : forall x y, wf x -> fits_s BITS y -> y <> 0 ->
  dovf true (sval x) y = negb (fitsb true (Z.sgn y * (sval x / Z.abs y))).
Proof.
  intros x y Hx Hy H0. pose proof (sval_range HV x Hx) as U. assert (P : 2 <= 2 ^ (BITS - 1)) by (rewrite HB; discriminate). destruct (dovf true (sval x) y) eqn:D.
  - apply dovf_iff in D. destruct D as (E & ->). rewrite E. change (Z.abs (-1)) with 1. change (Z.sgn (-1)) with (-1). rewrite Z.div_1_r.
    destruct (fitsb_reflect true (-1 * - 2 ^ (BITS - 1))) as [F|F]; auto. exfalso. cbn [fits] in F. unfold fits_s in F. lia.
  - destruct (fitsb_reflect true (Z.sgn y * (sval x / Z.abs y))) as [F|F]; auto. exfalso. apply F.
    assert (ND : ~ (sval x = - 2 ^ (BITS - 1) /\ y = -1)) by (intros (E1 & E2); assert (dovf true (sval x) y = true) by (apply dovf_iff; auto); congruence).
    clear D F. cbn [fits]. unfold fits_s in *. generalize dependent (sval x). generalize dependent (2 ^ (BITS - 1)). intros M Hy P a Ua ND.
    destruct (Z.eq_dec (Z.abs y) 1) as [E1|E1].
    + rewrite E1, Z.div_1_r. assert (Ey : y = 1 \/ y = -1) by lia. destruct Ey as [Ey|Ey]; rewrite Ey in *; cbn [Z.sgn]; lia.
    + remember (Z.abs y) as b eqn:Eb. assert (B2 : 2 <= b) by lia. assert (A2 : a / b < M) by (apply Z.div_lt_upper_bound; nia).
      assert (A3 : - M + 1 <= a / b) by (apply Z.div_le_lower_bound; nia).
      destruct (Z.sgn_spec y) as [(_ & ->)|[(_ & ->)|(_ & ->)]]; lia.
Qed.
Lemma check_rem_ok : forall q r, same_check (check_rem q r) (if fitsb true q then Some (ofZ r) else None) = Ok true.
Proof. intros. unfold check_rem. rewrite in256_fitsb. destruct (fitsb true q); cbn [same_check]; auto. apply same_wrap_ok. Qed.
Lemma if_negb : forall A (b : bool) (u v : A), (if negb b then u else v) = if b then v else u.
Proof. destruct b; reflexivity. Qed.
Lemma i256_divisions_exact : Forall (holds_exact true) i256_divisions.
Proof.
  assert (Q : forall x y, dovf true (sval x) (sval y) = true -> ofZ (- 2 ^ (BITS - 1)) = ofZ (Z.quot (sval x) (sval y)) /\
    clamp true (Z.quot (sval x) (sval y)) = 2 ^ (BITS - 1) - 1).
  { intros x y D. apply dovf_iff in D. destruct D as (-> & ->). change (-1) with (- (1)). pose proof (pBh HV) as P. pose proof (pBhalf HV) as P2.
    rewrite Z.quot_opp_opp, Z.quot_1_r by lia. split; [apply (ofZ_eq_mod HV); rewrite <- (Z.mod_add (- 2 ^ (BITS - 1)) 1) by lia; f_equal; lia|].
    unfold clamp, hi_of, lo_of. lia. }
  assert (S : forall y, wf y -> fits_s BITS (sval y)) by (intros; apply (sval_range HV); auto).
  unfold i256_divisions. repeat apply Forall_cons; try apply Forall_nil.
  - divide (wrapping_div_ok HV true). rewrite sq_exact by auto. eexists. split; [reflexivity|]. apply same_wrap_ok.
  - divide (saturating_div_ok HV true). rewrite sq_exact by auto. cbn [val] in *. rewrite sat256_clamp. pose proof (dovf_fits x (sval y) Hx (S y Hy) Ny) as DF.
    destruct (dovf true (sval x) (sval y)) eqn:D; cbn [lift1]; eexists; (split; [reflexivity|]).
    + rewrite (proj2 (Q x y D)). apply same_wrap_ok.
    + destruct (fitsb_reflect true (Z.quot (sval x) (sval y))); [|discriminate]. rewrite clamp_fits by auto. apply same_wrap_ok.
  - divide (overflowing_div_ok HV true). rewrite sq_exact by auto. cbn [val] in *. pose proof (dovf_fits x (sval y) Hx (S y Hy) Ny) as DF.
    destruct (dovf true (sval x) (sval y)) eqn:D; cbn [lift_f]; eexists; (split; [reflexivity|]); [rewrite (proj1 (Q x y D))|]; pose proof (same_over_ok true (Z.quot (sval x) (sval y))) as G; rewrite <- DF in G; exact G.
  - divide (checked_div_ok HV true). rewrite sq_exact by auto. unfold chko, dnone. cbn [val] in *. destruct (Z.eqb_spec (sval y) 0); [contradiction|]. cbn [orb].
    rewrite (dovf_fits x (sval y) Hx (S y Hy) Ny), if_negb. pose proof (same_check_ok true (Z.quot (sval x) (sval y))) as E. unfold some_if in E.
    destruct (fitsb true _); cbn [lift_o]; eexists; (split; [reflexivity|exact E]).
  - divide (checked_rem_ok HV true). rewrite sr_exact by auto. unfold chko, dnone. cbn [val] in *. destruct (Z.eqb_spec (sval y) 0); [contradiction|]. cbn [orb].
    rewrite (dovf_fits x (sval y) Hx (S y Hy) Ny), if_negb. pose proof (check_rem_ok (Z.quot (sval x) (sval y)) (Z.rem (sval x) (sval y))) as E.
    destruct (fitsb true _); cbn [lift_o]; eexists; (split; [reflexivity|exact E]).
  - divide (checked_div_euclid_ok HV true). cbn [val] in *. destruct (esq_exact true (sval x) (sval y)) as (-> & _); auto; [discriminate|].
    unfold chko, dnone. destruct (Z.eqb_spec (sval y) 0); [contradiction|]. cbn [orb].
    rewrite (dovf_euclid x (sval y) Hx (S y Hy) Ny), if_negb. pose proof (same_check_ok true (Z.sgn (sval y) * (sval x / Z.abs (sval y)))) as E. unfold some_if in E.
    destruct (fitsb true _); cbn [lift_o]; eexists; (split; [reflexivity|exact E]).
  - divide (checked_rem_euclid_ok HV true). cbn [val] in *. destruct (esq_exact true (sval x) (sval y)) as (_ & ->); auto; [discriminate|].
    unfold chko, dnone. destruct (Z.eqb_spec (sval y) 0); [contradiction|]. cbn [orb].
    rewrite (dovf_euclid x (sval y) Hx (S y Hy) Ny), if_negb.
    pose proof (check_rem_ok (Z.sgn (sval y) * (sval x / Z.abs (sval y))) (sval x mod Z.abs (sval y))) as E.
    destruct (fitsb true _); cbn [lift_o]; eexists; (split; [reflexivity|exact E]).
  - divide (s_div_floor_ok HV). cbn [val] in *. rewrite soutcome_exact by auto. cbn [option_map]. rewrite floor_num by auto. eexists. split; [reflexivity|]. apply same_wrap_ok.
  - divide (s_div_ceil_ok HV). cbn [val] in *. rewrite soutcome_exact by auto. cbn [option_map]. rewrite ceil_num by auto. eexists. split; [reflexivity|]. apply same_wrap_ok.
Qed.

(** A divisor reaching into the top limb, and a digit that needs a correction. *)
Definition top_correction (x y : Z) : bool := (2 ^ (256 - W) <=? Z.abs y) && (Z.abs y <? Z.abs x) && has_correction W (Z.abs x) (Z.abs y).
Definition quotient_names : list string :=
  ["u256_wrapping_div"; "u256_div_floor"; "u256_overflowing_div"; "u256_overflowing_div_euclid"; "u256_checked_div";
   "i256_wrapping_div"; "i256_saturating_div"; "i256_overflowing_div"; "i256_checked_div"]%string.
Definition remainder_names : list string :=
  ["u256_wrapping_rem"; "u256_overflowing_rem"; "u256_overflowing_rem_euclid"; "u256_checked_rem"; "i256_checked_rem"]%string.

Lemma num_nonzero : forall y0 y1, fits_u 128 y0 -> y0 <> 0 -> num256 y0 y1 <> 0.
Proof.
  intros y0 y1 H0 H E. unfold num256, fits_u in *. assert (y0 mod 2 ^ 128 = 0) by (replace y0 with ((- y1) * 2 ^ 128) by lia; apply Z.mod_mul; lia).
  rewrite Z.mod_small in *; lia.
Qed.
Lemma sq_top : forall x y, y <> 0 -> sq x y = if top_correction x y then None else Some (Z.quot x y).
Proof. intros x y Hy. rewrite (sq_cases HV) by auto. unfold top_correction. rewrite HB. reflexivity. Qed.
Lemma guarded_run : forall t x0 x1 y0 y1 r, (y0 <> 0 -> y1 <> 0 -> t x0 x1 y0 y1 = r) ->
  guarded t x0 x1 y0 y1 = if (y0 =? 0) || (y1 =? 0) then Ok true else r.
Proof.
  intros t x0 x1 y0 y1 r H. unfold guarded. destruct (Z.eqb_spec y0 0); [reflexivity|]. destruct (Z.eqb_spec y1 0); [reflexivity|]. cbn [negb andb orb]. auto.
Qed.
Definition decided_quotient (sg : bool) (t : test2) : Prop := In (fst t) quotient_names -> forall x0 x1 y0 y1,
  fits_u 128 x0 -> half sg x1 -> fits_u 128 y0 -> half sg y1 ->
  snd t x0 x1 y0 y1 = if (y0 =? 0) || (y1 =? 0) then Ok true
                      else if top_correction (num256 x0 x1) (num256 y0 y1) then Panic else Ok true.
Ltac not_named := intros Hin; exfalso; cbn [fst quotient_names remainder_names In] in Hin; repeat (destruct Hin as [Hin|Hin]; [discriminate Hin|]); exact Hin.
Ltac quotient sg L := intros _ x0 x1 y0 y1 H0 H1 H2 H3; cbn [snd]; apply guarded_run; intros N0 N1; unfold ask2;
  let Ex := fresh "Ex" in let Ey := fresh "Ey" in
  destruct (operand_val sg x0 x1 H0 H1) as (x & Ex & Wx & Vx); destruct (operand_val sg y0 y1 H2 H3) as (y & Ey & Wy & Vy);
  rewrite Ex, Ey; cbn [bind]; pose proof (num_nonzero y0 y1 H2 N0) as Ny; rewrite <- Vy in Ny; rewrite <- Vx, <- Vy;
  rewrite (L x y) by auto; rewrite ?sq_top by auto.
Lemma udiv_fits : forall x y, wf x -> wf y -> uval y <> 0 -> fits false (uval x / uval y) /\ Z.quot (uval x) (uval y) = uval x / uval y /\ 0 < uval y.
Proof.
  intros x y Hx Hy H0. pose proof (uval_range HV x Hx) as Ux. pose proof (uval_range HV y Hy) as Uy. cbn [fits]. unfold fits_u.
  generalize dependent (uval x). generalize dependent (uval y). generalize (2 ^ BITS). intros M b Hb Ub a Ua.
  assert (0 <= a / b) by (apply Z.div_pos; lia). assert (a / b <= a) by (apply Z.div_le_upper_bound; nia).
  rewrite Z.quot_div_nonneg by lia. repeat split; lia.
Qed.
Lemma u256_quotients_decided : Forall (decided_quotient false) u256_divisions.
Proof.
  unfold u256_divisions. repeat apply Forall_cons; try apply Forall_nil; try not_named.
  - quotient false (wrapping_div_ok HV false). destruct (top_correction _ _); [reflexivity|]. cbn [lift1 bind val].
    destruct (udiv_fits x y) as (_ & -> & _); auto. apply same_wrap_ok.
  - change u_div_floor with (wrapping_div false). quotient false (wrapping_div_ok HV false). destruct (top_correction _ _); [reflexivity|]. cbn [lift1 bind val].
    destruct (udiv_fits x y) as (_ & -> & _); auto. apply same_wrap_ok.
  - quotient false (overflowing_div_ok HV false). cbn [dovf andb]. destruct (top_correction _ _); [reflexivity|]. cbn [lift_f bind val].
    destruct (udiv_fits x y) as (F & -> & _); auto. apply over_small; auto.
  - quotient false (overflowing_div_euclid_ok HV false). cbn [dovf andb esq]. rewrite sq_top by auto. destruct (top_correction _ _); [reflexivity|]. cbn [lift_f bind val].
    destruct (udiv_fits x y) as (F & -> & _); auto. apply over_small; auto.
  - quotient false (checked_div_ok HV false). unfold chko, dnone. cbn [dovf andb]. destruct (Z.eqb_spec (val false y) 0); [contradiction|]. cbn [orb].
    destruct (top_correction _ _); [reflexivity|]. cbn [lift_o bind val]. destruct (udiv_fits x y) as (F & -> & _); auto. apply check_small; auto.
Qed.
Lemma dovf_no_correction : forall x y, dovf true x y = true -> top_correction x y = false.
Proof.
  intros x y D. apply dovf_iff in D. destruct D as (-> & ->). unfold top_correction. change (Z.abs (-1)) with 1.
  assert (2 ^ 1 <= 2 ^ (256 - W)) by (apply pow2_le_mono; destruct (W_cases HV); lia). destruct (Z.leb_spec (2 ^ (256 - W)) 1); [cbn in *; lia|reflexivity].
Qed.
Lemma i256_quotients_decided : Forall (decided_quotient true) i256_divisions.
Proof.
  assert (Q : forall x y, dovf true (sval x) (sval y) = true -> ofZ (- 2 ^ (BITS - 1)) = ofZ (Z.quot (sval x) (sval y)) /\
    clamp true (Z.quot (sval x) (sval y)) = 2 ^ (BITS - 1) - 1).
  { intros x y D. apply dovf_iff in D. destruct D as (-> & ->). change (-1) with (- (1)). pose proof (pBh HV) as P. pose proof (pBhalf HV) as P2.
    rewrite Z.quot_opp_opp, Z.quot_1_r by lia. split; [apply (ofZ_eq_mod HV); rewrite <- (Z.mod_add (- 2 ^ (BITS - 1)) 1) by lia; f_equal; lia|].
    unfold clamp, hi_of, lo_of. lia. }
  assert (S : forall y, wf y -> fits_s BITS (sval y)) by (intros; apply (sval_range HV); auto).
  unfold i256_divisions. repeat apply Forall_cons; try apply Forall_nil; try not_named.
  - quotient true (wrapping_div_ok HV true). destruct (top_correction _ _); [reflexivity|]. apply same_wrap_ok.
  - quotient true (saturating_div_ok HV true). cbn [val] in *. rewrite sat256_clamp. pose proof (dovf_fits x (sval y) Wx (S y Wy) Ny) as DF.
    destruct (dovf true (sval x) (sval y)) eqn:D.
    + rewrite (dovf_no_correction _ _ D), (proj2 (Q x y D)). apply same_wrap_ok.
    + destruct (top_correction _ _); [reflexivity|]. cbn [lift1 bind]. destruct (fitsb_reflect true (Z.quot (sval x) (sval y))); [|discriminate].
      rewrite clamp_fits by auto. apply same_wrap_ok.
  - quotient true (overflowing_div_ok HV true). cbn [val] in *. pose proof (dovf_fits x (sval y) Wx (S y Wy) Ny) as DF.
    pose proof (same_over_ok true (Z.quot (sval x) (sval y))) as G. rewrite <- DF in G. destruct (dovf true (sval x) (sval y)) eqn:D.
    + rewrite (dovf_no_correction _ _ D), (proj1 (Q x y D)). exact G.
    + destruct (top_correction _ _); [reflexivity|exact G].
  - quotient true (checked_div_ok HV true). unfold chko, dnone. cbn [val] in *. destruct (Z.eqb_spec (sval y) 0); [contradiction|]. cbn [orb].
    pose proof (dovf_fits x (sval y) Wx (S y Wy) Ny) as DF. pose proof (same_check_ok true (Z.quot (sval x) (sval y))) as G. unfold some_if in G.
    destruct (dovf true (sval x) (sval y)) eqn:D.
    + rewrite (dovf_no_correction _ _ D). destruct (fitsb true _); [discriminate|exact G].
    + destruct (fitsb true _); [|discriminate]. destruct (top_correction _ _); [reflexivity|exact G].
Qed.

Lemma opp_mod : forall a b m, - a mod m = - b mod m -> a mod m = b mod m.
Proof.
  intros a b m H. replace a with (0 - - a) by lia. replace b with (0 - - b) by lia.
  rewrite <- (Zminus_mod_idemp_r 0 (- a)), <- (Zminus_mod_idemp_r 0 (- b)), H. reflexivity.
Qed.
Lemma sr_right : forall x y r, y <> 0 -> Z.abs x < 2 ^ 256 -> Z.abs y < 2 ^ 256 -> sr x y = Some r -> r mod 2 ^ 256 = Z.rem x y mod 2 ^ 256 ->
  exact_division W N (Z.abs x) (Z.abs y).
Proof.
  intros x y r Hy Hx Hy2 E HM. unfold sr, soutcome in E. destruct (div_outcome W N (Z.abs x) (Z.abs y)) as [[q r0]|] eqn:D; [|discriminate].
  cbn [option_map snd] in E. inversion E as [E1]. clear E. destruct (quot_abs x y Hy) as (_ & Er). rewrite Er in HM. rewrite <- E1 in HM.
  rewrite <- HB in Hx, Hy2.
  destruct (outcome_range HV (Z.abs x) (Z.abs y) q r0) as (R & _); auto; [lia|lia|].
  destruct (outcome_some (Z.abs x) (Z.abs y) q r0) as (Q & _); auto; [lia|lia|].
  assert (M : 0 <= Z.abs x mod Z.abs y < Z.abs y) by (apply Z.mod_pos_bound; lia).
  assert (A : r0 = Z.abs x mod Z.abs y).
  { rewrite HB in *. destruct (x <? 0).
    - apply opp_mod in HM. rewrite !(Z.mod_small _ (2 ^ 256)) in HM by lia. exact HM.
    - rewrite !(Z.mod_small _ (2 ^ 256)) in HM by lia. exact HM. }
  apply (outcome_exact_inv); [lia|lia|]. rewrite D, Q, A. reflexivity.
Qed.
Lemma same_wrap_inv : forall u v, same_wrap u (ofZ v) = Ok true -> v mod 2 ^ 256 = u mod 2 ^ 256.
Proof. intros u v H. destruct (Z.eq_dec (u mod 2 ^ 256) (v mod 2 ^ 256)) as [E|E]; auto. rewrite same_wrap_neq in H by auto. discriminate. Qed.
Lemma val_abs : forall sg x, wf x -> Z.abs (val sg x) < 2 ^ 256.
Proof.
  intros sg x Hx. rewrite <- HB. pose proof (pBhalf HV). pose proof (pBh HV).
  destruct sg; cbn [val]; [pose proof (sval_range HV x Hx) as U|pose proof (uval_range HV x Hx) as U]; unfold fits_s in *; lia.
Qed.
Definition decided_remainder (sg : bool) (t : test2) : Prop := In (fst t) remainder_names -> forall x0 x1 y0 y1,
  fits_u 128 x0 -> half sg x1 -> fits_u 128 y0 -> half sg y1 ->
  (snd t x0 x1 y0 y1 = Ok true <-> y0 = 0 \/ y1 = 0 \/ exact_division W N (Z.abs (num256 x0 x1)) (Z.abs (num256 y0 y1))).
Ltac remainder sg L HX := intros _ x0 x1 y0 y1 H0 H1 H2 H3; split;
  [|intros HE; apply HX; auto; intros N0 N1; destruct HE as [HE|[HE|HE]]; [contradiction|contradiction|exact HE]];
  cbn [snd]; unfold guarded; destruct (Z.eqb_spec y0 0) as [|N0]; [auto|]; destruct (Z.eqb_spec y1 0) as [|N1]; [auto|]; cbn [negb andb];
  unfold ask2; let Ex := fresh "Ex" in let Ey := fresh "Ey" in
  destruct (operand_val sg x0 x1 H0 H1) as (x & Ex & Wx & Vx); destruct (operand_val sg y0 y1 H2 H3) as (y & Ey & Wy & Vy);
  rewrite Ex, Ey; cbn [bind]; pose proof (num_nonzero y0 y1 H2 N0) as Ny; rewrite <- Vy in Ny; rewrite <- Vx, <- Vy;
  rewrite (L x y) by auto; intros HT; right; right.
Lemma u256_remainders_decided : Forall (decided_remainder false) u256_divisions.
Proof.
  assert (M : forall x y, wf x -> wf y -> uval y <> 0 -> Z.rem (uval x) (uval y) = uval x mod uval y).
  { intros x y Hx Hy H0. pose proof (uval_range HV x Hx). pose proof (uval_range HV y Hy). apply Z.rem_mod_nonneg; lia. }
  pose proof u256_divisions_exact as HX. unfold u256_divisions in *.
  repeat (apply Forall_cons; [apply Forall_inv in HX; try not_named | apply Forall_inv_tail in HX]); try apply Forall_nil.
  - remainder false (wrapping_rem_ok HV false) HX. destruct (sr (val false x) (val false y)) as [r|] eqn:ER; [|discriminate]. cbn [lift1 bind] in HT.
    apply same_wrap_inv in HT. apply (sr_right _ _ r); auto using val_abs. cbn [val] in *. rewrite M by auto. exact HT.
  - remainder false (overflowing_rem_ok HV false) HX. cbn [dovf andb] in HT. destruct (sr (val false x) (val false y)) as [r|] eqn:ER; [|discriminate]. cbn [lift_f bind] in HT.
    unfold same_over in HT. cbn [fst snd over256] in HT. destruct (same_wrap _ (ofZ r)) as [[]| |] eqn:ES; try discriminate.
    apply same_wrap_inv in ES. apply (sr_right _ _ r); auto using val_abs. cbn [val] in *. rewrite M by auto. exact ES.
  - remainder false (overflowing_rem_euclid_ok HV false) HX. cbn [dovf andb esr] in HT. destruct (sr (val false x) (val false y)) as [r|] eqn:ER; [|discriminate]. cbn [lift_f bind] in HT.
    unfold same_over in HT. cbn [fst snd over256] in HT. destruct (same_wrap _ (ofZ r)) as [[]| |] eqn:ES; try discriminate.
    apply same_wrap_inv in ES. apply (sr_right _ _ r); auto using val_abs. cbn [val] in *. rewrite M by auto. exact ES.
  - remainder false (checked_rem_ok HV false) HX. unfold chko, dnone in HT. cbn [dovf andb] in HT. destruct (Z.eqb_spec (val false y) 0); [contradiction|]. cbn [orb] in HT.
    destruct (sr (val false x) (val false y)) as [r|] eqn:ER; [|discriminate]. cbn [lift_o bind] in HT.
    unfold check256 in HT. destruct (in256 false _); [|discriminate]. cbn [same_check] in HT.
    apply same_wrap_inv in HT. apply (sr_right _ _ r); auto using val_abs. cbn [val] in *. rewrite M by auto. exact HT.
Qed.
Lemma i256_remainders_decided : Forall (decided_remainder true) i256_divisions.
Proof.
  pose proof i256_divisions_exact as HX. unfold i256_divisions in *.
  repeat (apply Forall_cons; [apply Forall_inv in HX; try not_named | apply Forall_inv_tail in HX]); try apply Forall_nil.
  remainder true (checked_rem_ok HV true) HX. unfold chko, dnone in HT. cbn [val] in *. destruct (Z.eqb_spec (sval y) 0); [contradiction|]. cbn [orb] in HT.
  destruct (dovf true (sval x) (sval y)) eqn:D.
  - apply dovf_iff in D. destruct D as (_ & ->). right. left. change (Z.abs (-1)) with (2 ^ 0). apply Z.pow_lt_mono_r; destruct (W_cases HV); lia.
  - destruct (sr (sval x) (sval y)) as [r|] eqn:ER; [|discriminate]. cbn [lift_o bind] in HT.
    unfold check_rem in HT. destruct (in256 true _); [|discriminate]. cbn [same_check] in HT.
    apply same_wrap_inv in HT. apply (sr_right _ _ r); auto; [apply (val_abs true); auto|apply (val_abs true); auto].
Qed.
End Q.

Local Notation E64 := (@ofZ c256_64).
Local Notation E32 := (@ofZ c256_32).
Definition all_true (l : list (res bool)) : bool := forallb (fun r => match r with Ok true => true | _ => false end) l.

(** ** C68: the random tests

    The full statement is that every test of devel/tests/ops.rs answers [true]
    on every input. *)

Theorem C68_pairs : forall (c : Cfg), Valid -> BITS = 256 ->
  Forall (holds2 false) u256_pairs /\ Forall (holds2 true) i256_pairs.
Proof. intros c HV HB. split; [apply u256_pairs_hold|apply i256_pairs_hold]; auto. Qed.
Example C68_ex1 : all_true (map (fun t => snd t (2 ^ 127 + 3) (2 ^ 128 - 9) 77 (2 ^ 128 - 1)) (@u256_pairs c256_64)) = true /\
  all_true (map (fun t => snd t (2 ^ 127 + 3) (- 2 ^ 127) 77 (- 5)) (@i256_pairs c256_32)) = true /\
  fits_u 128 (2 ^ 127 + 3) /\ half true (- 2 ^ 127).
Proof. vm_compute. intuition discriminate. Qed.

Theorem C68_amounts : forall (c : Cfg), Valid -> BITS = 256 ->
  Forall (holds_n false (fits_u 32)) u256_amounts /\ Forall (holds_n true (fits_u 32)) i256_amounts.
Proof. intros c HV HB. split; [apply u256_amounts_hold|apply i256_amounts_hold]; auto. Qed.
Example C68_ex2 : all_true (map (fun t => snd t (2 ^ 127 + 3) (2 ^ 128 - 9) 13) (@u256_amounts c256_32)) = true /\
  all_true (map (fun t => snd t (2 ^ 127 + 3) (- 2 ^ 127 + 5) 9) (@i256_amounts c256_64)) = true.
Proof. vm_compute. auto. Qed.

Theorem C68_bits : forall (c : Cfg) sg, Valid -> BITS = 256 -> Forall (holds1 sg) (bit_tests sg).
Proof. intros c sg HV HB. apply bits_hold; auto. Qed.
Theorem C68_singles : forall (c : Cfg), Valid -> BITS = 256 ->
  Forall (holds1 false) u256_singles /\ Forall (holds1 true) i256_singles /\
  (forall x0 x1, fits_u 128 x0 -> fits_u 128 x1 -> i256_ilog2 x0 x1 = Ok true).
Proof. intros c HV HB. split; [|split]; [apply u256_singles_hold|apply i256_singles_hold|apply i256_ilog2_holds]; auto. Qed.
Theorem C68_high_mul : forall (c : Cfg) x0 x1 y0 y1, Valid -> BITS = 256 ->
  fits_u 128 x0 -> fits_u 128 x1 -> fits_u 128 y0 -> fits_u 128 y1 -> u256_high_mul x0 x1 y0 y1 = Ok true.
Proof. intros. apply u256_high_mul_holds; auto. Qed.
Example C68_ex3 : all_true (map (fun t => snd t (2 ^ 127 + 3) (2 ^ 128 - 9)) (@bit_tests c256_32 false ++ @u256_singles c256_64)) = true /\
  all_true (map (fun t => snd t 0 (- 2 ^ 127)) (@bit_tests c256_64 true ++ @i256_singles c256_32)) = true /\
  @i256_ilog2 c256_64 5 (2 ^ 128 - 1) = Ok true /\ @u256_high_mul c256_32 7 (2 ^ 128 - 1) 9 (2 ^ 127) = Ok true.
Proof. vm_compute. auto. Qed.

Theorem C68_scalars : forall (c : Cfg) o k, Valid -> BITS = 256 -> k <> K128 ->
  (forall sg, Forall (holds_n sg (fits_u (kbits k))) (unsigned_scalar o k sg)) /\
  Forall (holds_n true (fits_s (kbits k))) (signed_scalar o k).
Proof. intros c o k HV HB Hk. split; [intros sg; apply unsigned_scalar_holds|apply signed_scalar_holds]; auto. Qed.
Example C68_ex4 : all_true (map (fun t => snd t (2 ^ 128 - 1) (- 2 ^ 127) (2 ^ 64 - 1)) (@unsigned_scalar c256_32 SMul KWide true)) = true /\
  all_true (map (fun t => snd t (2 ^ 128 - 1) (- 2 ^ 127) (- 2 ^ 63)) (@signed_scalar c256_64 SSub K64)) = true.
Proof. vm_compute. auto. Qed.

(** Division by a scalar, every kind the tests use: the test panics exactly
    where a two-limb divisor meets a digit that needs a correction, and
    answers [true] everywhere else. *)
Theorem C68_scalar_division : forall (c : Cfg) k, Valid -> BITS = 256 -> k <> K128 ->
  Forall (decided false (fits_u (kbits k)) skip_zero) (unsigned_scalar_division k) /\
  Forall (decided true (fits_s (kbits k)) skip_min) (signed_scalar_division k).
Proof. intros c k HV HB Hk. split; [apply unsigned_scalar_division_decided|apply signed_scalar_division_decided]; auto. Qed.
(** A scalar of one limb: no exception. *)
Theorem C68_limb_division : forall (c : Cfg) k, Valid -> BITS = 256 -> kbits k <= W -> k <> K128 ->
  Forall (holds_n false (fits_u (kbits k))) (unsigned_scalar_division k) /\
  Forall (holds_n true (fits_s (kbits k))) (signed_scalar_division k).
Proof.
  intros c k HV HB Hk H128. destruct (C68_scalar_division c k HV HB H128) as (U & S). pose proof (kbits_range HV k) as KR.
  split; [refine (Forall_impl _ _ U)|refine (Forall_impl _ _ S)]; intros t D x0 x1 y H0 H1 Hy; rewrite (D x0 x1 y H0 H1 Hy).
  - rewrite (limb_no_two k) by (auto; unfold fits_u in Hy; lia). rewrite andb_false_r. reflexivity.
  - rewrite (limb_no_two k), andb_false_r; auto. unfold fits_s in Hy. rewrite (pow2_half (kbits k)) by lia. lia.
Qed.
(** A scalar of two limbs: [u256_wrapping_div_uwide] and its siblings fail. *)
Theorem C68_scalar_division_refuted : exists (c : Cfg) x0 x1 y, Valid /\ BITS = 256 /\ fits_u 128 x0 /\ fits_u 128 x1 /\ fits_u (kbits KWide) y /\ y <> 0 /\
  Forall (fun t => snd t x0 x1 y = Panic) (unsigned_scalar_division KWide).
Proof.
  set (y := 2 ^ 126 + 2 ^ 63 - 1). set (x := ((2 ^ 64 - 2) * 2 ^ 64 + 100) * y).
  exists c256_64, (x mod 2 ^ 128), (x / 2 ^ 128), y. split; [apply valid_c256_64|]. split; [reflexivity|].
  split; [vm_compute; intuition discriminate|]. split; [vm_compute; intuition discriminate|]. split; [vm_compute; intuition discriminate|].
  split; [discriminate|]. repeat apply Forall_cons; try apply Forall_nil; vm_compute; reflexivity.
Qed.
Example C68_ex5 : @two_limb_correction c256_64 (((2 ^ 64 - 2) * 2 ^ 64 + 100) * (2 ^ 126 + 2 ^ 63 - 1)) (2 ^ 126 + 2 ^ 63 - 1) = true /\
  @two_limb_correction c256_64 (- 2 ^ 254) (2 ^ 100 + 1) = false /\ skip_min 0 (- 2 ^ 127) 7 = true /\ skip_min 0 (- 2 ^ 127) (-1) = false /\
  all_true (map (fun t => snd t 5 (- 2 ^ 126) (2 ^ 100 + 1)) (@signed_scalar_division c256_64 KWide)) = true /\
  all_true (map (fun t => snd t 0 (- 2 ^ 127) (- 1)) (@signed_scalar_division c256_32 K64)) = true /\
  all_true (map (fun t => snd t 5 (2 ^ 128 - 1) (2 ^ 32 - 1)) (@unsigned_scalar_division c256_32 KLimb)) = true.
Proof. vm_compute. intuition. Qed.

(** Signed products and powers: the test fails exactly on the results that the
    overflow check misses. *)
Theorem C68_products : forall (c : Cfg), Valid -> BITS = 256 ->
  Forall (decided2 true (fun x y => Ok (negb (missed (x * y))))) i256_products.
Proof. intros c HV HB. apply i256_products_decided; auto. Qed.
Theorem C68_powers : forall (c : Cfg), Valid -> BITS = 256 ->
  Forall (decided_n true (fits_u 32) (fun x n => Ok (negb (missed (x ^ n))))) i256_powers.
Proof. intros c HV HB. apply i256_powers_decided; auto. Qed.
Theorem C68_products_refuted : exists (c : Cfg) x0 x1 y0 y1, Valid /\ BITS = 256 /\ fits_u 128 x0 /\ half true x1 /\ fits_u 128 y0 /\ half true y1 /\
  Forall (fun t => snd t x0 x1 y0 y1 = Ok false) i256_products.
Proof.
  exists c256_64, (2 ^ 127 - 1), (-1), 0, 1. split; [apply valid_c256_64|]. split; [reflexivity|].
  do 4 (split; [vm_compute; intuition discriminate|]). repeat apply Forall_cons; try apply Forall_nil; vm_compute; reflexivity.
Qed.
Theorem C68_powers_refuted : exists (c : Cfg) x0 x1 n, Valid /\ BITS = 256 /\ fits_u 128 x0 /\ half true x1 /\ fits_u 32 n /\
  Forall (fun t => snd t x0 x1 n = Ok false) i256_powers.
Proof.
  exists c256_32, (2 ^ 128 - 2 ^ 85 - 1), (-1), 3. split; [apply valid_c256_32|]. split; [reflexivity|].
  do 3 (split; [vm_compute; intuition discriminate|]). repeat apply Forall_cons; try apply Forall_nil; vm_compute; reflexivity.
Qed.
Example C68_ex6 : @missed c256_64 (- (2 ^ 127 + 1) * 2 ^ 128) = true /\ @missed c256_64 (- 2 ^ 255) = false /\ @missed c256_64 (- 2 ^ 256) = false /\
  all_true (map (fun t => snd t 0 (- 2 ^ 127) 0 (- 2 ^ 127)) (@i256_products c256_64)) = true /\
  all_true (map (fun t => snd t (2 ^ 128 - 7) (- 1) 23) (@i256_powers c256_64)) = true.
Proof. vm_compute. auto. Qed.

(** Division of two 256-bit operands.  Missing from the full statement: the
    inputs where the quotient-digit estimate has to be corrected. *)
Theorem C68_division_partial : forall (c : Cfg), Valid -> BITS = 256 ->
  Forall (holds_exact false) u256_divisions /\ Forall (holds_exact true) i256_divisions.
Proof. intros c HV HB. split; [apply u256_divisions_exact|apply i256_divisions_exact]; auto. Qed.
(** The tests that look at the quotient alone, without that hypothesis. *)
Theorem C68_quotients : forall (c : Cfg), Valid -> BITS = 256 ->
  Forall (decided_quotient false) u256_divisions /\ Forall (decided_quotient true) i256_divisions.
Proof. intros c HV HB. split; [apply u256_quotients_decided|apply i256_quotients_decided]; auto. Qed.
(** The tests that look at the remainder hold only there. *)
Theorem C68_remainders : forall (c : Cfg), Valid -> BITS = 256 ->
  Forall (decided_remainder false) u256_divisions /\ Forall (decided_remainder true) i256_divisions.
Proof. intros c HV HB. split; [apply u256_remainders_decided|apply i256_remainders_decided]; auto. Qed.
(** Every division test has an input on which it panics … *)
Theorem C68_division_refuted : exists (c : Cfg) x0 x1 y0 y1, Valid /\ BITS = 256 /\ fits_u 128 x0 /\ half true x1 /\ fits_u 128 y0 /\ half true y1 /\
  y0 <> 0 /\ y1 <> 0 /\ Forall (fun t => snd t x0 x1 y0 y1 = Panic) (u256_divisions ++ i256_divisions).
Proof.
  exists c256_64, 1, (2 ^ 65), 1, (2 ^ 64). split; [apply valid_c256_64|]. split; [reflexivity|].
  do 4 (split; [vm_compute; intuition discriminate|]). do 2 (split; [discriminate|]).
  unfold u256_divisions, i256_divisions. cbn [app]. repeat apply Forall_cons; try apply Forall_nil; vm_compute; reflexivity.
Qed.
(** … and the remainder tests one on which the remainder is wrong. *)
Theorem C68_remainder_refuted : exists (c : Cfg) x0 x1 y0 y1, Valid /\ BITS = 256 /\ fits_u 128 x0 /\ half true x1 /\ fits_u 128 y0 /\ half true y1 /\
  y0 <> 0 /\ y1 <> 0 /\ Forall (fun t => In (fst t) remainder_names -> snd t x0 x1 y0 y1 = Ok false) (u256_divisions ++ i256_divisions).
Proof.
  exists c256_64, 0, (2 ^ 126), (2 ^ 64 - 1), (2 ^ 63). split; [apply valid_c256_64|]. split; [reflexivity|].
  do 4 (split; [vm_compute; intuition discriminate|]). do 2 (split; [vm_compute; discriminate|]).
  unfold u256_divisions, i256_divisions. cbn [app]. repeat apply Forall_cons; try apply Forall_nil; intros HIn;
    first [exfalso; cbn [fst] in HIn; unfold remainder_names in HIn; cbn [In] in HIn; decompose [or] HIn; first [contradiction|discriminate]
          |vm_compute; reflexivity].
Qed.
Example C68_ex7 : has_correction 64 (2 ^ 250 + 2 ^ 68) (2 ^ 190 + 7) = false /\
  all_true (map (fun t => snd t (2 ^ 68) (2 ^ 122) 7 (2 ^ 62)) (@u256_divisions c256_64 ++ @i256_divisions c256_64)) = true /\
  all_true (map (fun t => snd t 0 (- 2 ^ 127) (2 ^ 128 - 1) (- 1)) (@i256_divisions c256_32)) = true /\
  In "i256_checked_rem"%string (map fst (@i256_divisions c256_32)) /\ In "u256_checked_div"%string (map fst (@u256_divisions c256_32)).
Proof. split; [vm_compute; reflexivity|]. split; [vm_compute; reflexivity|]. split; [vm_compute; reflexivity|]. cbn. intuition. Qed.

(** ** Assumptions (each must print "Closed under the global context") *)

Print Assumptions C68_pairs.
Print Assumptions C68_amounts.
Print Assumptions C68_bits.
Print Assumptions C68_singles.
Print Assumptions C68_high_mul.
Print Assumptions C68_scalars.
Print Assumptions C68_scalar_division.
Print Assumptions C68_limb_division.
Print Assumptions C68_scalar_division_refuted.
Print Assumptions C68_products.
Print Assumptions C68_powers.
Print Assumptions C68_products_refuted.
Print Assumptions C68_powers_refuted.
Print Assumptions C68_division_partial.
Print Assumptions C68_quotients.
Print Assumptions C68_remainders.
Print Assumptions C68_division_refuted.
Print Assumptions C68_remainder_refuted.
