(** * Proofs about division by scalars over the corrected routines (MFix.v) *)

Require Import ZArith List Bool Lia.
From Verif Require Import Prim Spec Facts MAdd PAdd PAddS MMul PMul PMulS MShift MCore PCore PBits PWide MArith PArith PArith2 PPow
  MDiv DivSpec PDiv PDivFull MScalar PScalar PApi PApi2 PScalarDiv MFix PFixDiv.
Import ListNotations.
Local Open Scope Z_scope.

Section P.
Context {c : Cfg}.
Hypothesis HV : Valid.

Local Notation B := (2 ^ W).
Let HW2 : 2 <= W <= 64.
Proof. destruct (W_cases HV); lia. Qed.

Lemma fix_div_by_ok : forall k l n, wf l -> 0 <= n < 2 ^ kbits k ->
  fix_div_by (route k) l n = if n =? 0 then Panic else Ok (ofZ (uval l / n), uval l mod n).
Proof.
  intros k l n (HL & Hd) Hn. pose proof (N_ge4 HV) as HN. unfold uval. pose proof (dbits_1 HV k) as D1.
  destruct (route_cases HV k) as [(R & D & K)|[(R & D & K)|(R & D & K & E)]]; rewrite R; cbn [fix_div_by].
  - pose proof (pow2_le_mono (kbits k) W). destruct (Z.eqb_spec n 0) as [->|].
    + apply (div_limb_0 HW2); auto; lia.
    + rewrite (div_limb_ok HW2) by (auto; lia). rewrite HL. reflexivity.
  - pose proof (pow2_le_mono (kbits k) (2 * W)). pose proof (B2 HV) as EB.
    rewrite (fix_div_wide_ok HW2) by (auto; lia). rewrite HL. reflexivity.
  - rewrite K in *. rewrite (fix_div_from_u128_ok HW2) by (auto; lia). rewrite HL. reflexivity.
Qed.

Lemma d_s_div_rem_u_ok : forall k x n, wf x -> 0 < n < 2 ^ kbits k ->
  d_s_div_rem_u fix_div_by (route k) x n = Ok (ofZ (sval x / n), sval x mod n).
Proof.
  intros k x n Hx Hn. unfold d_s_div_rem_u. rewrite (unsigned_abs_ok HV) by auto. cbn [bind].
  rewrite fix_div_by_ok by (try apply (wf_ofZ HV); lia). rewrite (uval_abs HV) by auto.
  destruct (Z.eqb_spec n 0); [exfalso; lia|]. cbn [bind]. rewrite (mk_ok HV). cbn [bind].
  rewrite (is_negative_ok HV) by auto. cbn [bind].
  destruct (Z.ltb_spec (sval x) 0) as [Neg|Pos].
  - rewrite (s_wrapping_neg_ok HV) by apply (wf_ofZ HV). cbn [bind andb].
    assert (En : ofZ (- sval (ofZ (Z.abs (sval x) / n))) = ofZ (- (Z.abs (sval x) / n))).
    { apply (ofZ_eq_mod HV). 
      assert (Hc : sval (ofZ (Z.abs (sval x) / n)) mod 2 ^ BITS = (Z.abs (sval x) / n) mod 2 ^ BITS).
      { rewrite (sval_mod HV) by apply (wf_ofZ HV). apply (uval_ofZ HV). }
      rewrite <- (Z.sub_0_l (sval _)), <- (Z.sub_0_l (_ / n)). rewrite Zminus_mod, Hc, <- Zminus_mod. reflexivity. }
    rewrite En. destruct (floor_neg (sval x) n Neg ltac:(lia)) as [F0 F1].
    destruct (Z.eqb_spec (Z.abs (sval x) mod n) 0) as [E0|E0]; cbn [negb].
    + destruct (F0 E0) as [-> ->]. rewrite E0. reflexivity.
    + destruct (F1 E0) as [-> ->]. rewrite (from_u8_ok HV) by (unfold fits_u; lia). cbn [bind].
      rewrite (op_sub_ok HV) by apply (wf_ofZ HV). cbn [val].
      pose proof (sval_range HV x Hx) as Rx. pose proof (pBh HV). pose proof (pB_big HV).
      assert (N1 : 2 <= n).
      { destruct (Z.eq_dec n 1) as [->|]; [|lia]. rewrite Z.mod_1_r in E0. lia. }
      assert (Q : 0 <= Z.abs (sval x) / n <= 2 ^ (BITS - 1) - 1).
      { split; [apply Z.div_pos; lia|]. 
        assert (Z.abs (sval x) / n <= Z.abs (sval x) / 2) by (apply Z.div_le_compat_l; lia).
        assert (Z.abs (sval x) / 2 <= 2 ^ (BITS - 1) / 2) by (apply Z.div_le_mono; lia).
        assert (Hd2 : 2 ^ (BITS - 1) / 2 < 2 ^ (BITS - 1)) by (apply Z.div_lt; lia). lia. }
      rewrite !(sval_ofZ_fits HV) by (unfold fits_s; lia).
      rewrite op_result_fits by (cbn; unfold fits_s; lia). cbn [bind].
      pose proof (Z.mod_pos_bound (Z.abs (sval x)) n ltac:(lia)) as Hm.
      pose proof (dbits_1 HV k). pose proof (pow2_le_mono (kbits k) (dbits (route k))).
      unfold usub. rewrite uchk_ok by (unfold fits_u; lia). reflexivity.
  - cbn [andb bind]. rewrite Z.abs_eq by lia. reflexivity.
Qed.
Lemma d_wrapping_div_rem_us_ok : forall k sg x n, wf x -> 0 < n -> fits_u (kbits k) n ->
  d_wrapping_div_rem_us fix_div_by k sg x n = Ok (ofZ (val sg x / n), val sg x mod n).
Proof.
  intros k sg x n Hx Hn Hf. unfold d_wrapping_div_rem_us. cbn zeta. rewrite (ucast_d HV) by auto.
  unfold fits_u in Hf. assert (Hm : forall v, ucast (kbits k) (v mod n) = v mod n).
  { intros v. apply Z.mod_small. pose proof (Z.mod_pos_bound v n Hn). lia. }
  destruct sg; cbn [val] in *.
  - rewrite d_s_div_rem_u_ok by (auto; lia). cbn [bind]. rewrite Hm. reflexivity.
  - pose proof (uval_range HV x Hx). 
    unfold d_u_div_rem. rewrite fix_div_by_ok by (auto; lia).
    destruct (Z.eqb_spec n 0); [exfalso; lia|]. cbn [bind]. rewrite (mk_ok HV). cbn [bind]. rewrite Hm. reflexivity.
Qed.
Lemma d_wrapping_div_rem_is_ok : forall k x n, wf x -> n <> 0 -> fits_s (kbits k) n ->
  d_wrapping_div_rem_is fix_div_by k x n = Ok (ofZ (Z.quot (sval x) n), Z.rem (sval x) n).
Proof.
  intros k x n Hx Hn Hf. unfold d_wrapping_div_rem_is. cbn zeta. rewrite (scast_d HV) by auto.
  unfold d_s_div_rem_i. rewrite (unsigned_abs_ok HV) by auto. cbn [bind].
  pose proof (dbits_1 HV k) as D1. assert (Hh : 2 ^ kbits k = 2 * 2 ^ (kbits k - 1)) by (apply pow2_half; lia). assert (0 < 2 ^ (kbits k - 1)) by (apply pow2_pos; lia). unfold fits_s in Hf.
  rewrite fix_div_by_ok by (try apply (wf_ofZ HV); lia). rewrite (uval_abs HV) by auto.
  destruct (Z.eqb_spec (Z.abs n) 0); [exfalso; lia|]. cbn [bind]. rewrite (mk_ok HV). cbn [bind].
  rewrite (is_negative_ok HV) by auto. cbn [bind].
  destruct (quot_abs (sval x) n Hn) as [Eq Er]. rewrite Eq, Er.
  pose proof (Z.mod_pos_bound (Z.abs (sval x)) (Z.abs n) ltac:(lia)) as Hm.
  pose proof (pow2_le_mono (kbits k - 1) (dbits (route k) - 1)).
  rewrite (scast_fits (dbits (route k)) (_ mod _)) by (unfold fits_s; lia).
  rewrite (scast_fits (dbits (route k)) (- _)) by (unfold fits_s; lia).
  rewrite (s_wrapping_neg_ok HV) by apply (wf_ofZ HV). rewrite (ofZ_opp_sval HV).
  assert (S : forall v, - 2 ^ (kbits k - 1) <= v < 2 ^ (kbits k - 1) -> scast (kbits k) v = v).
  { intros v Hv. apply scast_fits; [lia|exact Hv]. }
  destruct (sval x <? 0), (n <? 0); cbn [eqb negb xorb bind]; rewrite S by lia; reflexivity.
Qed.
Lemma d_overflowing_div_rem_is_ok : forall k x n, wf x -> n <> 0 -> fits_s (kbits k) n ->
  d_overflowing_div_rem_is fix_div_by k x n =
  Ok (ofZ (Z.quot (sval x) n), Z.rem (sval x) n, negb (fitsb true (Z.quot (sval x) n))).
Proof.
  intros k x n Hx Hn Hf. unfold d_overflowing_div_rem_is.
  rewrite (s_min_value_ok HV). cbn [bind]. rewrite (eq_const_ok HV) by (auto; apply (wf_ofZ HV)). cbn [bind].
  rewrite (eqb_ofZ HV true) by (auto; apply (min_fits HV)). cbn [val].
  pose proof (sval_range HV x Hx) as R. pose proof (pBh HV).
  destruct ((sval x =? - 2 ^ (BITS - 1)) && (n =? -1)) eqn:E.
  - apply andb_prop in E. destruct E as [E1 E2]. apply Z.eqb_eq in E1, E2. rewrite E1, E2.
    assert (Q : Z.quot (- 2 ^ (BITS - 1)) (-1) = 2 ^ (BITS - 1)).
    { change (-1) with (- (1)). rewrite Z.quot_opp_opp, Z.quot_1_r by lia. reflexivity. }
    rewrite Q. replace (Z.rem (- 2 ^ (BITS - 1)) (-1)) with 0
      by (change (-1) with (- (1)); rewrite Z.rem_opp_opp, Z.rem_1_r by lia; reflexivity).
    rewrite (ofZ_min HV). destruct (fitsb_reflect true (2 ^ (BITS - 1))) as [Hc|Hc]; [|reflexivity].
    exfalso. cbn in Hc. unfold fits_s in Hc. lia.
  - rewrite d_wrapping_div_rem_is_ok by auto. cbn [bind].
    replace (fitsb true (Z.quot (sval x) n)) with true; [reflexivity|]. symmetry. apply fitsb_spec.
    destruct (quot_abs (sval x) n Hn) as [Eq _]. cbn. unfold fits_s.
    assert (0 <= Z.abs (sval x) / Z.abs n) by (apply Z.div_pos; lia).
    destruct (Z.eq_dec (Z.abs n) 1) as [E1|E1].
    + rewrite E1, Z.div_1_r in *. apply andb_false_iff in E.
      destruct (Z.ltb_spec (sval x) 0), (Z.ltb_spec n 0); cbn [xorb] in Eq; rewrite Eq;
        destruct E as [E|E]; apply Z.eqb_neq in E; lia.
    + assert (Z.abs (sval x) / Z.abs n <= Z.abs (sval x) / 2) by (apply Z.div_le_compat_l; lia).
      assert (Z.abs (sval x) / 2 <= 2 ^ (BITS - 1) / 2) by (apply Z.div_le_mono; lia).
      assert (Hd2 : 2 ^ (BITS - 1) / 2 < 2 ^ (BITS - 1)) by (apply Z.div_lt; lia).
      rewrite Eq. destruct (xorb _ _); lia.
Qed.
Lemma d_checked_div_rem_us_ok : forall k sg x n, wf x -> fits_u (kbits k) n ->
  d_checked_div_rem_us fix_div_by k sg x n = Ok (if n =? 0 then None else Some (ofZ (val sg x / n), val sg x mod n)).
Proof.
  intros k sg x n Hx Hf. unfold d_checked_div_rem_us. destruct (Z.eqb_spec n 0); [reflexivity|].
  unfold fits_u in Hf. rewrite d_wrapping_div_rem_us_ok by (auto; lia). reflexivity.
Qed.
Lemma d_checked_div_rem_is_ok : forall k x n, wf x -> fits_s (kbits k) n ->
  d_checked_div_rem_is fix_div_by k x n =
  Ok (if (n =? 0) || negb (fitsb true (Z.quot (sval x) n)) then None
      else Some (ofZ (Z.quot (sval x) n), Z.rem (sval x) n)).
Proof.
  intros k x n Hx Hf. unfold d_checked_div_rem_is. destruct (Z.eqb_spec n 0); [reflexivity|].
  rewrite d_overflowing_div_rem_is_ok by auto. rewrite opt_eq. cbn [orb]. destruct (fitsb _ _); reflexivity.
Qed.
Lemma d_div_rem_us_ok : forall k sg x n, wf x -> 0 < n -> fits_u (kbits k) n ->
  d_div_rem_us fix_div_by k sg x n = Ok (ofZ (val sg x / n), val sg x mod n).
Proof.
  intros k sg x n Hx Hn Hf. unfold d_div_rem_us. rewrite d_checked_div_rem_us_ok, d_wrapping_div_rem_us_ok by auto.
  destruct (Z.eqb_spec n 0); [lia|]. destruct chk; reflexivity.
Qed.
Lemma d_div_rem_is_ok : forall k x n, wf x -> n <> 0 -> fits_s (kbits k) n ->
  d_div_rem_is fix_div_by k x n =
  if chk && negb (fitsb true (Z.quot (sval x) n)) then Panic else Ok (ofZ (Z.quot (sval x) n), Z.rem (sval x) n).
Proof.
  intros k x n Hx Hn Hf. unfold d_div_rem_is. rewrite d_checked_div_rem_is_ok, d_wrapping_div_rem_is_ok by auto.
  destruct (Z.eqb_spec n 0); [contradiction|]. destruct chk, (fitsb _ _); reflexivity.
Qed.
Lemma d_wrapping_div_rem_us_0 : forall k sg x, wf x -> d_wrapping_div_rem_us fix_div_by k sg x 0 = Panic.
Proof.
  intros k sg x Hx. unfold d_wrapping_div_rem_us. cbn zeta. pose proof (dbits_1 HV k). pose proof (pow2_pos (kbits k)).
  rewrite (ucast_d HV) by (unfold fits_u; lia). destruct sg.
  - unfold d_s_div_rem_u. rewrite (unsigned_abs_ok HV) by auto. cbn [bind].
    rewrite fix_div_by_ok by (try apply (wf_ofZ HV); lia). reflexivity.
  - unfold d_u_div_rem. rewrite fix_div_by_ok by (auto; lia). reflexivity.
Qed.
Lemma d_wrapping_div_rem_is_0 : forall k x, wf x -> d_wrapping_div_rem_is fix_div_by k x 0 = Panic.
Proof.
  intros k x Hx. unfold d_wrapping_div_rem_is. cbn zeta. pose proof (dbits_1 HV k). pose proof (pow2_pos (kbits k)).
  pose proof (pow2_pos (kbits k - 1)).
  rewrite (scast_d HV) by (unfold fits_s; lia).
  unfold d_s_div_rem_i. rewrite (unsigned_abs_ok HV) by auto. cbn [bind Z.abs].
  rewrite fix_div_by_ok by (try apply (wf_ofZ HV); lia). reflexivity.
Qed.
Lemma d_div_rem_us_0 : forall k sg x, wf x -> d_div_rem_us fix_div_by k sg x 0 = Panic.
Proof.
  intros k sg x Hx. unfold d_div_rem_us. rewrite d_wrapping_div_rem_us_0 by auto. destruct chk; reflexivity.
Qed.
Lemma d_div_rem_is_0 : forall k x, wf x -> d_div_rem_is fix_div_by k x 0 = Panic.
Proof.
  intros k x Hx. unfold d_div_rem_is. rewrite d_wrapping_div_rem_is_0 by auto. destruct chk; reflexivity.
Qed.
End P.
