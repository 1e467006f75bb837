(** * Proofs: division by scalars (MScalar.v) *)

Require Import ZArith List Bool Lia.
From Verif Require Import Prim Spec Facts MAdd PAdd PAddS MMul PMul PMulS MShift MCore PCore PBits PWide MArith PArith PArith2 PPow MDiv DivSpec PDiv PDivFull MScalar PScalar PApi PApi2.
Import ListNotations.
Local Open Scope Z_scope.

Section P.
Context {c : Cfg}.
Hypothesis HV : Valid.

Local Notation B := (2 ^ W).
Let HW : 1 <= W <= 64 := HW1 HV.
Let HW2 : 2 <= W <= 64.
Proof. destruct (W_cases HV); lia. Qed.

Lemma route_cases : forall k,
  (route k = DLimb /\ dbits (route k) = W /\ kbits k <= W) \/
  (route k = DWide /\ dbits (route k) = 2 * W /\ W < kbits k <= 2 * W) \/
  (route k = D128 /\ dbits (route k) = 128 /\ kbits k = 128 /\ W = 32).
Proof.
  intros k. destruct (W_cases HV) as [E|E]; destruct k; cbn [kbits route dbits]; rewrite ?E; cbn; rewrite ?E;
    first [left; repeat split; (reflexivity || lia)|right; left; repeat split; (reflexivity || lia)|right; right; repeat split; (reflexivity || lia)].
Qed.
Lemma dbits_1 : forall k, 1 <= kbits k <= dbits (route k).
Proof. intros k. destruct (W_cases HV) as [E|E]; destruct k; cbn [kbits route]; rewrite ?E; cbn; rewrite ?E; lia. Qed.

Definition lift2 (o : option (Z * Z)) : res (list Z * Z) :=
  match o with Some (q, r) => Ok (ofZ q, r) | None => Panic end.

Lemma B2 : B * B = 2 ^ (2 * W).
Proof. rewrite <- Z.pow_add_r by lia. f_equal. lia. Qed.

Lemma div_by_ok : forall k l n, wf l -> 0 <= n < 2 ^ kbits k ->
  div_by (route k) l n = lift2 (scalar_outcome W N (kbits k) (uval l) n).
Proof.
  intros k l n (HL & Hd) Hn. pose proof (N_ge4 HV) as HN. unfold scalar_outcome, uval.
  pose proof (uval_range HV l (conj HL Hd)) as H0. unfold uval in H0.
  destruct (route_cases k) as [(R & D & K)|[(R & D & K)|(R & D & K & E)]]; rewrite R; cbn [div_by].
  - destruct (Z.leb_spec (kbits k) W); [|lia]. pose proof (pow2_le_mono (kbits k) W).
    pose proof (dbits_1 k).
    destruct (Z.eqb_spec n 0) as [->|]; cbn [lift2].
    + apply (div_limb_0 HW2); auto; lia.
    + rewrite (div_limb_ok HW2) by (auto; lia). rewrite HL. reflexivity.
  - destruct (Z.leb_spec (kbits k) W); [lia|]. destruct (Z.leb_spec (kbits k) (2 * W)); [|lia].
    pose proof (pow2_le_mono (kbits k) (2 * W)). pose proof B2 as EB. rewrite <- EB in *.
    destruct (Z.leb_spec (B * B) (lval W l)) as [G|G].
    + rewrite (div_wide_big HW2) by (auto; lia). rewrite HL.
      destruct (Z.eqb_spec (lval W l) 0); [exfalso; pose proof (pow2_pos W); nia|].
      destruct (n =? 0); [reflexivity|]. cbn [andb]. destruct (_ && _); reflexivity.
    + rewrite (div_wide_small HW2) by (auto; lia). rewrite HL. cbn [andb].
      destruct (lval W l =? 0); [reflexivity|]. destruct (n =? 0); reflexivity.
  - rewrite K in *. destruct (Z.leb_spec 128 W); [lia|]. destruct (Z.leb_spec 128 (2 * W)); [lia|].
    assert (5 <= length l)%nat by (rewrite HL; pose proof BITS_alt; pose proof (BITS_ge HV); nia).
    destruct (Z.eqb_spec n 0) as [->|Hn0].
    + rewrite (div_from_u128_0 HW2) by auto. rewrite HL. destruct (_ =? 0); reflexivity.
    + rewrite (div_from_u128_ok HW2) by (auto; lia). rewrite B2, HL.
      destruct (Z.eqb_spec (lval W l) 0) as [Z0|_]; [|reflexivity].
      rewrite Z0, Z.div_0_l, Z.mod_0_l by auto.
      destruct (Z.leb_spec (2 ^ (2 * W)) 0); [exfalso; pose proof (pow2_pos (2 * W)); lia|]. reflexivity.
Qed.

Lemma scalar_exact : forall k x n, 0 <= x -> 0 < n < 2 ^ kbits k -> exact_scalar W N (kbits k) x n ->
  scalar_outcome W N (kbits k) x n = Some (x / n, x mod n).
Proof.
  intros k x n Hx Hn HE. unfold scalar_outcome.
  destruct (Z.leb_spec (kbits k) W); [destruct (Z.eqb_spec n 0); [lia|reflexivity]|].
  destruct (Z.eqb_spec x 0) as [->|]; [rewrite Z.div_0_l, Z.mod_0_l by lia; reflexivity|].
  destruct (Z.eqb_spec n 0); [lia|].
  assert (HB : B < 2 ^ (2 * W)) by (apply Z.pow_lt_mono_r; lia).
  destruct (Z.leb_spec (kbits k) (2 * W)) as [L2|L2].
  - pose proof (dbits_1 k). pose proof (pow2_le_mono (kbits k) (2 * W)).
    destruct (Z.leb_spec (2 ^ (2 * W)) x); [|reflexivity]. destruct (Z.leb_spec B n); [|reflexivity].
    destruct HE as [HE|[HE|[HE|[HE|[[_ HE]|[HE _]]]]]]; try lia. rewrite HE. reflexivity.
  - assert (K : kbits k = 128).
    { destruct (route_cases k) as [(R & D & K)|[(R & D & K)|(R & D & K & E)]]; auto; lia. }
    rewrite K in *. pose proof (Z.mod_pos_bound x n ltac:(lia)) as Hm.
    assert (S : ((if (2 ^ (2 * W) <=? x) && (n <? x) && (B <=? n) then stray W N x n else 0)) mod 2 ^ 128 = 0).
    { destruct (Z.leb_spec (2 ^ (2 * W)) x); [|reflexivity]. destruct (Z.ltb_spec n x); [|reflexivity].
      destruct (Z.leb_spec B n); [|reflexivity]. cbn [andb].
      destruct HE as [HE|[HE|[HE|[HE|[[HE _]|[_ HE]]]]]]; try lia; auto. }
    rewrite <- Zplus_mod_idemp_r, S, Z.add_0_r, (Z.mod_small (x mod n)) by lia. reflexivity.
Qed.

Lemma ucast_d : forall k n, fits_u (kbits k) n -> ucast (dbits (route k)) n = n.
Proof. intros k n H. apply ucast_fits. pose proof (dbits_1 k). apply (fits_u_mono (kbits k)); auto; lia. Qed.
Lemma scast_d : forall k n, fits_s (kbits k) n -> scast (dbits (route k)) n = n.
Proof. intros k n H. pose proof (dbits_1 k). apply scast_fits; [lia|]. apply (fits_s_mono (kbits k)); auto; lia. Qed.

(** ** Unsigned scalars *)

Lemma floor_neg : forall a n, a < 0 -> 0 < n ->
  (Z.abs a mod n = 0 -> a / n = - (Z.abs a / n) /\ a mod n = 0) /\
  (Z.abs a mod n <> 0 -> a / n = - (Z.abs a / n) - 1 /\ a mod n = n - Z.abs a mod n).
Proof.
  intros a n Ha Hn. rewrite Z.abs_neq by lia. set (b := - a).
  replace a with (- b) by (unfold b; lia). pose proof (Z.div_mod b n ltac:(lia)) as E. pose proof (Z.mod_pos_bound b n Hn) as Hb.
  split; intros H.
  - rewrite Z.div_opp_l_z, Z.mod_opp_l_z by lia. auto.
  - rewrite Z.div_opp_l_nz, Z.mod_opp_l_nz by lia. auto.
Qed.

Lemma s_div_rem_u_ok : forall k x n, wf x -> 0 < n < 2 ^ kbits k -> exact_scalar W N (kbits k) (Z.abs (sval x)) n ->
  s_div_rem_u (route k) x n = Ok (ofZ (sval x / n), sval x mod n).
Proof.
  intros k x n Hx Hn HE. unfold s_div_rem_u. rewrite (unsigned_abs_ok HV) by auto. cbn [bind].
  rewrite div_by_ok by (try apply (wf_ofZ HV); lia). rewrite (uval_abs HV) by auto.
  rewrite scalar_exact by (auto; lia). cbn [lift2 bind]. rewrite (mk_ok HV). cbn [bind].
  rewrite (is_negative_ok HV) by auto. cbn [bind].
  destruct (Z.ltb_spec (sval x) 0) as [Neg|Pos].
  - rewrite (s_wrapping_neg_ok HV) by apply (wf_ofZ HV). cbn [bind andb].
    assert (En : ofZ (- sval (ofZ (Z.abs (sval x) / n))) = ofZ (- (Z.abs (sval x) / n))).
    { apply (ofZ_eq_mod HV). 
      assert (Hc : sval (ofZ (Z.abs (sval x) / n)) mod 2 ^ BITS = (Z.abs (sval x) / n) mod 2 ^ BITS).
      { rewrite (sval_mod HV) by apply (wf_ofZ HV). apply (uval_ofZ HV). }
      rewrite <- (Z.sub_0_l (sval _)), <- (Z.sub_0_l (_ / n)). rewrite Zminus_mod, Hc, <- Zminus_mod. reflexivity. }
    rewrite En. destruct (floor_neg (sval x) n Neg ltac:(lia)) as [F0 F1].
    destruct (Z.eqb_spec (Z.abs (sval x) mod n) 0) as [E0|E0]; cbn [negb].
    + destruct (F0 E0) as [-> ->]. rewrite E0. reflexivity.
    + destruct (F1 E0) as [-> ->]. rewrite (from_u8_ok HV) by (unfold fits_u; lia). cbn [bind].
      rewrite (op_sub_ok HV) by apply (wf_ofZ HV). cbn [val].
      pose proof (sval_range HV x Hx) as Rx. pose proof (pBh HV). pose proof (pB_big HV).
      assert (N1 : 2 <= n).
      { destruct (Z.eq_dec n 1) as [->|]; [|lia]. rewrite Z.mod_1_r in E0. lia. }
      assert (Q : 0 <= Z.abs (sval x) / n <= 2 ^ (BITS - 1) - 1).
      { split; [apply Z.div_pos; lia|]. 
        assert (Z.abs (sval x) / n <= Z.abs (sval x) / 2) by (apply Z.div_le_compat_l; lia).
        assert (Z.abs (sval x) / 2 <= 2 ^ (BITS - 1) / 2) by (apply Z.div_le_mono; lia).
        assert (Hd2 : 2 ^ (BITS - 1) / 2 < 2 ^ (BITS - 1)) by (apply Z.div_lt; lia). lia. }
      rewrite !(sval_ofZ_fits HV) by (unfold fits_s; lia).
      rewrite op_result_fits by (cbn; unfold fits_s; lia). cbn [bind].
      pose proof (Z.mod_pos_bound (Z.abs (sval x)) n ltac:(lia)) as Hm.
      pose proof (dbits_1 k). pose proof (pow2_le_mono (kbits k) (dbits (route k))).
      unfold usub. rewrite uchk_ok by (unfold fits_u; lia). reflexivity.
  - cbn [andb bind]. rewrite Z.abs_eq by lia. reflexivity.
Qed.

Lemma wrapping_div_rem_us_ok : forall k sg x n, wf x -> 0 < n -> fits_u (kbits k) n ->
  exact_scalar W N (kbits k) (Z.abs (val sg x)) n ->
  wrapping_div_rem_us k sg x n = Ok (ofZ (val sg x / n), val sg x mod n).
Proof.
  intros k sg x n Hx Hn Hf HE. unfold wrapping_div_rem_us. cbn zeta. rewrite ucast_d by auto.
  unfold fits_u in Hf. assert (Hm : forall v, ucast (kbits k) (v mod n) = v mod n).
  { intros v. apply Z.mod_small. pose proof (Z.mod_pos_bound v n Hn). lia. }
  destruct sg; cbn [val] in *.
  - rewrite s_div_rem_u_ok by (auto; lia). cbn [bind]. rewrite Hm. reflexivity.
  - pose proof (uval_range HV x Hx). rewrite Z.abs_eq in HE by lia.
    unfold u_div_rem. rewrite div_by_ok by (auto; lia).
    rewrite scalar_exact by (auto; lia). cbn [lift2 bind]. rewrite (mk_ok HV). cbn [bind]. rewrite Hm. reflexivity.
Qed.
(** every panic: the outcome has no answer *)
Lemma wrapping_div_rem_us_panic : forall k sg x n, wf x -> fits_u (kbits k) n ->
  scalar_outcome W N (kbits k) (Z.abs (val sg x)) n = None ->
  wrapping_div_rem_us k sg x n = Panic.
Proof.
  intros k sg x n Hx Hf HE. unfold wrapping_div_rem_us. cbn zeta. rewrite ucast_d by auto. unfold fits_u in Hf.
  destruct sg; cbn [val] in *.
  - unfold s_div_rem_u. rewrite (unsigned_abs_ok HV) by auto. cbn [bind].
    rewrite div_by_ok by (try apply (wf_ofZ HV); lia). rewrite (uval_abs HV) by auto. rewrite HE. reflexivity.
  - pose proof (uval_range HV x Hx). rewrite Z.abs_eq in HE by lia.
    unfold u_div_rem. rewrite div_by_ok by (auto; lia). rewrite HE. reflexivity.
Qed.
(** the unsigned result, in all cases *)
Lemma u_wrapping_div_rem_us_all : forall k x n, wf x -> fits_u (kbits k) n ->
  wrapping_div_rem_us k false x n = lift2 (scalar_outcome W N (kbits k) (uval x) n).
Proof.
  intros k x n Hx Hf. unfold wrapping_div_rem_us. cbn zeta. rewrite ucast_d by auto. unfold fits_u in Hf.
  pose proof (uval_range HV x Hx). unfold u_div_rem. rewrite div_by_ok by (auto; lia).
  destruct (scalar_outcome W N (kbits k) (uval x) n) as [[q r]|] eqn:E; cbn [lift2 bind]; [|reflexivity].
  rewrite (mk_ok HV). cbn [bind]. repeat f_equal. apply Z.mod_small.
  unfold scalar_outcome in E.
  assert (M : n <> 0 -> 0 <= uval x mod n < 2 ^ kbits k).
  { intros Hn. pose proof (Z.mod_pos_bound (uval x) n ltac:(lia)). lia. }
  pose proof (dbits_1 k). pose proof (pow2_pos (kbits k)).
  destruct (Z.leb_spec (kbits k) W).
  { destruct (Z.eqb_spec n 0); inversion E; subst; auto. }
  destruct (uval x =? 0). { inversion E; subst. lia. }
  destruct (Z.eqb_spec n 0); [discriminate|].
  destruct (Z.leb_spec (kbits k) (2 * W)).
  { destruct (_ && _); inversion E; subst; auto. }
  assert (K : kbits k = 128).
  { destruct (route_cases k) as [(R & D & K)|[(R & D & K)|(R & D & K & E')]]; auto; lia. }
  inversion E. rewrite K. apply Z.mod_pos_bound. lia.
Qed.

(** ** Signed scalars *)

Lemma quot_abs : forall a n, n <> 0 ->
  Z.quot a n = (if xorb (a <? 0) (n <? 0) then - (Z.abs a / Z.abs n) else Z.abs a / Z.abs n) /\
  Z.rem a n = (if a <? 0 then - (Z.abs a mod Z.abs n) else Z.abs a mod Z.abs n).
Proof.
  intros a n Hn. destruct (Z.ltb_spec a 0), (Z.ltb_spec n 0); cbn [xorb].
  - rewrite !Z.abs_neq by lia. rewrite <- Z.quot_div_nonneg, <- Z.rem_mod_nonneg by lia.
    rewrite Z.quot_opp_opp, Z.rem_opp_opp by lia. lia.
  - rewrite (Z.abs_neq a), (Z.abs_eq n) by lia. rewrite <- Z.quot_div_nonneg, <- Z.rem_mod_nonneg by lia.
    rewrite Z.quot_opp_l, Z.rem_opp_l by lia. lia.
  - rewrite (Z.abs_eq a), (Z.abs_neq n) by lia. rewrite <- Z.quot_div_nonneg, <- Z.rem_mod_nonneg by lia.
    rewrite Z.quot_opp_r, Z.rem_opp_r by lia. lia.
  - rewrite !Z.abs_eq by lia. rewrite <- Z.quot_div_nonneg, <- Z.rem_mod_nonneg by lia. auto.
Qed.
Lemma ofZ_opp_sval : forall v, ofZ (- sval (ofZ v)) = ofZ (- v).
Proof.
  intros v. apply (ofZ_eq_mod HV).
  assert (Hc : sval (ofZ v) mod 2 ^ BITS = v mod 2 ^ BITS).
  { rewrite (sval_mod HV) by apply (wf_ofZ HV). apply (uval_ofZ HV). }
  rewrite <- (Z.sub_0_l (sval _)), <- (Z.sub_0_l v). rewrite Zminus_mod, Hc, <- Zminus_mod. reflexivity.
Qed.

Lemma wrapping_div_rem_is_ok : forall k x n, wf x -> n <> 0 -> fits_s (kbits k) n ->
  exact_scalar W N (kbits k) (Z.abs (sval x)) (Z.abs n) ->
  wrapping_div_rem_is k x n = Ok (ofZ (Z.quot (sval x) n), Z.rem (sval x) n).
Proof.
  intros k x n Hx Hn Hf HE. unfold wrapping_div_rem_is. cbn zeta. rewrite scast_d by auto.
  unfold s_div_rem_i. rewrite (unsigned_abs_ok HV) by auto. cbn [bind].
  pose proof (dbits_1 k) as D1. assert (Hh : 2 ^ kbits k = 2 * 2 ^ (kbits k - 1)) by (apply pow2_half; lia). assert (0 < 2 ^ (kbits k - 1)) by (apply pow2_pos; lia). unfold fits_s in Hf.
  rewrite div_by_ok by (try apply (wf_ofZ HV); lia). rewrite (uval_abs HV) by auto.
  rewrite scalar_exact by (auto; lia). cbn [lift2 bind]. rewrite (mk_ok HV). cbn [bind].
  rewrite (is_negative_ok HV) by auto. cbn [bind].
  destruct (quot_abs (sval x) n Hn) as [Eq Er]. rewrite Eq, Er.
  pose proof (Z.mod_pos_bound (Z.abs (sval x)) (Z.abs n) ltac:(lia)) as Hm.
  pose proof (pow2_le_mono (kbits k - 1) (dbits (route k) - 1)).
  rewrite (scast_fits (dbits (route k)) (_ mod _)) by (unfold fits_s; lia).
  rewrite (scast_fits (dbits (route k)) (- _)) by (unfold fits_s; lia).
  rewrite (s_wrapping_neg_ok HV) by apply (wf_ofZ HV). rewrite ofZ_opp_sval.
  assert (S : forall v, - 2 ^ (kbits k - 1) <= v < 2 ^ (kbits k - 1) -> scast (kbits k) v = v).
  { intros v Hv. apply scast_fits; [lia|exact Hv]. }
  destruct (sval x <? 0), (n <? 0); cbn [eqb negb xorb bind]; rewrite S by lia; reflexivity.
Qed.
Lemma wrapping_div_rem_is_panic : forall k x n, wf x -> fits_s (kbits k) n ->
  scalar_outcome W N (kbits k) (Z.abs (sval x)) (Z.abs n) = None ->
  wrapping_div_rem_is k x n = Panic.
Proof.
  intros k x n Hx Hf HE. unfold wrapping_div_rem_is. cbn zeta. rewrite scast_d by auto.
  unfold s_div_rem_i. rewrite (unsigned_abs_ok HV) by auto. cbn [bind].
  pose proof (dbits_1 k) as D1. assert (Hh : 2 ^ kbits k = 2 * 2 ^ (kbits k - 1)) by (apply pow2_half; lia). assert (0 < 2 ^ (kbits k - 1)) by (apply pow2_pos; lia). unfold fits_s in Hf.
  rewrite div_by_ok by (try apply (wf_ofZ HV); lia). rewrite (uval_abs HV) by auto. rewrite HE. reflexivity.
Qed.
Lemma overflowing_div_rem_is_ok : forall k x n, wf x -> n <> 0 -> fits_s (kbits k) n ->
  exact_scalar W N (kbits k) (Z.abs (sval x)) (Z.abs n) ->
  overflowing_div_rem_is k x n =
  Ok (ofZ (Z.quot (sval x) n), Z.rem (sval x) n, negb (fitsb true (Z.quot (sval x) n))).
Proof.
  intros k x n Hx Hn Hf HE. unfold overflowing_div_rem_is.
  rewrite (s_min_value_ok HV). cbn [bind]. rewrite (eq_const_ok HV) by (auto; apply (wf_ofZ HV)). cbn [bind].
  rewrite (eqb_ofZ HV true) by (auto; apply (min_fits HV)). cbn [val].
  pose proof (sval_range HV x Hx) as R. pose proof (pBh HV).
  destruct ((sval x =? - 2 ^ (BITS - 1)) && (n =? -1)) eqn:E.
  - apply andb_prop in E. destruct E as [E1 E2]. apply Z.eqb_eq in E1, E2. rewrite E1, E2.
    assert (Q : Z.quot (- 2 ^ (BITS - 1)) (-1) = 2 ^ (BITS - 1)).
    { change (-1) with (- (1)). rewrite Z.quot_opp_opp, Z.quot_1_r by lia. reflexivity. }
    rewrite Q. replace (Z.rem (- 2 ^ (BITS - 1)) (-1)) with 0
      by (change (-1) with (- (1)); rewrite Z.rem_opp_opp, Z.rem_1_r by lia; reflexivity).
    rewrite (ofZ_min HV). destruct (fitsb_reflect true (2 ^ (BITS - 1))) as [Hc|Hc]; [|reflexivity].
    exfalso. cbn in Hc. unfold fits_s in Hc. lia.
  - rewrite wrapping_div_rem_is_ok by auto. cbn [bind].
    replace (fitsb true (Z.quot (sval x) n)) with true; [reflexivity|]. symmetry. apply fitsb_spec.
    destruct (quot_abs (sval x) n Hn) as [Eq _]. cbn. unfold fits_s.
    assert (0 <= Z.abs (sval x) / Z.abs n) by (apply Z.div_pos; lia).
    destruct (Z.eq_dec (Z.abs n) 1) as [E1|E1].
    + rewrite E1, Z.div_1_r in *. apply andb_false_iff in E.
      destruct (Z.ltb_spec (sval x) 0), (Z.ltb_spec n 0); cbn [xorb] in Eq; rewrite Eq;
        destruct E as [E|E]; apply Z.eqb_neq in E; lia.
    + assert (Z.abs (sval x) / Z.abs n <= Z.abs (sval x) / 2) by (apply Z.div_le_compat_l; lia).
      assert (Z.abs (sval x) / 2 <= 2 ^ (BITS - 1) / 2) by (apply Z.div_le_mono; lia).
      assert (Hd2 : 2 ^ (BITS - 1) / 2 < 2 ^ (BITS - 1)) by (apply Z.div_lt; lia).
      rewrite Eq. destruct (xorb _ _); lia.
Qed.

(** ** Checked and plain forms *)

Lemma checked_div_rem_us_ok : forall k sg x n, wf x -> fits_u (kbits k) n ->
  exact_scalar W N (kbits k) (Z.abs (val sg x)) n ->
  checked_div_rem_us k sg x n = Ok (if n =? 0 then None else Some (ofZ (val sg x / n), val sg x mod n)).
Proof.
  intros k sg x n Hx Hf HE. unfold checked_div_rem_us. destruct (Z.eqb_spec n 0); [reflexivity|].
  unfold fits_u in Hf. rewrite wrapping_div_rem_us_ok by (auto; lia). reflexivity.
Qed.
Lemma checked_div_rem_is_ok : forall k x n, wf x -> fits_s (kbits k) n ->
  exact_scalar W N (kbits k) (Z.abs (sval x)) (Z.abs n) ->
  checked_div_rem_is k x n =
  Ok (if (n =? 0) || negb (fitsb true (Z.quot (sval x) n)) then None
      else Some (ofZ (Z.quot (sval x) n), Z.rem (sval x) n)).
Proof.
  intros k x n Hx Hf HE. unfold checked_div_rem_is. destruct (Z.eqb_spec n 0); [reflexivity|].
  rewrite overflowing_div_rem_is_ok by auto. rewrite opt_eq. cbn [orb]. destruct (fitsb _ _); reflexivity.
Qed.
Lemma div_rem_us_ok : forall k sg x n, wf x -> 0 < n -> fits_u (kbits k) n ->
  exact_scalar W N (kbits k) (Z.abs (val sg x)) n ->
  div_rem_us k sg x n = Ok (ofZ (val sg x / n), val sg x mod n).
Proof.
  intros k sg x n Hx Hn Hf HE. unfold div_rem_us. rewrite checked_div_rem_us_ok, wrapping_div_rem_us_ok by auto.
  destruct (Z.eqb_spec n 0); [lia|]. destruct chk; reflexivity.
Qed.
Lemma div_rem_is_ok : forall k x n, wf x -> n <> 0 -> fits_s (kbits k) n ->
  exact_scalar W N (kbits k) (Z.abs (sval x)) (Z.abs n) ->
  div_rem_is k x n =
  if chk && negb (fitsb true (Z.quot (sval x) n)) then Panic else Ok (ofZ (Z.quot (sval x) n), Z.rem (sval x) n).
Proof.
  intros k x n Hx Hn Hf HE. unfold div_rem_is. rewrite checked_div_rem_is_ok, wrapping_div_rem_is_ok by auto.
  destruct (Z.eqb_spec n 0); [contradiction|]. destruct chk, (fitsb _ _); reflexivity.
Qed.
End P.
