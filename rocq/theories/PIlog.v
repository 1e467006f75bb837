(** * Proofs about MApi.v: the logarithm in a general base *)

Require Import ZArith List Bool Lia.
From Verif Require Import Prim Spec Facts MAdd PAdd MMul MShift MCore PCore PBits PWide MArith PArith PArith2 PPow PMisc
  MDiv DivSpec PDiv PKnuth PDivFull MApi PApi PApi2 PApi3.
Import ListNotations.
Local Open Scope Z_scope.

Section P.
Context {c : Cfg}.
Hypothesis HV : Valid.
Local Notation W0 := (W_nonneg HV).

(** the quotient [x / base] panics *)
Definition ilog_panics (a b : Z) : bool :=
  (2 ^ (BITS - W) <=? b) && (b <? a) && has_correction W a b.

Lemma u_op_div_ok : forall x y, wf x -> wf y -> uval y <> 0 ->
  op_div false x y = if ilog_panics (uval x) (uval y) then Panic else Ok (ofZ (uval x / uval y)).
Proof.
  intros x y Hx Hy H0. pose proof (uval_range HV x Hx) as Rx. pose proof (uval_range HV y Hy) as Ry.
  rewrite (op_div_ok HV) by auto. cbn [val]. unfold opd, dnone, dovf. cbn [andb].
  destruct (Z.eqb_spec (uval y) 0); [contradiction|]. rewrite andb_false_r. rewrite (sq_cases HV) by auto.
  rewrite !Z.abs_eq by lia. fold (ilog_panics (uval x) (uval y)). rewrite Z.quot_div_nonneg by lia.
  destruct (ilog_panics _ _); reflexivity.
Qed.

Lemma fb32 : forall n, 0 <= n < 2 ^ 32 -> uchk 32 n = Ok n.
Proof. intros. apply uchk_ok. auto. Qed.

Lemma ilog_loop_ok : forall x b, wf x -> wf b -> 2 <= uval b -> ilog_panics (uval x) (uval b) = false ->
  forall fuel n, 0 <= n -> uval b ^ n <= uval x -> Z.log2 (uval x) < n + Z.of_nat fuel ->
  exists k, ilog_loop fuel x b n (ofZ (uval b ^ n)) = Ok k /\ 0 <= k < BITS /\ uval b ^ k <= uval x < uval b ^ (k + 1).
Proof.
  intros x b Hx Hb Hb2 HP. pose proof (uval_range HV x Hx) as Rx. pose proof (uval_range HV b Hb) as Rb.
  assert (B0 : uval b <> 0) by lia. assert (B1 : 0 < uval b) by lia.
  assert (LB : forall n, 0 <= n -> uval b ^ n <= uval x -> n <= Z.log2 (uval x)).
  { intros n Hn H. apply Z.log2_le_pow2; [|apply Z.le_trans with (uval b ^ n); auto; apply Z.pow_le_mono_l; lia].
    pose proof (Z.pow_pos_nonneg (uval b) n B1 Hn). lia. }
  assert (P0 : forall n, 0 <= n -> 0 < uval b ^ n) by (intros; apply Z.pow_pos_nonneg; lia).
  assert (LX : Z.log2 (uval x) < BITS).
  { destruct (Z.le_gt_cases (uval x) 0) as [|G]; [rewrite Z.log2_nonpos by auto; pose proof (BITS_pos HV); lia|].
    apply Z.log2_lt_pow2; lia. }
  induction fuel as [|fuel IH]; intros n Hn H HF.
  - pose proof (LB n Hn H). cbn [Z.of_nat] in HF. lia.
  - assert (Fn : 0 <= uval b ^ n < 2 ^ BITS) by (pose proof (P0 n Hn); lia).
    cbn [ilog_loop]. rewrite u_op_div_ok by (auto; lia). rewrite HP. cbn [bind].
    rewrite (le_const_ok HV) by wfauto. cbn [bind].
    pose proof (Z.div_mod (uval x) (uval b) B0) as DM. pose proof (Z.mod_pos_bound (uval x) (uval b) B1) as MB.
    assert (Fq : 0 <= uval x / uval b < 2 ^ BITS).
    { split; [apply Z.div_pos; lia|]. apply Z.le_lt_trans with (uval x); [apply Z.div_le_upper_bound; nia|lia]. }
    rewrite (val_ofZ_small HV false (uval b ^ n)) by exact Fn. rewrite (val_ofZ_small HV false (uval x / uval b)) by exact Fq.
    assert (PS : uval b ^ (n + 1) = uval b ^ n * uval b) by (rewrite Z.pow_add_r by lia; rewrite Z.pow_1_r; reflexivity).
    destruct (Z.leb_spec (uval b ^ n) (uval x / uval b)) as [L|L].
    + assert (H' : uval b ^ (n + 1) <= uval x) by (rewrite PS; clear - L DM MB Hb2; nia).
      assert (Hn' : 0 <= n + 1) by lia. pose proof (LB _ Hn' H') as L1. pose proof (BITS_lt31 HV).
      pose proof (P0 _ Hn').
      assert (FM : fits false (val false (ofZ (uval b ^ n)) * val false b)).
      { rewrite (val_ofZ_small HV false (uval b ^ n)) by exact Fn. cbn [val]. rewrite <- PS. apply fu. lia. }
      unfold uadd. rewrite fb32 by lia. cbn [bind]. rewrite (op_mul_fits HV) by (auto; wfauto).
      rewrite (val_ofZ_small HV false (uval b ^ n)) by exact Fn. cbn [val bind]. rewrite <- PS. apply IH; auto; lia.
    + exists n. split; auto. pose proof (LB n Hn H). split; [lia|]. split; auto. rewrite PS. clear - L DM MB Hb2; nia.
Qed.

(** the lower bound the loop starts from *)
Lemma ilog_start : forall a b, 2 <= b <= a -> 0 <= Z.log2 a / (Z.log2 b + 1) <= Z.log2 a /\ b ^ (Z.log2 a / (Z.log2 b + 1)) <= a.
Proof.
  intros a b H. pose proof (Z.log2_nonneg a). pose proof (Z.log2_nonneg b).
  set (n := Z.log2 a / (Z.log2 b + 1)).
  assert (E : 0 <= n) by (apply Z.div_pos; lia).
  assert (M : (Z.log2 b + 1) * n <= Z.log2 a) by (apply Z.mul_div_le; lia).
  split; [split; auto; nia|].
  apply Z.le_trans with (2 ^ Z.log2 a); [|apply Z.log2_spec; lia].
  apply Z.le_trans with (2 ^ ((Z.log2 b + 1) * n)); [|apply Z.pow_le_mono_r; lia].
  rewrite Z.pow_mul_r by lia. apply Z.pow_le_mono_l. pose proof (Z.log2_spec b ltac:(lia)). unfold Z.succ in *. lia.
Qed.

Lemma tb2W : (2 * W <=? tbits) = true.
Proof. apply Z.leb_le. unfold tbits. pose proof (N_ge4 HV). destruct (W_cases HV) as [->| ->]; lia. Qed.
Lemma tbits_BITS : tbits = BITS.
Proof. unfold tbits, BITS. lia. Qed.

Lemma log2_lt_BITS : forall a, 0 <= a < 2 ^ BITS -> Z.log2 a < BITS.
Proof.
  intros a Ha. destruct (Z.le_gt_cases a 0) as [|G]; [rewrite Z.log2_nonpos by auto; pose proof (BITS_pos HV); lia|].
  apply Z.log2_lt_pow2; lia.
Qed.

(** what comes before the loop *)
Lemma ilog_prefix : forall fuel x b, wf x -> wf b -> 1 <= uval b <= uval x ->
  uval b ^ (Z.log2 (uval x) / (Z.log2 (uval b) + 1)) <= uval x -> 
  u_checked_ilog_fuel fuel x b =
  let n := Z.log2 (uval x) / (Z.log2 (uval b) + 1) in
  let* k := ilog_loop fuel x b n (ofZ (uval b ^ n)) in Ok (Some k).
Proof.
  intros fuel x b Hx Hb Hab HS. pose proof (uval_range HV x Hx) as Rx. pose proof (uval_range HV b Hb) as Rb.
  unfold u_checked_ilog_fuel. rewrite (from_u8_ok HV) by wfauto. cbn [bind].
  rewrite (le_const_ok HV) by wfauto. cbn [bind]. rewrite (lt_const_ok HV) by wfauto. cbn [bind].
  rewrite (derived_eq_ok HV) by wfauto. rewrite (eqb0 HV false) by auto. rewrite (val_ofZ_small HV false 0) by apply (fits_0 HV).
  cbn [val]. destruct (Z.eqb_spec (uval x) 0); [lia|]. destruct (Z.leb_spec (uval b) 0); [lia|].
  destruct (Z.ltb_spec (uval x) (uval b)); [lia|]. cbn [orb]. rewrite tb2W. rewrite !(ilog2_ok HV) by auto. cbn [val].
  destruct (Z.leb_spec (uval x) 0); [lia|]. cbn [bind].
  destruct (Z.leb_spec (uval b) 0); [lia|]. cbn [bind].
  pose proof (log2_lt_BITS _ Rx). pose proof (log2_lt_BITS _ Rb). pose proof (BITS_lt31 HV).
  pose proof (Z.log2_nonneg (uval x)). pose proof (Z.log2_nonneg (uval b)).
  unfold uadd. rewrite fb32 by lia. cbn [bind]. unfold udiv. destruct (Z.eqb_spec (Z.log2 (uval b) + 1) 0); [lia|]. cbn [bind].
  assert (Q : 0 <= Z.log2 (uval x) / (Z.log2 (uval b) + 1) <= Z.log2 (uval x)).
  { split; [apply Z.div_pos; lia|apply Z.div_le_upper_bound; nia]. }
  pose proof (Z.pow_nonneg (uval b) (Z.log2 (uval x) / (Z.log2 (uval b) + 1)) ltac:(tauto)).
  rewrite (pow_fits HV) by (auto; try lia; apply fu; cbn [val]; lia). cbn [bind val]. reflexivity.
Qed.

Lemma u_checked_ilog_none : forall fuel x b, wf x -> wf b -> uval x = 0 \/ uval b = 0 \/ uval x < uval b ->
  u_checked_ilog_fuel fuel x b = Ok None.
Proof.
  intros fuel x b Hx Hb H. pose proof (uval_range HV x Hx) as Rx. pose proof (uval_range HV b Hb) as Rb.
  unfold u_checked_ilog_fuel. rewrite (from_u8_ok HV) by wfauto. cbn [bind].
  rewrite (le_const_ok HV) by wfauto. cbn [bind]. rewrite (lt_const_ok HV) by wfauto. cbn [bind].
  rewrite (derived_eq_ok HV) by wfauto. rewrite (eqb0 HV false) by auto. rewrite (val_ofZ_small HV false 0) by apply (fits_0 HV).
  cbn [val]. destruct (Z.eqb_spec (uval x) 0); [reflexivity|]. destruct (Z.leb_spec (uval b) 0); [reflexivity|].
  destruct (Z.ltb_spec (uval x) (uval b)); [reflexivity|]. lia.
Qed.

Lemma u_checked_ilog_ok : forall x b, wf x -> wf b -> 2 <= uval b <= uval x ->
  if ilog_panics (uval x) (uval b) then u_checked_ilog x b = Panic
  else exists k, u_checked_ilog x b = Ok (Some k) /\ 0 <= k < BITS /\ uval b ^ k <= uval x < uval b ^ (k + 1).
Proof.
  intros x b Hx Hb Hab. pose proof (uval_range HV x Hx) as Rx. destruct (ilog_start _ _ Hab) as (S1 & S2).
  unfold u_checked_ilog. rewrite ilog_prefix by (auto; lia). cbv zeta. destruct (ilog_panics _ _) eqn:EP.
  - cbn [ilog_loop]. rewrite u_op_div_ok by (auto; lia). rewrite EP. reflexivity.
  - assert (H2 : 2 <= uval b) by lia. destruct (ilog_loop_ok x b Hx Hb H2 EP (S (Z.to_nat tbits)) (Z.log2 (uval x) / (Z.log2 (uval b) + 1)))
      as (k & Hk & R); auto; try lia.
    { pose proof (log2_lt_BITS _ Rx). rewrite tbits_BITS. pose proof (BITS_pos HV). lia. }
    exists k. rewrite Hk. cbn [bind]. auto.
Qed.

(** base one: the loop condition never fails *)
Lemma ilog_loop_1 : forall x b, wf x -> wf b -> uval b = 1 -> 1 <= uval x ->
  forall fuel n k, ilog_loop fuel x b n (ofZ 1) <> Ok k.
Proof.
  intros x b Hx Hb H1 Hx1. pose proof (uval_range HV x Hx) as Rx. induction fuel as [|fuel IH]; intros n k; [discriminate|].
  cbn [ilog_loop]. rewrite u_op_div_ok by (auto; lia). unfold ilog_panics. rewrite H1.
  assert (T : (2 ^ (BITS - W) <=? 1) = false).
  { apply Z.leb_gt. pose proof (BITS_ge HV). apply Z.pow_gt_1; [lia|]. destruct (W_cases HV); lia. }
  rewrite T. cbn [andb bind]. rewrite Z.div_1_r. rewrite (le_const_ok HV) by wfauto. cbn [bind].
  rewrite (val_ofZ_small HV false 1) by (apply (fits_small HV); lia). rewrite (val_ofZ_small HV false (uval x)) by exact Rx.
  destruct (Z.leb_spec 1 (uval x)); [|lia]. unfold uadd. destruct (uchk 32 (n + 1)); cbn [bind]; try discriminate.
  assert (V1 : val false (ofZ 1) = 1) by (apply (val_ofZ_small HV false 1); apply (fits_small HV); lia).
  assert (FM : fits false (val false (ofZ 1) * val false b)).
  { rewrite V1. cbn [val]. rewrite H1. apply (fits_small HV). lia. }
  rewrite (op_mul_fits HV) by (auto; wfauto). rewrite V1. cbn [val bind]. rewrite H1. apply IH.
Qed.
Lemma u_checked_ilog_1 : forall x b, wf x -> wf b -> uval b = 1 -> 1 <= uval x ->
  forall fuel v, u_checked_ilog_fuel fuel x b <> Ok v.
Proof.
  intros x b Hx Hb H1 Hx1 fuel v. 
  assert (D0 : 0 <= Z.log2 (uval x) / (Z.log2 1 + 1)) by (apply Z.div_pos; [apply Z.log2_nonneg|cbn; lia]).
  rewrite ilog_prefix by (auto; rewrite H1, ?Z.pow_1_l; auto; lia).
  cbv zeta. rewrite H1. rewrite Z.pow_1_l by exact D0.
  pose proof (ilog_loop_1 x b Hx Hb H1 Hx1 fuel (Z.log2 (uval x) / (Z.log2 1 + 1))) as H.
  destruct (ilog_loop _ _ _ _ _); cbn [bind]; try discriminate. intros E. apply (H a). reflexivity.
Qed.

(** signed *)
Lemma s_checked_ilog_eq : forall x b, wf x -> wf b ->
  s_checked_ilog x b = if (sval x <=? 0) || (sval b <=? 1) then Ok None else let* r := unwrap (u_checked_ilog x b) in Ok (Some r).
Proof.
  intros x b Hx Hb. unfold s_checked_ilog. rewrite !(from_u8_ok HV) by wfauto. cbn [bind].
  rewrite !(le_const_ok HV) by wfauto. cbn [bind val].
  rewrite !(sval_lit HV) by lia. destruct (_ || _); auto. unfold as_unsigned. rewrite !(mk_ok HV) by auto. reflexivity.
Qed.
End P.
