(** * Shift operators, powers of two, logarithm, midpoint and double-width
      products *)

Require Import ZArith List Bool Lia.
From Verif Require Import Prim Spec Facts MAdd PAdd PAddS MMul PMul PMulS MShift PShift PRot MCore PCore PBits PWide MArith PArith PArith2 PPow.
Import ListNotations.
Local Open Scope Z_scope.

(** ** Bit identities on integers *)

Lemma testbit_mod : forall v b n, 0 <= b -> 0 <= n -> Z.testbit (v mod 2 ^ b) n = if n <? b then Z.testbit v n else false.
Proof.
  intros v b n Hb Hn. destruct (Z.ltb_spec n b).
  - apply Z.mod_pow2_bits_low. lia.
  - apply Z.mod_pow2_bits_high. lia.
Qed.
Lemma lxor_mod : forall b x y, 0 <= b -> Z.lxor (x mod 2 ^ b) (y mod 2 ^ b) = (Z.lxor x y) mod 2 ^ b.
Proof.
  intros b x y Hb. apply Z.bits_inj'. intros n Hn. rewrite Z.lxor_spec, !testbit_mod, Z.lxor_spec by auto.
  destruct (n <? b); reflexivity.
Qed.
Lemma land_mod : forall b x y, 0 <= b -> Z.land (x mod 2 ^ b) (y mod 2 ^ b) = (Z.land x y) mod 2 ^ b.
Proof.
  intros b x y Hb. apply Z.bits_inj'. intros n Hn. rewrite Z.land_spec, !testbit_mod, Z.land_spec by auto.
  destruct (n <? b); reflexivity.
Qed.
Lemma lor_mod : forall b x y, 0 <= b -> Z.lor (x mod 2 ^ b) (y mod 2 ^ b) = (Z.lor x y) mod 2 ^ b.
Proof.
  intros b x y Hb. apply Z.bits_inj'. intros n Hn. rewrite Z.lor_spec, !testbit_mod, Z.lor_spec by auto.
  destruct (n <? b); reflexivity.
Qed.
(** a + b = (a xor b) + 2 (a and b) *)
Lemma add_xor_and : forall a b, a + b = Z.lxor a b + 2 * Z.land a b.
Proof.
  assert (G : forall n a b, - 2 ^ Z.of_nat n <= a < 2 ^ Z.of_nat n -> a + b = Z.lxor a b + 2 * Z.land a b).
  { induction n as [|n IH]; intros a b Ha.
    - cbn in Ha. assert (a = 0 \/ a = -1) as [->| ->] by lia.
      + rewrite Z.lxor_0_l, Z.land_0_l. lia.
      + rewrite Z.land_m1_l, Z.lxor_m1_l. unfold Z.lnot. lia.
    - rewrite Nat2Z.inj_succ, Z.pow_succ_r in Ha by lia.
      pose proof (Z.div_mod a 2 ltac:(lia)). pose proof (Z.mod_pos_bound a 2 ltac:(lia)).
      pose proof (Z.div_mod b 2 ltac:(lia)). pose proof (Z.mod_pos_bound b 2 ltac:(lia)).
      specialize (IH (a / 2) (b / 2)).
      assert (X : Z.lxor a b = 2 * Z.lxor (a / 2) (b / 2) + Z.lxor (a mod 2) (b mod 2)).
      { pose proof (Z.div_mod (Z.lxor a b) 2 ltac:(lia)) as D.
        change 2 with (2 ^ 1) in D at 2 3. rewrite <- lxor_mod in D by lia. rewrite <- Z.shiftr_div_pow2 in D by lia.
        rewrite Z.shiftr_lxor, !Z.shiftr_div_pow2 in D by lia. exact D. }
      assert (Y : Z.land a b = 2 * Z.land (a / 2) (b / 2) + Z.land (a mod 2) (b mod 2)).
      { pose proof (Z.div_mod (Z.land a b) 2 ltac:(lia)) as D.
        change 2 with (2 ^ 1) in D at 2 3. rewrite <- land_mod in D by lia. rewrite <- Z.shiftr_div_pow2 in D by lia.
        rewrite Z.shiftr_land, !Z.shiftr_div_pow2 in D by lia. exact D. }
      rewrite X, Y.
      assert (E1 : a mod 2 = 0 \/ a mod 2 = 1) by lia. assert (E2 : b mod 2 = 0 \/ b mod 2 = 1) by lia.
      destruct E1 as [E1|E1], E2 as [E2|E2]; rewrite E1, E2 in *; cbn [Z.lxor Z.land Pos.lxor Pos.land Z.of_N Pos.Nsucc_double Pos.Ndouble]; lia. }
  intros a b. apply (G (Z.to_nat (Z.log2 (Z.abs a) + 1))).
  pose proof (Z.log2_nonneg (Z.abs a)). rewrite Z2Nat.id by lia.
  destruct (Z.eq_dec a 0) as [->|]; [cbn; lia|].
  pose proof (Z.log2_spec (Z.abs a) ltac:(lia)) as (_ & L). rewrite <- Z.add_1_r in L. lia.
Qed.
(** A value is in signed range when what lies above the sign bit is all zeros
    or all ones. *)
Lemma fits_s_shiftr : forall b v, 1 <= b -> (fits_s b v <-> Z.shiftr v (b - 1) = 0 \/ Z.shiftr v (b - 1) = -1).
Proof.
  intros b v Hb. rewrite Z.shiftr_div_pow2 by lia. pose proof (pow2_pos (b - 1) ltac:(lia)). unfold fits_s.
  pose proof (Z.div_mod v (2 ^ (b - 1)) ltac:(lia)). pose proof (Z.mod_pos_bound v (2 ^ (b - 1)) ltac:(lia)).
  split.
  - intros H2. assert (-2 < v / 2 ^ (b - 1) < 1) by nia. lia.
  - intros [E|E]; rewrite E in *; lia.
Qed.
Lemma lxor_fits_s : forall b x y, 1 <= b -> fits_s b x -> fits_s b y -> fits_s b (Z.lxor x y).
Proof.
  intros b x y Hb Hx Hy. apply fits_s_shiftr in Hx, Hy; auto. apply fits_s_shiftr; auto.
  rewrite Z.shiftr_lxor. destruct Hx as [-> | ->], Hy as [-> | ->]; cbn; auto.
Qed.
Lemma land_fits_s : forall b x y, 1 <= b -> fits_s b x -> fits_s b y -> fits_s b (Z.land x y).
Proof.
  intros b x y Hb Hx Hy. apply fits_s_shiftr in Hx, Hy; auto. apply fits_s_shiftr; auto.
  rewrite Z.shiftr_land. destruct Hx as [-> | ->], Hy as [-> | ->]; cbn; auto.
Qed.
Lemma lor_fits_s : forall b x y, 1 <= b -> fits_s b x -> fits_s b y -> fits_s b (Z.lor x y).
Proof.
  intros b x y Hb Hx Hy. apply fits_s_shiftr in Hx, Hy; auto. apply fits_s_shiftr; auto.
  rewrite Z.shiftr_lor. destruct Hx as [-> | ->], Hy as [-> | ->]; cbn; auto.
Qed.

(** [v] has exactly one bit set below [n] iff it is a power of two. *)
Lemma ones_S : forall v n, ones v (S n) = ones v n + b2z (Z.testbit v (Z.of_nat n)).
Proof.
  intros v n. unfold ones. rewrite seq_S, filter_app, app_length, Nat.add_0_l. cbn [filter].
  destruct (Z.testbit v (Z.of_nat n)); cbn [length b2z]; lia.
Qed.
Lemma ones_mod : forall v n, ones (v mod 2 ^ Z.of_nat n) n = ones v n.
Proof.
  intros v n. unfold ones. f_equal. f_equal. apply filter_ext_in. intros i Hi. apply in_seq in Hi.
  apply Z.mod_pow2_bits_low. lia.
Qed.
Lemma split_top : forall v n, 0 <= v < 2 ^ Z.of_nat (S n) ->
  v = v mod 2 ^ Z.of_nat n + 2 ^ Z.of_nat n * b2z (Z.testbit v (Z.of_nat n)).
Proof.
  intros v n Hv. rewrite Nat2Z.inj_succ, Z.pow_succ_r in Hv by lia.
  pose proof (pow2_pos (Z.of_nat n) ltac:(lia)). pose proof (Z.div_mod v (2 ^ Z.of_nat n) ltac:(lia)).
  pose proof (Z.mod_pos_bound v (2 ^ Z.of_nat n) ltac:(lia)).
  assert (0 <= v / 2 ^ Z.of_nat n < 2) by nia.
  replace (b2z (Z.testbit v (Z.of_nat n))) with (v / 2 ^ Z.of_nat n); [lia|].
  assert (E : v / 2 ^ Z.of_nat n = 0 \/ v / 2 ^ Z.of_nat n = 1) by lia.
  destruct (Z.testbit v (Z.of_nat n)) eqn:T.
  - apply Z.testbit_true in T; [|lia]. cbn [b2z]. destruct E as [E|E]; rewrite E in T; cbn in T; lia.
  - apply Z.testbit_false in T; [|lia]. cbn [b2z]. destruct E as [E|E]; rewrite E in T; cbn in T; lia.
Qed.
Lemma ones_0 : forall n v, 0 <= v < 2 ^ Z.of_nat n -> (ones v n = 0 <-> v = 0).
Proof.
  induction n as [|n IH]; intros v Hv.
  - cbn in *. lia.
  - pose proof (split_top v n Hv) as S. rewrite ones_S, <- ones_mod.
    pose proof (pow2_pos (Z.of_nat n) ltac:(lia)). pose proof (Z.mod_pos_bound v (2 ^ Z.of_nat n) ltac:(lia)).
    specialize (IH (v mod 2 ^ Z.of_nat n) ltac:(lia)). pose proof (ones_range (v mod 2 ^ Z.of_nat n) n).
    destruct (Z.testbit v (Z.of_nat n)); cbn [b2z] in *; lia.
Qed.
Lemma ones_1 : forall n v, 0 <= v < 2 ^ Z.of_nat n -> (ones v n = 1 <-> exists k, 0 <= k /\ v = 2 ^ k).
Proof.
  induction n as [|n IH]; intros v Hv.
  - cbn in Hv. assert (v = 0) by lia. subst v. cbn. split; [lia|]. intros (k & Hk & E). pose proof (pow2_pos k Hk). lia.
  - pose proof (split_top v n Hv) as S. rewrite ones_S, <- ones_mod.
    pose proof (pow2_pos (Z.of_nat n) ltac:(lia)) as P. pose proof (Z.mod_pos_bound v (2 ^ Z.of_nat n) ltac:(lia)) as M.
    specialize (IH (v mod 2 ^ Z.of_nat n) ltac:(lia)). pose proof (ones_0 n (v mod 2 ^ Z.of_nat n) ltac:(lia)) as O.
    pose proof (ones_range (v mod 2 ^ Z.of_nat n) n).
    destruct (Z.testbit v (Z.of_nat n)); cbn [b2z] in *.
    + split.
      * intros E. exists (Z.of_nat n). lia.
      * intros (k & Hk & E). assert (ones (v mod 2 ^ Z.of_nat n) n = 0); [|lia]. apply O.
        assert (C : k = Z.of_nat n).
        { destruct (Z.lt_trichotomy k (Z.of_nat n)) as [L|[L|L]]; auto.
          - pose proof (pow2_lt_mono k (Z.of_nat n) ltac:(lia)). lia.
          - assert (Z.of_nat (Datatypes.S n) <= k) by lia. pose proof (pow2_le_mono (Z.of_nat (Datatypes.S n)) k ltac:(lia)). lia. }
        subst k. lia.
    + rewrite Z.mul_0_r, Z.add_0_r in S. rewrite <- S in *. rewrite Z.add_0_r. exact IH.
Qed.

Section P.
Context {c : Cfg}.
Hypothesis HV : Valid.
Local Notation W0 := (W_nonneg HV).
Local Notation HW := (HW1 HV).

(** ** Shifts with a range check *)

Lemma checked_shl_ok : forall x r, wf x -> 0 <= r ->
  checked_shl x r = Ok (some_if (r <? BITS) (uval x * 2 ^ r)).
Proof.
  intros x r Hx Hr. unfold checked_shl. rewrite tbits_BITS. destruct (Z.ltb_spec r BITS); [|reflexivity].
  run. rewrite Z.mod_small by lia. reflexivity.
Qed.
Lemma checked_shr_ok : forall sg x r, wf x -> 0 <= r ->
  checked_shr sg x r = Ok (some_if (r <? BITS) (val sg x / 2 ^ r)).
Proof.
  intros sg x r Hx Hr. unfold checked_shr. rewrite tbits_BITS. destruct (Z.ltb_spec r BITS); [|reflexivity].
  run. rewrite Z.mod_small by lia. reflexivity.
Qed.
Lemma strict_shl_ok : forall x r, wf x -> 0 <= r -> strict_shl x r = ok_if (r <? BITS) (uval x * 2 ^ r).
Proof. intros. unfold strict_shl. rewrite checked_shl_ok by auto. apply unwrap_some_if. Qed.
Lemma strict_shr_ok : forall sg x r, wf x -> 0 <= r -> strict_shr sg x r = ok_if (r <? BITS) (val sg x / 2 ^ r).
Proof. intros. unfold strict_shr. rewrite checked_shr_ok by auto. apply unwrap_some_if. Qed.
Lemma unbounded_shl_ok : forall x r, wf x -> 0 <= r -> unbounded_shl x r = Ok (ofZ (uval x * 2 ^ r)).
Proof.
  intros x r Hx Hr. unfold unbounded_shl. rewrite tbits_BITS. destruct (Z.ltb_spec r BITS).
  - run. rewrite Z.mod_small by lia. reflexivity.
  - run. f_equal. apply (ofZ_cong HV) with (- (uval x * 2 ^ (r - BITS))).
    replace (2 ^ r) with (2 ^ (r - BITS) * 2 ^ BITS); [ring|].
    pose proof (BITS_pos HV). rewrite <- Z.pow_add_r by lia. f_equal. lia.
Qed.
Lemma unbounded_shr_ok : forall sg x r, wf x -> 0 <= r ->
  unbounded_shr sg x r = Ok (ofZ (if r <? BITS then val sg x / 2 ^ r else 0)).
Proof.
  intros sg x r Hx Hr. unfold unbounded_shr. rewrite tbits_BITS. destruct (Z.ltb_spec r BITS); run; auto.
  rewrite Z.mod_small by lia. reflexivity.
Qed.
Lemma s_overflowing_shl_ok : forall x r, wf x ->
  s_overflowing_shl x r = Ok (ofZ (uval x * 2 ^ (r mod BITS)), BITS <=? r).
Proof. intros. unfold s_overflowing_shl. run. reflexivity. Qed.
Lemma s_overflowing_shr_ok : forall x r, wf x ->
  s_overflowing_shr x r = Ok (ofZ (sval x / 2 ^ (r mod BITS)), BITS <=? r).
Proof. intros. unfold s_overflowing_shr. run. reflexivity. Qed.

(** ** Shift operators *)

(** The amount test: [BITS] truncated to the amount type. *)
Definition shift_ok (ps : bool) (pw other : Z) : bool := (other <? (if ps then swrap pw BITS else BITS mod 2 ^ pw)) && (0 <=? other).
Lemma bits_as_ok : forall ps pw, 1 <= pw -> bits_as ps pw = if ps then swrap pw BITS else BITS mod 2 ^ pw.
Proof. intros. unfold bits_as. rewrite tbits_BITS. destruct ps; auto. apply scast_swrap; auto. Qed.
Lemma op_shl_ok : forall ps pw x o, wf x -> 1 <= pw ->
  op_shl ps pw x o = if chk && negb (shift_ok ps pw o) then Panic else Ok (ofZ (uval x * 2 ^ (o mod 2 ^ 32 mod BITS))).
Proof.
  intros ps pw x o Hx Hp. unfold op_shl. rewrite bits_as_ok by auto. fold (shift_ok ps pw o).
  destruct chk; cbn [bind andb]; [destruct (shift_ok ps pw o); cbn [assert_ bind negb]; auto|]; run; reflexivity.
Qed.
Lemma op_shr_ok : forall sg ps pw x o, wf x -> 1 <= pw ->
  op_shr sg ps pw x o = if chk && negb (shift_ok ps pw o) then Panic else Ok (ofZ (val sg x / 2 ^ (o mod 2 ^ 32 mod BITS))).
Proof.
  intros sg ps pw x o Hx Hp. unfold op_shr. rewrite bits_as_ok by auto. fold (shift_ok ps pw o).
  destruct chk; cbn [bind andb]; [destruct (shift_ok ps pw o); cbn [assert_ bind negb]; auto|]; run; reflexivity.
Qed.
(** For an amount type wide enough for [BITS] the test is the intended one. *)
Lemma shift_ok_wide : forall (ps : bool) pw o, BITS < 2 ^ (if ps then pw - 1 else pw) -> 1 <= pw ->
  shift_ok ps pw o = (o <? BITS) && (0 <=? o).
Proof.
  intros ps pw o H Hp. pose proof (BITS_ge HV). unfold shift_ok. destruct ps.
  - rewrite swrap_small by (auto; unfold fits_s; pose proof (pow2_pos (pw - 1)); lia). reflexivity.
  - rewrite Z.mod_small by lia. reflexivity.
Qed.
Lemma big_amount : forall (ps : bool) o, wf o ->
  (let* b := from_u32 tbits in
   let* is_above := ge_const ps o b in
   let* z := from_u32 0 in
   let* is_below := lt_const ps o z in
   assert_ (negb (is_above || is_below))) = assert_ ((val ps o <? BITS) && (0 <=? val ps o)).
Proof.
  intros ps o Ho. pose proof (BITS_ge HV). pose proof (BITS_lt HV). rewrite tbits_BITS.
  rewrite (from_u32_ok HV BITS) by (unfold fits_u; lia). rewrite (from_u32_ok HV 0) by (unfold fits_u; lia). run.
  rewrite ?(val_lit HV) by lia. f_equal.
  destruct (Z.leb_spec BITS (val ps o)), (Z.ltb_spec (val ps o) 0), (Z.ltb_spec (val ps o) BITS), (Z.leb_spec 0 (val ps o)); auto; lia.
Qed.
Lemma op_shl_big_ok : forall ps x o, wf x -> wf o ->
  op_shl_big ps x o = if chk && negb ((val ps o <? BITS) && (0 <=? val ps o)) then Panic
                      else Ok (ofZ (uval x * 2 ^ (uval o mod 2 ^ 32 mod BITS))).
Proof.
  intros ps x o Hx Ho. unfold op_shl_big. rewrite big_amount by auto.
  destruct chk; cbn [bind andb]; [destruct ((val ps o <? BITS) && (0 <=? val ps o)); cbn [assert_ bind negb]; auto|];
    rewrite (as_u32_ok HV) by auto; run; reflexivity.
Qed.
Lemma op_shr_big_ok : forall sg ps x o, wf x -> wf o ->
  op_shr_big sg ps x o = if chk && negb ((val ps o <? BITS) && (0 <=? val ps o)) then Panic
                      else Ok (ofZ (val sg x / 2 ^ (uval o mod 2 ^ 32 mod BITS))).
Proof.
  intros sg ps x o Hx Ho. unfold op_shr_big. rewrite big_amount by auto.
  destruct chk; cbn [bind andb]; [destruct ((val ps o <? BITS) && (0 <=? val ps o)); cbn [assert_ bind negb]; auto|];
    rewrite (as_u32_ok HV) by auto; run; reflexivity.
Qed.
(** Within the intended range the amount is used unchanged. *)
Lemma amount_exact : forall o, 0 <= o < BITS -> o mod 2 ^ 32 mod BITS = o.
Proof. intros o H. pose proof (BITS_lt HV). rewrite (Z.mod_small o) by lia. apply Z.mod_small. auto. Qed.
Lemma lsl_ok : forall x, wf x -> least_significant_limb x = Ok (uval x mod 2 ^ W).
Proof.
  intros x Hx. unfold least_significant_limb, get_limb. pose proof (N1 HV). destruct Hx as (HL & Hd).
  rewrite get_ok by lia. rewrite (limb0_mod HV) by (split; auto). reflexivity.
Qed.
Lemma self_amount : forall o, Z.land (ucast 32 (uval o mod 2 ^ W)) (2 ^ 32 - 1) = uval o mod 2 ^ 32.
Proof.
  intros o. pose proof (W_pos HV). change (2 ^ 32 - 1) with (Z.ones 32). rewrite Z.land_ones by lia. unfold ucast.
  rewrite Z.mod_mod by lia. symmetry. apply Znumtheory.Zmod_div_mod; try lia; try (apply pow2_pos; lia).
  exists (2 ^ (W - 32)). rewrite <- Z.pow_add_r by lia. f_equal. lia.
Qed.
Lemma op_shl_self_ok : forall x o, wf x -> wf o -> op_shl_self x o = Ok (ofZ (uval x * 2 ^ (uval o mod 2 ^ 32 mod BITS))).
Proof. intros x o Hx Ho. unfold op_shl_self. rewrite lsl_ok by auto. cbn [bind]. rewrite self_amount. run. reflexivity. Qed.
Lemma op_shr_self_ok : forall sg x o, wf x -> wf o -> op_shr_self sg x o = Ok (ofZ (val sg x / 2 ^ (uval o mod 2 ^ 32 mod BITS))).
Proof. intros sg x o Hx Ho. unfold op_shr_self. rewrite lsl_ok by auto. cbn [bind]. rewrite self_amount. run. reflexivity. Qed.

(** ** Powers of two *)

Lemma is_power_of_two_ok : forall x, wf x ->
  exists b, is_power_of_two x = Ok b /\ (b = true <-> exists k, 0 <= k /\ uval x = 2 ^ k).
Proof.
  intros x Hx. unfold is_power_of_two. rewrite (count_ones_ok HV) by auto. cbn [bind]. eexists. split; [reflexivity|].
  rewrite Z.eqb_eq. apply ones_1. pose proof (BITS_pos HV). rewrite Z2Nat.id by lia. apply (uval_range HV); auto.
Qed.
Lemma one_less_ok : forall x, wf x -> one_less_than_next_power_of_two x = Ok (ofZ (2 ^ Z.log2_up (uval x) - 1)).
Proof.
  intros x Hx. unfold one_less_than_next_power_of_two. run. cbn [val]. rewrite ?(uval_lit HV 1) by lia.
  pose proof (uval_range HV x Hx) as R. pose proof (BITS_pos HV).
  destruct (Z.leb_spec (uval x) 1) as [L|L].
  - rewrite Z.log2_up_eqn0 by lia. reflexivity.
  - assert (E : uval (ofZ (uval x - 1)) = uval x - 1).
    { rewrite (uval_ofZ HV). apply Z.mod_small. lia. }
    rewrite (leading_zeros_ok HV) by wfauto. cbn [bind]. rewrite E.
    destruct (lz_of_range BITS (uval x - 1)) as (L1 & L2); try lia. specialize (L2 ltac:(lia)).
    run. rewrite Z.mod_small by lia. cbn [val]. f_equal. f_equal.
    rewrite (uval_ofZ HV). replace (-1 mod 2 ^ BITS) with (2 ^ BITS - 1).
    2:{ apply Z.mod_unique with (-1); [|ring]. left. pose proof (pB HV). lia. }
    rewrite Z.log2_up_eqn by lia. rewrite <- Z.sub_1_r.
    unfold lz_of in *. destruct (Z.eqb_spec (uval x - 1) 0); [lia|].
    pose proof (Z.log2_nonneg (uval x - 1)).
    set (k := Z.log2 (uval x - 1)) in *. set (z := BITS - 1 - k) in *.
    assert (EP : 2 ^ BITS = 2 ^ (Z.succ k) * 2 ^ z) by (rewrite <- Z.pow_add_r by lia; f_equal; lia).
    pose proof (pow2_pos z ltac:(lia)). symmetry. apply Z.div_unique with (2 ^ z - 1); [left; lia|].
    rewrite EP. ring.
Qed.
Lemma pow2_sub1_fits : forall x, wf x -> fits_u BITS (2 ^ Z.log2_up (uval x) - 1).
Proof.
  intros x Hx. pose proof (uval_range HV x Hx) as R. pose proof (BITS_pos HV). unfold fits_u.
  pose proof (Z.log2_up_nonneg (uval x)) as L0. pose proof (pow2_pos (Z.log2_up (uval x)) L0). split; [lia|].
  destruct (Z.leb_spec (uval x) 1).
  - rewrite Z.log2_up_eqn0 by lia. pose proof (pB HV). cbn. lia.
  - assert (Z.log2_up (uval x) <= BITS). { rewrite <- (Z.log2_up_pow2 BITS) by lia. apply Z.log2_up_le_mono. lia. }
    assert (2 ^ Z.log2_up (uval x) <= 2 ^ BITS) by (apply pow2_le_mono; lia). lia.
Qed.
Lemma uval_one_less : forall x, wf x -> uval (ofZ (2 ^ Z.log2_up (uval x) - 1)) = 2 ^ Z.log2_up (uval x) - 1.
Proof. intros x Hx. rewrite (uval_ofZ HV). apply Z.mod_small. apply pow2_sub1_fits. auto. Qed.
Lemma wrapping_next_power_of_two_ok : forall x, wf x ->
  wrapping_next_power_of_two x = Ok (ofZ (2 ^ Z.log2_up (uval x))).
Proof.
  intros x Hx. unfold wrapping_next_power_of_two. rewrite one_less_ok by auto. run. cbn [val].
  rewrite uval_one_less, ?(uval_lit HV 1) by (auto; lia). do 2 f_equal. lia.
Qed.
Lemma checked_next_power_of_two_ok : forall x, wf x ->
  checked_next_power_of_two x = Ok (some_if (fitsb false (2 ^ Z.log2_up (uval x))) (2 ^ Z.log2_up (uval x))).
Proof.
  intros x Hx. unfold checked_next_power_of_two. rewrite one_less_ok by auto. run. rewrite (checked_add_ok HV) by wfauto. cbn [val].
  rewrite uval_one_less, ?(uval_lit HV 1) by (auto; lia).
  replace (2 ^ Z.log2_up (uval x) - 1 + 1) with (2 ^ Z.log2_up (uval x)) by lia. reflexivity.
Qed.
Lemma next_power_of_two_ok : forall x, wf x -> next_power_of_two x = op_result false (2 ^ Z.log2_up (uval x)).
Proof.
  intros x Hx. unfold next_power_of_two. rewrite wrapping_next_power_of_two_ok by auto. apply op_result_eq.
  apply checked_next_power_of_two_ok; auto.
Qed.
(** [2 ^ log2_up v] is the least power of two that is at least [v]. *)
Lemma log2_up_least : forall v, 0 <= v ->
  0 <= Z.log2_up v /\ v <= 2 ^ Z.log2_up v /\ (forall j, 0 <= j -> v <= 2 ^ j -> 2 ^ Z.log2_up v <= 2 ^ j).
Proof.
  intros v Hv. pose proof (Z.log2_up_nonneg v). split; auto. split.
  - destruct (Z.le_gt_cases v 1).
    + rewrite Z.log2_up_eqn0 by lia. cbn. lia.
    + apply Z.log2_up_spec. lia.
  - intros j Hj Hl. apply pow2_le_mono. split; auto. rewrite <- (Z.log2_up_pow2 j) by auto. apply Z.log2_up_le_mono. auto.
Qed.

Lemma ilog2_ok : forall sg x, wf x -> ilog2 sg x = if val sg x <=? 0 then Panic else Ok (Z.log2 (val sg x)).
Proof. intros sg x Hx. unfold ilog2. rewrite (checked_ilog2_ok HV) by auto. destruct (val sg x <=? 0); reflexivity. Qed.

(** ** Midpoint *)

Lemma half_sum : forall a b, Z.lxor a b / 2 + Z.land a b = (a + b) / 2.
Proof. intros a b. rewrite (add_xor_and a b), Z.mul_comm, Z.div_add by lia. reflexivity. Qed.
Lemma mod1_BITS : 1 mod BITS = 1.
Proof. pose proof (BITS_ge HV). apply Z.mod_small. lia. Qed.
Lemma uval_lxor : forall x y, wf x -> wf y -> uval (ofZ (Z.lxor (uval x) (uval y))) = Z.lxor (uval x) (uval y).
Proof.
  intros x y Hx Hy. pose proof (uval_range HV x Hx). pose proof (uval_range HV y Hy). pose proof (BITS_pos HV).
  rewrite (uval_ofZ HV). rewrite <- lxor_mod by lia. rewrite !Z.mod_small by lia. reflexivity.
Qed.
Lemma uval_land : forall x y, wf x -> wf y -> uval (ofZ (Z.land (uval x) (uval y))) = Z.land (uval x) (uval y).
Proof.
  intros x y Hx Hy. pose proof (uval_range HV x Hx). pose proof (uval_range HV y Hy). pose proof (BITS_pos HV).
  rewrite (uval_ofZ HV). rewrite <- land_mod by lia. rewrite !Z.mod_small by lia. reflexivity.
Qed.
Lemma u_midpoint_ok : forall x y, wf x -> wf y -> u_midpoint x y = Ok (ofZ ((uval x + uval y) / 2)).
Proof.
  intros x y Hx Hy. unfold u_midpoint. run. rewrite mod1_BITS. cbn [val].
  rewrite uval_lxor, uval_land by auto. rewrite Z.pow_1_r. rewrite <- half_sum.
  f_equal. pose proof (ofZ_add_l HV false (Z.lxor (uval x) (uval y) / 2)) as E. rewrite (uval_ofZ HV). exact (E _).
Qed.
Lemma ofZ_lxor_s : forall x y, wf x -> wf y -> ofZ (Z.lxor (uval x) (uval y)) = ofZ (Z.lxor (sval x) (sval y)).
Proof.
  intros x y Hx Hy. pose proof (BITS_pos HV). apply (ofZ_eq_mod HV).
  rewrite <- (sval_mod HV x Hx), <- (sval_mod HV y Hy). rewrite lxor_mod by lia. apply Z.mod_mod. pose proof (pB HV). lia.
Qed.
Lemma ofZ_land_s : forall x y, wf x -> wf y -> ofZ (Z.land (uval x) (uval y)) = ofZ (Z.land (sval x) (sval y)).
Proof.
  intros x y Hx Hy. pose proof (BITS_pos HV). apply (ofZ_eq_mod HV).
  rewrite <- (sval_mod HV x Hx), <- (sval_mod HV y Hy). rewrite land_mod by lia. apply Z.mod_mod. pose proof (pB HV). lia.
Qed.
Lemma ofZ_lor_s : forall x y, wf x -> wf y -> ofZ (Z.lor (uval x) (uval y)) = ofZ (Z.lor (sval x) (sval y)).
Proof.
  intros x y Hx Hy. pose proof (BITS_pos HV). apply (ofZ_eq_mod HV).
  rewrite <- (sval_mod HV x Hx), <- (sval_mod HV y Hy). rewrite lor_mod by lia. apply Z.mod_mod. pose proof (pB HV). lia.
Qed.
Lemma lxor_parity : forall a b, Z.lxor a b mod 2 = (a + b) mod 2.
Proof. intros a b. rewrite (add_xor_and a b), Z.mul_comm, Z.mod_add by lia. reflexivity. Qed.
Lemma s_midpoint_ok : forall x y, wf x -> wf y -> s_midpoint x y = Ok (ofZ (Z.quot (sval x + sval y) 2)).
Proof.
  intros x y Hx Hy. unfold s_midpoint. run. rewrite mod1_BITS, Z.pow_1_r. cbn [val].
  pose proof (sval_range HV x Hx) as Rx. pose proof (sval_range HV y Hy) as Ry. pose proof (BITS_pos HV) as HB.
  rewrite ofZ_lxor_s, ofZ_land_s by auto.
  assert (F1 : fits true (Z.lxor (sval x) (sval y))) by (apply lxor_fits_s; auto).
  assert (F2 : fits true (Z.land (sval x) (sval y))) by (apply land_fits_s; auto).
  assert (S : forall v, fits true v -> sval (ofZ v) = v) by (intros; apply (val_ofZ_small HV true); auto).
  rewrite (S (Z.lxor _ _)), (S (Z.land _ _)) by auto.
  assert (A0 : ofZ (sval (ofZ (Z.lxor (sval x) (sval y) / 2)) + Z.land (sval x) (sval y)) = ofZ ((sval x + sval y) / 2)).
  { change (sval (ofZ ?v)) with (val true (ofZ v)). rewrite (val_ofZ HV), (ofZ_add_l HV), half_sum. reflexivity. }
  rewrite A0.
  set (sm := sval x + sval y) in *.
  assert (F3 : fits true (sm / 2)).
  { cbn. unfold fits_s. unfold sm. split; [apply Z.div_le_lower_bound|apply Z.div_lt_upper_bound]; lia. }
  rewrite (S (sm / 2)) by auto.
  rewrite (from_u8_ok HV) by (unfold fits_u; pose proof (b2z_range (sm / 2 <? 0)); lia). run.
  cbn [val]. rewrite ?(uval_lit HV (b2z _)) by (pose proof (b2z_range (sm / 2 <? 0)); lia). rewrite ?(S (sm / 2)) by auto.
  assert (A : ofZ (Z.land (b2z (sm / 2 <? 0)) (uval (ofZ (Z.lxor (sval x) (sval y))))) = ofZ (if sm / 2 <? 0 then sm mod 2 else 0)).
  { destruct (sm / 2 <? 0); cbn [b2z]; [|rewrite Z.land_0_l; reflexivity].
    rewrite Z.land_comm, land_1, (uval_ofZ HV). f_equal. unfold sm. rewrite <- lxor_parity.
    symmetry. apply Znumtheory.Zmod_div_mod; [lia|exact (pB HV)|].
    exists (2 ^ (BITS - 1)). pose proof (pBhalf HV). lia. }
  rewrite A. assert (F4 : fits true (if sm / 2 <? 0 then sm mod 2 else 0)).
  { apply (fits_small HV). pose proof (Z.mod_pos_bound sm 2 ltac:(lia)). destruct (sm / 2 <? 0); lia. }
  rewrite S by auto. f_equal. f_equal.
  pose proof (Z.div_mod sm 2 ltac:(lia)). pose proof (Z.mod_pos_bound sm 2 ltac:(lia)).
  destruct (Z.ltb_spec (sm / 2) 0) as [L|L].
  - pose proof (Z.quot_rem' sm 2). assert (Hs : sm < 0) by lia. pose proof (Z.rem_bound_pos_neg sm 2 eq_refl (Z.lt_le_incl _ _ Hs)). lia.
  - rewrite Z.quot_div_nonneg by lia. lia.
Qed.

(** ** Double-width products *)

Lemma pw_N : 2 ^ (W * Z.of_nat N) = 2 ^ BITS.
Proof. rewrite BITS_alt. reflexivity. Qed.
Lemma mul_widening_wf : forall x y, wf x -> wf y ->
  mul_widening x y = Ok (ofZ (uval x * uval y), ofZ (uval x * uval y / 2 ^ BITS)).
Proof.
  intros x y (Lx & Dx) (Ly & Dy). pose proof (N1 HV). rewrite (mul_widening_ok HW) by (auto; congruence || lia).
  rewrite Lx, pw_N. reflexivity.
Qed.
Lemma widening_mul_ok : forall x y, wf x -> wf y ->
  widening_mul x y = Ok (ofZ (uval x * uval y), ofZ (uval x * uval y / 2 ^ BITS)).
Proof. intros x y Hx Hy. unfold widening_mul. rewrite mul_widening_wf by auto. run. reflexivity. Qed.
Lemma carrying_mul_ok : forall x y z, wf x -> wf y -> wf z ->
  carrying_mul x y z = Ok (ofZ (uval x * uval y + uval z), ofZ ((uval x * uval y + uval z) / 2 ^ BITS)).
Proof.
  intros x y z Hx Hy Hz. unfold carrying_mul. rewrite mul_widening_wf by auto. run. cbn [val].
  pose proof (uval_range HV x Hx) as Rx. pose proof (uval_range HV y Hy) as Ry. pose proof (uval_range HV z Hz) as Rz.
  set (p := uval x * uval y) in *. set (B := 2 ^ BITS) in *.
  assert (Hp : 0 <= p <= (B - 1) * (B - 1)) by (unfold p; nia).
  rewrite !(uval_ofZ HV). fold B. pose proof (Z.div_mod p B ltac:(lia)) as D. pose proof (Z.mod_pos_bound p B ltac:(lia)) as M.
  set (h := p / B) in *.
  assert (B2 : 2 <= B). { unfold B. apply pow2_ge2. apply (BITS_pos HV). }
  assert (Hh : 0 <= h < B - 1).
  { split; [apply Z.div_pos; lia|]. apply Z.div_lt_upper_bound; [lia|]. assert ((B - 1) * (B - 1) = B * (B - 1) - (B - 1)) by ring. lia. }
  assert (Eh : (p + uval z) / B = h + b2z (negb (fitsb false (p mod B + uval z)))).
  { destruct (fitsb_reflect false (p mod B + uval z)) as [F|F]; cbn in F; unfold fits_u in F; fold B in F; cbn [negb b2z]; symmetry.
    - apply Z.div_unique with (p mod B + uval z); lia.
    - apply Z.div_unique with (p mod B + uval z - B); lia. }
  pose proof (b2z_range (negb (fitsb false (p mod B + uval z)))) as Rb.
  rewrite (add_ulimb_ok HV) by wfauto. cbn [val]. rewrite (uval_ofZ HV). fold B. rewrite (Z.mod_small h) by lia.
  rewrite <- Eh, op_result_fits by (cbn; unfold fits_u; fold B; rewrite Eh; lia). cbn [bind]. f_equal. f_equal.
  apply (ofZ_cong HV) with (- h). fold B. lia.
Qed.

(** *** Halves *)
Lemma fill_half : forall k (g : nat -> Z), (k <= N)%nat ->
  for_range 0 k (fun i r => let* v := Ok (g i) in set r i v) (repeat 0 N) = Ok (map g (seq 0 k) ++ repeat 0 (N - k)).
Proof.
  intros k g Hk.
  match goal with |- for_range ?lo ?hi ?b ?s = _ =>
    destruct (for_range_inv _ (fun i r => r = map g (seq 0 i) ++ repeat 0 (N - i)) b lo hi s) as (r & E & HI) end.
  - lia.
  - intros i r Hi ->. cbn [bind]. rewrite set_ok by (rewrite app_length, map_length, seq_length, repeat_length; lia).
    eexists. split; [reflexivity|]. rewrite upd_app_r by (rewrite map_length, seq_length; lia).
    rewrite map_length, seq_length, Nat.sub_diag. replace (N - i)%nat with (S (N - S i)) by lia. cbn [repeat upd].
    rewrite seq_S, map_app, <- app_assoc. reflexivity.
  - cbn. rewrite Nat.sub_0_r. reflexivity.
  - rewrite E, HI. reflexivity.
Qed.
Lemma nth_skipn : forall (x : list Z) o k, nth k (skipn o x) 0 = nth (o + k) x 0.
Proof. induction x as [|a x IH]; intros [|o] k; auto; [destruct k; reflexivity|]. cbn [skipn Nat.add nth]. apply IH. Qed.
Lemma map_nth_firstn : forall (x : list Z) k o, (o + k <= length x)%nat ->
  map (fun i => nth (i + o) x 0) (seq 0 k) = firstn k (skipn o x).
Proof.
  intros x k. induction k as [|k IH]; intros o H; [reflexivity|].
  rewrite seq_S, map_app, IH by lia. rewrite (firstn_S_nth _ (skipn o x) k 0) by (rewrite skipn_length; lia).
  cbn [map]. rewrite Nat.add_0_l. f_equal. f_equal. rewrite nth_skipn. f_equal. lia.
Qed.
Definition HB : Z := BITS / 2.
Lemma HB_W : W * Z.of_nat (N / 2) = HB.
Proof.
  unfold HB. pose proof (WIDE_N HV) as E. unfold WIDE in E.
  assert (EB : BITS = W * Z.of_nat (N / 2) * 2) by (rewrite <- BITS_alt; rewrite E at 1; lia).
  rewrite EB, Z.div_mul by lia. reflexivity.
Qed.
Lemma HB_BITS : BITS = HB + HB /\ 128 <= HB.
Proof.
  pose proof (WIDE_N HV) as E. unfold WIDE in E. pose proof (BITS_ge HV). assert (BITS = HB + HB); [|lia].
  rewrite <- BITS_alt at 1. rewrite E at 1. rewrite <- HB_W. lia.
Qed.
Lemma for_ext : forall St (b1 b2 : nat -> St -> res St) k i s, (forall j t, (i <= j < i + k)%nat -> b1 j t = b2 j t) ->
  for_m k i b1 s = for_m k i b2 s.
Proof.
  intros St b1 b2 k. induction k as [|k IH]; intros i s H; [reflexivity|]. cbn [for_m]. rewrite H by lia.
  destruct (b2 i s); cbn [bind]; auto. apply IH. intros. apply H. lia.
Qed.
Lemma half_part : forall x o, wf x -> (o + N / 2 <= N)%nat ->
  for_range 0 (N / 2) (fun i r => let* v := get x (i + o) in set r i v) (repeat 0 N)
  = Ok (firstn (N / 2) (skipn o x) ++ repeat 0 (N - N / 2)).
Proof.
  intros x o (HL & Hd) Ho. transitivity (for_range 0 (N / 2) (fun i r => let* v := Ok (nth (i + o) x 0) in set r i v) (repeat 0 N)).
  - unfold for_range. apply for_ext. intros j t Hj. rewrite get_ok by lia. reflexivity.
  - rewrite (fill_half (N / 2) (fun i => nth (i + o) x 0)) by lia. rewrite map_nth_firstn by lia. reflexivity.
Qed.
Lemma half_enc : forall l, digits W l -> length l = (N / 2)%nat -> l ++ repeat 0 (N - N / 2) = ofZ (lval W l).
Proof.
  intros l Hd HL. unfold ofZ. apply lenc_unique; auto using W0.
  - apply digits_app. split; auto. apply digits_repeat0. apply W0.
  - rewrite app_length, HL, repeat_length. pose proof (Nat.div_le_upper_bound N 2 N). lia.
  - rewrite lval_app, lval_repeat0 by apply W0. f_equal. ring.
Qed.
Lemma low_ok : forall x, wf x -> low x = Ok (ofZ (uval x mod 2 ^ HB)).
Proof.
  intros x Hx. pose proof (WIDE_N HV) as EN. unfold WIDE in EN. unfold low.
  transitivity (let* r := for_range 0 (N / 2) (fun i r => let* v := get x (i + 0) in set r i v) (repeat 0 N) in mk r).
  - unfold for_range. erewrite for_ext; [reflexivity|]. intros j t Hj. cbn beta. rewrite Nat.add_0_r. reflexivity.
  - rewrite half_part by (auto; lia). cbn [bind skipn]. rewrite half_enc.
    + run. rewrite <- HB_W. rewrite <- (uval_firstn HV) by (auto; lia). reflexivity.
    + apply digits_firstn, Hx.
    + rewrite firstn_length. destruct Hx. lia.
Qed.
Lemma high_ok : forall x, wf x -> high x = Ok (ofZ (uval x / 2 ^ HB)).
Proof.
  intros x Hx. pose proof (WIDE_N HV) as EN. unfold WIDE in EN. unfold high. rewrite half_part by (auto; lia). cbn [bind].
  pose proof Hx as (HL & Hd).
  rewrite firstn_all2 by (rewrite skipn_length; lia). rewrite half_enc.
  - run. f_equal. f_equal. unfold uval. rewrite (lval_split W x (N / 2)) by (auto using W0; lia). rewrite HB_W.
    pose proof HB_BITS. assert (0 < 2 ^ HB) by (apply pow2_pos; lia). pose proof (pv_range W x (N / 2) W0 Hd ltac:(lia)) as R. rewrite HB_W in R.
    rewrite (Z.mul_comm (2 ^ HB)), Z.div_add, Z.div_small by lia. reflexivity.
  - apply digits_skipn, Hd.
  - rewrite skipn_length. lia.
Qed.
Lemma high_mul_ok : forall x y, wf x -> wf y -> high_mul x y = Ok (ofZ (uval x * uval y / 2 ^ BITS)).
Proof.
  intros x y Hx Hy. unfold high_mul. pose proof HB_BITS as (EB & HB1).
  rewrite !high_ok, !low_ok by auto. cbn [bind].
  set (H := 2 ^ HB). assert (HP : 0 < H) by (apply pow2_pos; lia).
  assert (EH : 2 ^ BITS = H * H) by (unfold H; rewrite EB, Z.pow_add_r by lia; reflexivity).
  pose proof (uval_range HV x Hx) as Rx. pose proof (uval_range HV y Hy) as Ry.
  set (x0 := uval x mod H). set (x1 := uval x / H). set (y0 := uval y mod H). set (y1 := uval y / H).
  assert (Ex : uval x = H * x1 + x0) by (apply Z.div_mod; lia). assert (Ey : uval y = H * y1 + y0) by (apply Z.div_mod; lia).
  assert (R0 : 0 <= x0 < H) by (apply Z.mod_pos_bound; lia). assert (Q0 : 0 <= y0 < H) by (apply Z.mod_pos_bound; lia).
  assert (R1 : 0 <= x1 < H) by nia. assert (Q1 : 0 <= y1 < H) by nia.
  assert (S : forall v, 0 <= v < 2 ^ BITS -> uval (ofZ v) = v) by (intros; rewrite (uval_ofZ HV); apply Z.mod_small; auto).
  assert (P00 : 0 <= x0 * y0 <= (H - 1) * (H - 1)) by nia. assert (P01 : 0 <= x0 * y1 <= (H - 1) * (H - 1)) by nia.
  assert (P10 : 0 <= x1 * y0 <= (H - 1) * (H - 1)) by nia. assert (P11 : 0 <= x1 * y1 <= (H - 1) * (H - 1)) by nia.
  run. cbn [val]. rewrite !S by (rewrite EH; nia).
  rewrite high_ok by wfauto. cbn [bind]. fold H. rewrite S by (rewrite EH; nia).
  set (a := x0 * y0) in *. pose proof (Z.div_mod a H ltac:(lia)) as Da. pose proof (Z.mod_pos_bound a H ltac:(lia)) as Ma.
  set (ah := a / H) in *. assert (0 <= ah < H) by nia.
  run. cbn [val]. rewrite !S by (rewrite EH; nia).
  set (m := x0 * y1 + ah) in *. assert (Rm : 0 <= m <= H * H - H) by nia.
  rewrite low_ok, high_ok by wfauto. cbn [bind]. fold H. rewrite !S by (rewrite EH; nia).
  pose proof (Z.div_mod m H ltac:(lia)) as Dm. pose proof (Z.mod_pos_bound m H ltac:(lia)) as Mm.
  set (w2 := m / H) in *. set (w1 := m mod H) in *. assert (0 <= w2 < H) by nia.
  run. cbn [val]. rewrite !S by (rewrite EH; nia).
  set (t := x1 * y0 + w1) in *. assert (Rt : 0 <= t <= H * H - H) by nia.
  rewrite high_ok by wfauto. cbn [bind]. fold H. rewrite !S by (rewrite EH; nia).
  pose proof (Z.div_mod t H ltac:(lia)) as Dt. pose proof (Z.mod_pos_bound t H ltac:(lia)) as Mt.
  set (w3 := t / H) in *. assert (0 <= w3 < H) by nia.
  run. cbn [val]. rewrite !S by (rewrite EH; nia).
  assert (EF : uval x * uval y = (x1 * y1 + w2 + w3) * (H * H) + (t mod H * H + a mod H)).
  { rewrite Ex, Ey. transitivity (x1 * y1 * (H * H) + (x1 * y0 + x0 * y1) * H + a); [unfold a; ring|].
    replace (x1 * y0 + x0 * y1) with (t + H * w2 - ah) by (unfold t, m in *; lia).
    replace (t mod H) with (t - H * w3) by lia. replace (a mod H) with (a - H * ah) by lia. ring. }
  assert (U1 : t mod H * H <= (H - 1) * H) by (apply Z.mul_le_mono_nonneg_r; lia).
  assert (U2 : 0 <= t mod H * H) by (apply Z.mul_nonneg_nonneg; lia).
  assert (U3 : (H - 1) * H = H * H - H) by ring.
  do 2 f_equal. rewrite EH. apply Z.div_unique with (t mod H * H + a mod H); [left; lia|]. rewrite EF. ring.
Qed.
End P.
