(** * The Python scripts of etc/: dividing by a constant *)

Require Import ZArith List Bool Lia.
From Verif Require Import MPy.
Import ListNotations.
Local Open Scope Z_scope.

Definition power_of_two (d : Z) : Prop := exists k, 0 <= k /\ d = 2 ^ k.
(** the rest of [2^(bits + log2 d)] divided by [d], on which the generated constants depend *)
Definition rest (bits d : Z) : Z := 2 ^ (Z.log2 d + bits) mod d.

(** ** Digits *)
Lemma index_first : forall f n a i, (i < n)%nat -> (forall j, (j < i)%nat -> f (a + j)%nat = false) -> f (a + i)%nat = true ->
  index_one (map f (seq a n)) = Some (Z.of_nat i).
Proof.
  intros f n. induction n as [|n IH]; intros a i Hi Hf Ht; [lia|]. cbn [seq map index_one]. destruct i as [|i].
  - rewrite Nat.add_0_r in Ht. rewrite Ht. reflexivity.
  - pose proof (Hf 0%nat ltac:(lia)) as H0. rewrite Nat.add_0_r in H0. rewrite H0. rewrite (IH (S a) i).
    + f_equal. lia.
    + lia.
    + intros j Hj. replace (S a + j)%nat with (a + S j)%nat by lia. apply Hf. lia.
    + replace (S a + i)%nat with (a + S i)%nat by lia. exact Ht.
Qed.
Lemma lz_val : forall d bits, 0 < d -> py_leading_zeros d bits = Z.max bits (Z.log2 d + 1) - (Z.log2 d + 1).
Proof.
  intros d bits Hd. unfold py_leading_zeros, bin_digits. destruct (d =? 0) eqn:E; [apply Z.eqb_eq in E; lia|]. pose proof (Z.log2_nonneg d) as L.
  replace (Z.max bits (Z.max 1 (Z.log2 d + 1))) with (Z.max bits (Z.log2 d + 1)) by lia. set (len := Z.max bits (Z.log2 d + 1)).
  rewrite (index_first _ _ 0%nat (Z.to_nat (len - (Z.log2 d + 1)))).
  - unfold len. lia.
  - unfold len. lia.
  - intros j Hj. apply Z.bits_above_log2; unfold len in *; lia.
  - replace (len - 1 - Z.of_nat (0 + Z.to_nat (len - (Z.log2 d + 1)))) with (Z.log2 d) by (unfold len; lia). apply Z.bit_log2. exact Hd.
Qed.
Lemma log_lt : forall d bits, 0 < d < 2 ^ bits -> 0 <= Z.log2 d < bits.
Proof.
  intros d bits H. split; [apply Z.log2_nonneg|]. apply Z.log2_lt_pow2; lia.
Qed.
Lemma floor_log : forall d bits, 0 < d < 2 ^ bits -> bits - 1 - py_leading_zeros d bits = Z.log2 d.
Proof. intros d bits H. pose proof (log_lt d bits H). rewrite lz_val by lia. lia. Qed.
Lemma land_pred : forall d, 0 < d -> Z.land d (d - 1) = 0 <-> power_of_two d.
Proof.
  intros d Hd. pose proof (Z.log2_spec d Hd) as [L U]. pose proof (Z.log2_nonneg d) as L0. split.
  - intro E. exists (Z.log2 d). split; [auto|]. destruct (Z.eq_dec d (2 ^ Z.log2 d)) as [|NE]; [auto|exfalso].
    assert (T : Z.testbit (Z.land d (d - 1)) (Z.log2 d) = true).
    { rewrite Z.land_spec, Z.bit_log2 by auto. cbn [andb]. replace (Z.log2 d) with (Z.log2 (d - 1)).
      - apply Z.bit_log2. assert (0 < 2 ^ Z.log2 d) by (apply Z.pow_pos_nonneg; lia). lia.
      - apply Z.log2_unique; [auto|]. unfold Z.succ in *. lia. }
    rewrite E, Z.bits_0 in T. discriminate.
  - intros (k & Hk & ->). replace (2 ^ k - 1) with (Z.ones k) by (rewrite Z.ones_equiv; lia). rewrite Z.land_ones by auto. apply Z.mod_same. lia.
Qed.
Lemma shl1 : forall s, 0 <= s -> py_shl 1 s = Ret (2 ^ s).
Proof. intros s H. unfold py_shl. destruct (Z.ltb_spec s 0); [lia|]. rewrite Z.shiftl_1_l. reflexivity. Qed.
Lemma shr_div : forall x s, 0 <= s -> py_shr x s = Ret (x / 2 ^ s).
Proof. intros x s H. unfold py_shr. destruct (Z.ltb_spec s 0); [lia|]. rewrite Z.shiftr_div_pow2 by auto. reflexivity. Qed.
Lemma land_mask : forall x s, 0 <= s -> Z.land x (2 ^ s - 1) = x mod 2 ^ s.
Proof. intros x s H. replace (2 ^ s - 1) with (Z.ones s) by (rewrite Z.ones_equiv; lia). apply Z.land_ones. exact H. Qed.
Lemma pow_log : forall k, 0 <= k -> Z.log2 (2 ^ k) = k.
Proof. intros. apply Z.log2_pow2. auto. Qed.

(** A multiplier slightly above [2^k / d] divides exactly. *)
Lemma magic_div : forall b k d m x, 0 <= b <= k -> 0 < d -> 2 ^ k <= m * d <= 2 ^ k + 2 ^ (k - b) -> 0 <= x < 2 ^ b -> x * m / 2 ^ k = x / d.
Proof.
  intros b k d m x Hk Hd Hm Hx. symmetry.
  assert (P : 0 < 2 ^ k) by (apply Z.pow_pos_nonneg; lia). assert (P' : 0 < 2 ^ (k - b)) by (apply Z.pow_pos_nonneg; lia).
  assert (E : 2 ^ k = 2 ^ b * 2 ^ (k - b)) by (rewrite <- Z.pow_add_r by lia; f_equal; lia).
  apply Z.div_unique with (x * m - 2 ^ k * (x / d)); [left|ring]. pose proof (Z.div_mod x d ltac:(lia)) as DM. pose proof (Z.mod_pos_bound x d Hd) as R.
  set (q := x / d) in *. set (r := x mod d) in *.
  assert (Q : 0 <= q) by (apply Z.div_pos; lia). clearbody q r.
  assert (A : d * (x * m - 2 ^ k * q) = x * (m * d - 2 ^ k) + 2 ^ k * r) by (replace r with (x - d * q) by lia; ring).
  assert (U : x * (m * d - 2 ^ k) < 2 ^ k) by (rewrite E at 2; nia). split; nia.
Qed.

(** ** The generator *)
Section Gen.
Variables bits d : Z.
Hypothesis Hd : 0 < d < 2 ^ bits.
Hypothesis Hp : ~ power_of_two d.
Let l := Z.log2 d.
Let p := 2 ^ (l + bits).
Let r := rest bits d.
Lemma np : 2 ^ l < d < 2 * 2 ^ l /\ 0 <= l < bits /\ 0 < 2 ^ l /\ 2 * 2 ^ l <= 2 ^ bits /\ p = 2 ^ l * 2 ^ bits.
Proof.
  pose proof (log_lt d bits Hd) as L. fold l in L. pose proof (Z.log2_spec d ltac:(lia)) as S. fold l in S. rewrite Z.pow_succ_r in S by lia.
  assert (2 ^ l <> d) by (intro E; apply Hp; exists l; split; [lia|auto]).
  assert (E2 : 2 * 2 ^ l <= 2 ^ bits) by (rewrite <- Z.pow_succ_r by lia; apply Z.pow_le_mono_r; lia).
  repeat split; try lia. unfold p. apply Z.pow_add_r; lia.
Qed.
Lemma rr : 0 <= r < d.
Proof. apply Z.mod_pos_bound. lia. Qed.
Lemma pm : p = d * (p / d) + r.
Proof. apply Z.div_mod. lia. Qed.
Lemma m_range : 2 ^ bits <= 2 * (p / d) /\ p / d + 1 < 2 ^ bits.
Proof.
  destruct np as (A & B & C & D & E). rewrite E.
  assert (E2 : 2 ^ bits = 2 * 2 ^ (bits - 1)) by (rewrite <- Z.pow_succ_r by lia; f_equal; lia).
  assert (L : 2 ^ (bits - 1) <= 2 ^ l * 2 ^ bits / d) by (apply Z.div_le_lower_bound; [lia|]; rewrite E2; nia).
  assert (U : 2 ^ l * 2 ^ bits / d < 2 ^ bits - 1) by (apply Z.div_lt_upper_bound; [lia|]; nia).
  lia.
Qed.
Definition gen_impl_val (bf : bool) : py divider :=
  if negb bf && (d - r <? 2 ^ l) then
    Ret {| dv_bits := bits; dv_divisor := d; dv_magic := p / d + 1; dv_more := l; dv_algorithm := FAST; dv_branchfree := bf |}
  else if d <=? 2 * r then
    Ret {| dv_bits := bits; dv_divisor := d; dv_magic := 2 * (p / d) + 2 - 2 ^ bits; dv_more := Z.lor l 0x4000; dv_algorithm := GENERAL; dv_branchfree := bf |}
  else Raise UnboundLocalError.
Lemma impl_np : forall bf, unsigned_gen_impl bits d bf = gen_impl_val bf.
Proof.
  intro bf. unfold unsigned_gen_impl. destruct (Z.eqb_spec d 0); [lia|]. destruct (Z.ltb_spec (2 ^ bits) d); [lia|]. destruct (Z.ltb_spec d 1); [lia|].
  cbn [orb]. rewrite floor_log by auto. fold l. destruct np as (A & B & C & D & E). pose proof rr as R. pose proof m_range as (M1 & M2).
  destruct (Z.eqb_spec (Z.land d (d - 1)) 0) as [E0|_]; [exfalso; apply Hp; apply land_pred; [lia|auto]|].
  rewrite (shl1 bits) by lia. cbn [pbind]. rewrite shl1 by lia. cbn [pbind]. fold p. unfold py_div, py_mod. destruct (Z.eqb_spec d 0); [lia|]. cbn [pbind].
  change (p mod d) with r. rewrite (shl1 l) by lia.
  replace (if bf then Ret 0 else Ret (2 ^ l)) with (Ret (if bf then 0 else 2 ^ l)) by (destruct bf; reflexivity). cbn [pbind].
  unfold gen_impl_val. replace (negb bf && (d - r <? (if bf then 0 else 2 ^ l))) with (negb bf && (d - r <? 2 ^ l)) by (destruct bf; reflexivity).
  destruct (negb bf && (d - r <? 2 ^ l)) eqn:F.
  - rewrite land_mask by lia. rewrite Z.mod_small by lia. do 2 f_equal. lia.
  - assert (Q : 0 <= p / d) by (apply Z.div_pos; unfold p; [apply Z.pow_nonneg|]; lia).
    rewrite !land_mask by lia.
    assert (TW : (d <=? (r + r) mod 2 ^ bits) || ((r + r) mod 2 ^ bits <? r) = (d <=? 2 * r)).
    { destruct (Z.le_gt_cases (2 ^ bits) (r + r)) as [G|G].
      - assert (MR : (r + r) mod 2 ^ bits = r + r - 2 ^ bits) by (symmetry; apply Z.mod_unique with (q := 1); [left; lia|lia]). rewrite MR.
        destruct (Z.ltb_spec (r + r - 2 ^ bits) r); [|lia]. rewrite orb_true_r. symmetry. apply Z.leb_le. lia.
      - rewrite Z.mod_small by lia. replace (r + r) with (2 * r) by lia. destruct (Z.ltb_spec (2 * r) r); [lia|]. apply orb_false_r. }
    rewrite TW. destruct (Z.leb_spec d (2 * r)); [|reflexivity].
    rewrite !land_mask by lia. do 2 f_equal. rewrite Zplus_mod_idemp_l, Zplus_mod_idemp_r. symmetry.
    apply Z.mod_unique with (q := 1); [left; lia|lia].
Qed.
End Gen.

Lemma impl_pow : forall bits k bf, 0 <= k < bits -> unsigned_gen_impl bits (2 ^ k) bf =
  Ret {| dv_bits := bits; dv_divisor := 2 ^ k; dv_magic := 0; dv_more := k - Z.b2z bf; dv_algorithm := SHR; dv_branchfree := bf |}.
Proof.
  intros bits k bf Hk. assert (P : 0 < 2 ^ k < 2 ^ bits) by (split; [apply Z.pow_pos_nonneg|apply Z.pow_lt_mono_r]; lia).
  unfold unsigned_gen_impl. destruct (Z.eqb_spec (2 ^ k) 0); [lia|]. destruct (Z.ltb_spec (2 ^ bits) (2 ^ k)); [lia|]. destruct (Z.ltb_spec (2 ^ k) 1); [lia|].
  cbn [orb]. rewrite floor_log by auto. rewrite pow_log by lia.
  rewrite (proj2 (land_pred (2 ^ k) ltac:(lia))) by (exists k; split; [lia|auto]). reflexivity.
Qed.
Lemma impl_top : forall bits bf, 0 <= bits -> unsigned_gen_impl bits (2 ^ bits) bf =
  Ret {| dv_bits := bits; dv_divisor := 2 ^ bits; dv_magic := 0; dv_more := bits - 1 - Z.b2z bf; dv_algorithm := SHR; dv_branchfree := bf |}.
Proof.
  intros bits bf Hk. assert (P : 0 < 2 ^ bits) by (apply Z.pow_pos_nonneg; lia).
  unfold unsigned_gen_impl. destruct (Z.eqb_spec (2 ^ bits) 0); [lia|]. destruct (Z.ltb_spec (2 ^ bits) (2 ^ bits)); [lia|]. destruct (Z.ltb_spec (2 ^ bits) 1); [lia|].
  cbn [orb]. rewrite lz_val, pow_log by lia. rewrite (proj2 (land_pred (2 ^ bits) ltac:(lia))) by (exists bits; split; [lia|auto]). cbn [Z.eqb]. do 2 f_equal. lia.
Qed.
Lemma two_cases : forall bits d, 0 <= bits -> 0 < d < 2 ^ bits -> (exists k, 0 <= k < bits /\ d = 2 ^ k) \/ ~ power_of_two d.
Proof.
  intros bits d Hb Hd. destruct (Z.eq_dec (Z.land d (d - 1)) 0) as [E|E].
  - left. apply land_pred in E; [|lia]. destruct E as (k & Hk & ->). exists k. split; [|auto]. split; [auto|]. apply (Z.pow_lt_mono_r_iff 2); lia.
  - right. intro Q. apply E. apply land_pred; [lia|auto].
Qed.
Lemma small_more : forall l, 0 <= l < 0x4000 -> Z.land l 0x4000 = 0 /\ Z.land l 0x3FFF = l /\ Z.land (Z.lor l 0x4000) 0x3FFF = l.
Proof.
  intros l Hl. assert (B : forall n, 14 <= n -> Z.testbit l n = false).
  { intros n Hn. destruct (Z.eq_dec l 0) as [->|]; [apply Z.bits_0|]. apply Z.bits_above_log2; [lia|]. apply Z.lt_le_trans with 14; [|lia]. apply Z.log2_lt_pow2; lia. }
  change 0x3FFF with (Z.ones 14). rewrite !Z.land_ones by lia. change (2 ^ 14) with 0x4000. split; [|split].
  - apply Z.bits_inj'. intros n Hn. rewrite Z.land_spec, Z.bits_0. change 0x4000 with (2 ^ 14). rewrite Z.pow2_bits_eqb by lia.
    destruct (Z.eqb_spec 14 n); [subst; rewrite B by lia; reflexivity|apply andb_false_r].
  - apply Z.mod_small. lia.
  - change 0x4000 with (2 ^ 14). rewrite <- Z.land_ones by lia. rewrite Z.land_lor_distr_l. change (Z.land (2 ^ 14) (Z.ones 14)) with 0. rewrite Z.lor_0_r, Z.land_ones by lia.
    apply Z.mod_small. lia.
Qed.

(** ** C72 *)

(** The two halves of a product (libdivide.py 142-149): together they are the whole
    product, and a negative size is refused by both. *)
Theorem C72_halves : forall x y bits,
  (0 <= bits -> exists hi lo, py_mulhi x y bits = Ret hi /\ py_mullo x y bits = Ret lo /\
    x * y = 2 ^ bits * hi + lo /\ 0 <= lo < 2 ^ bits) /\
  (bits < 0 -> py_mulhi x y bits = Raise ValueError /\ py_mullo x y bits = Raise ValueError).
Proof.
  intros x y bits. unfold py_mulhi, py_mullo, py_shr, py_shl. split; intros H.
  - rewrite (proj2 (Z.ltb_ge bits 0)) by lia. cbn [pbind]. exists (x * y / 2 ^ bits), ((x * y) mod 2 ^ bits).
    pose proof (Z.pow_pos_nonneg 2 bits ltac:(lia) H) as P.
    rewrite Z.shiftr_div_pow2, Z.shiftl_1_l by lia.
    replace (2 ^ bits - 1) with (Z.ones bits) by (rewrite Z.ones_equiv; lia). rewrite Z.land_ones by lia.
    split; [reflexivity|]. split; [reflexivity|]. split; [apply Z.div_mod; lia|apply Z.mod_pos_bound; lia].
  - rewrite (proj2 (Z.ltb_lt bits 0)) by lia. split; reflexivity.
Qed.
Example ex_C72_halves : py_mulhi 0xABCD 0x1234 16 = Ret 0xC37 /\ py_mullo 0xABCD 0x1234 16 = Ret 0x4FA4 /\ py_mullo (-3) 5 8 = Ret 241 /\ py_mullo 1 1 (-1) = Raise ValueError.
Proof. vm_compute. repeat split. Qed.

(** Divisors outside the range are refused; a power of two needs no multiplier. *)
Theorem C72_rejects : forall bits d bf, 0 <= bits -> (d = 0 -> unsigned_gen bits d bf = Raise ZeroDivisionError) /\
  (d < 0 \/ 2 ^ bits < d -> unsigned_gen bits d bf = Raise ValueError).
Proof.
  intros bits d bf Hb. assert (P : 0 < 2 ^ bits) by (apply Z.pow_pos_nonneg; lia). split; intro H.
  - subst d. destruct bf; reflexivity.
  - assert (E : forall b, unsigned_gen_impl bits d b = Raise ValueError).
    { intro b. unfold unsigned_gen_impl. destruct (Z.eqb_spec d 0); [lia|]. destruct (Z.ltb_spec (2 ^ bits) d); [reflexivity|]. destruct (Z.ltb_spec d 1); [reflexivity|lia]. }
    destruct bf; cbn [unsigned_gen]; unfold unsigned_gen_branchfree, unsigned_gen_branched; rewrite E; reflexivity.
Qed.
(** The branching generator answers exactly for powers of two and for divisors whose
    rest is close enough to the divisor; the general case always fails on an unassigned
    variable. *)
Theorem C72_branched_outcome : forall bits d, 0 <= bits -> 0 < d < 2 ^ bits ->
  (power_of_two d \/ d - rest bits d < 2 ^ Z.log2 d -> exists D, unsigned_gen bits d false = Ret D /\ dv_divisor D = d /\ dv_bits D = bits /\ dv_algorithm D <> GENERAL) /\
  (~ power_of_two d -> 2 ^ Z.log2 d <= d - rest bits d -> unsigned_gen bits d false = Raise UnboundLocalError).
Proof.
  intros bits d Hb Hd. unfold unsigned_gen, unsigned_gen_branched. split.
  - intro H. destruct (two_cases bits d Hb Hd) as [(k & Hk & ->)|NP].
    + rewrite impl_pow by auto. eexists. split; [reflexivity|]. cbn. repeat split. discriminate.
    + destruct H as [H|H]; [contradiction|]. rewrite impl_np by auto. unfold gen_impl_val. destruct (Z.ltb_spec (d - rest bits d) (2 ^ Z.log2 d)); [|lia].
      cbn [negb andb]. eexists. split; [reflexivity|]. cbn. repeat split. discriminate.
  - intros NP H. rewrite impl_np by auto. unfold gen_impl_val. destruct (Z.ltb_spec (d - rest bits d) (2 ^ Z.log2 d)); [lia|]. cbn [negb andb].
    destruct (np bits d Hd NP) as (A & _). destruct (Z.leb_spec d (2 * rest bits d)); [lia|reflexivity].
Qed.
(** Whenever it answers, quotient and remainder are right for every positive dividend
    of the size; zero fails an assertion. *)
Theorem C72_branched_divides : forall bits d D, 0 <= bits <= 2 ^ 14 -> 0 < d < 2 ^ bits -> unsigned_gen bits d false = Ret D ->
  (forall n, 0 < n < 2 ^ bits -> unsigned_divide D n = Ret (n / d) /\ unsigned_divide_remainder D n = Ret (n / d, n mod d)) /\
  unsigned_divide D 0 = Raise AssertionError.
Proof.
  intros bits d D Hb Hd H. unfold unsigned_gen, unsigned_gen_branched in H.
  assert (Q : dv_bits D = bits /\ dv_divisor D = d /\ unsigned_divide D 0 = Raise AssertionError /\ forall n, 0 < n < 2 ^ bits -> unsigned_divide D n = Ret (n / d)).
  { destruct (two_cases bits d ltac:(lia) Hd) as [(k & Hk & ->)|NP].
    - rewrite impl_pow in H by auto. injection H as <-. cbn. repeat split. intros n Hn. unfold unsigned_divide, unsigned_divide_branched. cbn.
      destruct (Z.ltb_spec 0 n); [|lia]. cbn [py_assert pbind]. rewrite shr_div by lia. do 3 f_equal. lia.
    - destruct (np bits d Hd NP) as (A & B & C & E & F). pose proof (m_range bits d Hd NP) as (M1 & M2). pose proof (rr bits d Hd) as R. pose proof (pm bits d Hd) as PM.
      rewrite impl_np in H by auto. unfold gen_impl_val in H. cbn [negb andb] in H. destruct (Z.ltb_spec (d - rest bits d) (2 ^ Z.log2 d)) as [FA|G].
      + injection H as <-. cbn [dv_bits dv_divisor]. split; [reflexivity|]. split; [reflexivity|]. split; [reflexivity|]. intros n Hn.
        unfold unsigned_divide, unsigned_divide_branched. cbn [dv_bits dv_divisor dv_magic dv_more dv_branchfree negb]. destruct (Z.ltb_spec 0 n); [|lia]. cbn [py_assert pbind].
        destruct (Z.eqb_spec (2 ^ (Z.log2 d + bits) / d + 1) 0); [lia|]. rewrite shl1 by lia. cbn [pbind]. unfold py_mulhi. rewrite shr_div by lia. cbn [pbind].
        change PY_ADD_MARKER with 0x4000. destruct (small_more (Z.log2 d) ltac:(lia)) as (S1 & _). rewrite S1. cbn [Z.eqb negb]. rewrite shr_div by lia. f_equal.
        rewrite Z.div_div by lia. rewrite <- Z.pow_add_r by lia. rewrite (Z.mul_comm (_ + 1) n). rewrite (Z.add_comm bits (Z.log2 d)).
        apply magic_div with (b := bits); [lia|lia| |lia]. rewrite (Z.add_simpl_r (Z.log2 d) bits).
        set (q := 2 ^ (Z.log2 d + bits) / d) in *. clearbody q. lia.
      + exfalso. destruct (Z.leb_spec d (2 * rest bits d)); [lia|discriminate]. }
  destruct Q as (Q1 & Q2 & Q3 & Q4). split; [|exact Q3]. intros n Hn. split; [apply Q4; auto|].
  unfold unsigned_divide_remainder. rewrite Q1, Q2. rewrite shl1 by lia. cbn [pbind]. rewrite Q4 by auto. cbn [pbind]. rewrite !land_mask by lia. do 2 f_equal.
  pose proof (Z.div_mod n d ltac:(lia)) as DM. pose proof (Z.mod_pos_bound n d ltac:(lia)) as MB.
  assert (0 <= n / d) by (apply Z.div_pos; lia). rewrite (Z.mod_small (d * (n / d))) by nia. rewrite Z.mod_small; lia.
Qed.
Example C72_ex1 :
  unsigned_gen 32 10 false = Ret {| dv_bits := 32; dv_divisor := 10; dv_magic := 0xCCCCCCCD; dv_more := 3; dv_algorithm := FAST; dv_branchfree := false |} /\
  unsigned_gen 32 7 false = Raise UnboundLocalError /\
  match unsigned_gen 32 10 false with Ret D => unsigned_divide_remainder D 4294967295 | _ => Runs end = Ret (429496729, 5) /\
  10 - rest 32 10 < 2 ^ Z.log2 10 /\ 2 ^ Z.log2 7 <= 7 - rest 32 7.
Proof. vm_compute. repeat split; discriminate. Qed.

(** The bound itself, [2^bits], is accepted and divided wrongly. *)
Theorem C72_top : forall bits n, 1 <= bits -> 2 ^ (bits - 1) <= n < 2 ^ bits -> exists D,
  unsigned_gen bits (2 ^ bits) false = Ret D /\ unsigned_divide D n = Ret 1 /\ n / 2 ^ bits = 0.
Proof.
  intros bits n Hb Hn. unfold unsigned_gen, unsigned_gen_branched. rewrite impl_top by lia. eexists. split; [reflexivity|].
  assert (0 < 2 ^ (bits - 1)) by (apply Z.pow_pos_nonneg; lia). assert (E : 2 ^ bits = 2 * 2 ^ (bits - 1)) by (rewrite <- Z.pow_succ_r by lia; f_equal; lia).
  split; [|apply Z.div_small; lia]. unfold unsigned_divide, unsigned_divide_branched. cbn [dv_branchfree dv_magic dv_more negb py_assert pbind Z.b2z].
  destruct (Z.ltb_spec 0 n); [|lia]. cbn [py_assert pbind Z.eqb]. rewrite shr_div by lia. f_equal. rewrite Z.sub_0_r. symmetry. apply Z.div_unique with (n - 2 ^ (bits - 1)); [left; lia|lia].
Qed.
Lemma size_gen : forall l, 2 <= l -> unsigned_gen (l + 2) (2 ^ l + 1) false =
  Ret {| dv_bits := l + 2; dv_divisor := 2 ^ l + 1; dv_magic := 4 * 2 ^ l - 3; dv_more := l; dv_algorithm := FAST; dv_branchfree := false |}.
Proof.
  intros l Hl. assert (P4 : 4 <= 2 ^ l) by (change 4 with (2 ^ 2); apply Z.pow_le_mono_r; lia).
  assert (PB : 2 ^ (l + 2) = 4 * 2 ^ l) by (rewrite Z.pow_add_r by lia; change (2 ^ 2) with 4; ring).
  assert (LG : Z.log2 (2 ^ l + 1) = l) by (apply Z.log2_unique; [lia|]; rewrite Z.pow_succ_r by lia; lia).
  assert (NP : ~ power_of_two (2 ^ l + 1)).
  { intros (k & Hk & E). assert (Q : k = l) by (rewrite <- LG, E, pow_log; auto). subst k. lia. }
  assert (PP : 2 ^ (l + (l + 2)) = (2 ^ l + 1) * (4 * 2 ^ l - 4) + 4) by (rewrite Z.pow_add_r, PB by lia; ring).
  assert (RE : rest (l + 2) (2 ^ l + 1) = 4) by (unfold rest; rewrite LG; symmetry; apply Z.mod_unique with (q := 4 * 2 ^ l - 4); [left; lia|exact PP]).
  assert (DI : 2 ^ (l + (l + 2)) / (2 ^ l + 1) = 4 * 2 ^ l - 4) by (symmetry; apply Z.div_unique with (r := 4); [left; lia|exact PP]).
  unfold unsigned_gen, unsigned_gen_branched. rewrite impl_np by (auto; lia). unfold gen_impl_val. rewrite RE, LG, DI. cbn [negb andb].
  destruct (Z.ltb_spec (2 ^ l + 1 - 4) (2 ^ l)); [|lia]. do 2 f_equal. lia.
Qed.
(** Sizes above 2^14 let the shift be read as a flag. *)
Theorem C72_size_refuted : exists bits d n D, 0 < d < 2 ^ bits /\ 0 < n < 2 ^ bits /\ unsigned_gen bits d false = Ret D /\ unsigned_divide D n = Ret 3 /\ n / d = 0.
Proof.
  assert (exists l, l = 16384) as (l & Hl) by eauto. exists (l + 2), (2 ^ l + 1), 3. eexists.
  assert (P4 : 4 <= 2 ^ l) by (change 4 with (2 ^ 2); apply Z.pow_le_mono_r; lia).
  assert (PB : 2 ^ (l + 2) = 4 * 2 ^ l) by (rewrite Z.pow_add_r by lia; change (2 ^ 2) with 4; ring).
  split; [lia|]. split; [lia|]. split; [apply size_gen; lia|]. split; [|apply Z.div_small; lia].
  unfold unsigned_divide, unsigned_divide_branched. cbn [dv_bits dv_magic dv_more dv_branchfree negb py_assert pbind Z.ltb Z.compare].
  destruct (Z.eqb_spec (4 * 2 ^ l - 3) 0); [lia|]. rewrite shl1 by lia. cbn [pbind]. unfold py_mulhi. rewrite shr_div by lia. cbn [pbind].
  replace (Z.land l PY_ADD_MARKER) with 16384 by (subst l; reflexivity). replace (Z.land l PY_UNIVERSAL) with 0 by (subst l; reflexivity). cbn [Z.eqb negb].
  rewrite shr_div by lia. rewrite !land_mask by lia. rewrite (Z.mod_small (3 - 1)) by lia. change (Z.shiftr (3 - 1) 1) with 1.
  assert (Q : (4 * 2 ^ l - 3) * 3 / 2 ^ (l + 2) = 2) by (symmetry; apply Z.div_unique with (r := (4 * 2 ^ l - 9)); [left; lia|lia]).
  rewrite Q. rewrite Z.mod_small by lia. reflexivity.
Qed.

(** The branchless generator answers exactly for powers of two and for divisors at most
    twice the rest. *)
Theorem C72_branchfree_outcome : forall bits d, 0 <= bits -> 0 < d < 2 ^ bits ->
  (power_of_two d \/ d <= 2 * rest bits d -> exists D, unsigned_gen bits d true = Ret D /\ dv_divisor D = d /\ dv_bits D = bits) /\
  (~ power_of_two d -> 2 * rest bits d < d -> unsigned_gen bits d true = Raise UnboundLocalError).
Proof.
  intros bits d Hb Hd. unfold unsigned_gen, unsigned_gen_branchfree. split.
  - intro H. destruct (two_cases bits d Hb Hd) as [(k & Hk & ->)|NP].
    + rewrite impl_pow by auto. eexists. split; [reflexivity|]. cbn. auto.
    + destruct H as [H|H]; [contradiction|]. rewrite impl_np by auto. unfold gen_impl_val. cbn [negb andb]. destruct (Z.leb_spec d (2 * rest bits d)); [|lia].
      eexists. split; [reflexivity|]. cbn. auto.
  - intros NP H. rewrite impl_np by auto. unfold gen_impl_val. cbn [negb andb]. destruct (Z.leb_spec d (2 * rest bits d)); [lia|]. reflexivity.
Qed.
(** On a power of two it divides the predecessor: right exactly off the multiples. *)
Theorem C72_branchfree_pow : forall bits k n, 1 <= k < bits -> bits <= 2 ^ 14 -> 0 < n < 2 ^ bits -> exists D,
  unsigned_gen bits (2 ^ k) true = Ret D /\ unsigned_divide D n = Ret ((n - 1) / 2 ^ k) /\ ((n - 1) / 2 ^ k = n / 2 ^ k <-> n mod 2 ^ k <> 0).
Proof.
  intros bits k n Hk Hb Hn. unfold unsigned_gen, unsigned_gen_branchfree. rewrite impl_pow by lia. cbn [pbind]. eexists. split; [reflexivity|].
  cbn [dv_bits dv_divisor dv_magic dv_more dv_branchfree dv_algorithm Z.b2z]. change PY_UNIVERSAL with 0x3FFF. destruct (small_more (k - 1) ltac:(lia)) as (_ & S2 & _). rewrite S2. split.
  - unfold unsigned_divide, unsigned_divide_branchfree. cbn [dv_bits dv_magic dv_more dv_branchfree py_assert pbind]. destruct (Z.ltb_spec 0 n); [|lia]. cbn [py_assert pbind].
    rewrite shl1 by lia. cbn [pbind]. unfold py_mulhi. rewrite shr_div by lia. rewrite Z.mul_0_l, Z.div_0_l by lia. cbn [pbind]. rewrite !land_mask by lia.
    rewrite Z.add_0_r. rewrite Z.shiftr_div_pow2 by lia. change (2 ^ 1) with 2. rewrite (Z.mod_small (n - 1)) by lia.
    rewrite (Z.mod_small ((n - 1) / 2)) by (split; [apply Z.div_pos; lia|apply Z.div_lt_upper_bound; lia]). rewrite shr_div by lia. f_equal. rewrite Z.div_div by lia.
    f_equal. rewrite <- Z.pow_succ_r by lia. f_equal. lia.
  - assert (P : 0 < 2 ^ k) by (apply Z.pow_pos_nonneg; lia). pose proof (Z.div_mod n (2 ^ k) ltac:(lia)) as DM. pose proof (Z.mod_pos_bound n (2 ^ k) P) as MB. split; intro H.
    + intro Z0. pose proof (Z.div_mod (n - 1) (2 ^ k) ltac:(lia)) as DM'. pose proof (Z.mod_pos_bound (n - 1) (2 ^ k) P) as MB'. rewrite H in DM'. nia.
    + symmetry. apply Z.div_unique with (n mod 2 ^ k - 1); [left; lia|lia].
Qed.
(** For other divisors: the exact value, and the value the corrected sum would give. *)
Theorem C72_branchfree_value : forall bits d n, 0 <= bits <= 2 ^ 14 -> 0 < d < 2 ^ bits -> ~ power_of_two d -> d <= 2 * rest bits d -> 0 < n < 2 ^ bits ->
  exists D q, unsigned_gen bits d true = Ret D /\ q = dv_magic D * n / 2 ^ bits /\ dv_more D = Z.log2 d /\
    unsigned_divide D n = Ret (((n - 1) / 2 + q) mod 2 ^ bits / 2 ^ Z.log2 d) /\ ((n - q) / 2 + q) / 2 ^ Z.log2 d = n / d.
Proof.
  intros bits d n Hb Hd NP Hr Hn. destruct (np bits d Hd NP) as (A & B & C & E & F). pose proof (m_range bits d Hd NP) as (M1 & M2). pose proof (rr bits d Hd) as R. pose proof (pm bits d Hd) as PM.
  unfold unsigned_gen, unsigned_gen_branchfree. rewrite impl_np by auto. unfold gen_impl_val. cbn [negb andb]. destruct (Z.leb_spec d (2 * rest bits d)); [|lia]. cbn [pbind].
  cbn [dv_bits dv_divisor dv_magic dv_more dv_branchfree dv_algorithm]. change PY_UNIVERSAL with 0x3FFF. destruct (small_more (Z.log2 d) ltac:(lia)) as (_ & _ & S3). rewrite S3.
  set (m := 2 * (2 ^ (Z.log2 d + bits) / d) + 2 - 2 ^ bits).
  eexists. exists (m * n / 2 ^ bits). split; [reflexivity|]. cbn [dv_magic dv_more]. split; [reflexivity|]. split; [reflexivity|]. split.
  - unfold unsigned_divide, unsigned_divide_branchfree. cbn [dv_bits dv_magic dv_more dv_branchfree py_assert pbind]. destruct (Z.ltb_spec 0 n); [|lia]. cbn [py_assert pbind].
    rewrite shl1 by lia. cbn [pbind]. unfold py_mulhi. rewrite shr_div by lia. cbn [pbind]. rewrite !land_mask by lia. rewrite (Z.mod_small (n - 1)) by lia.
    rewrite Z.shiftr_div_pow2 by lia. change (2 ^ 1) with 2. rewrite shr_div by lia. reflexivity.
  - set (q := m * n / 2 ^ bits). replace ((n - q) / 2 + q) with ((n + q) / 2) by (replace (n + q) with (n - q + q * 2) by lia; apply Z.div_add; lia).
    assert (NQ : n + q = n * (m + 2 ^ bits) / 2 ^ bits) by (unfold q; replace (n * (m + 2 ^ bits)) with (m * n + n * 2 ^ bits) by ring; rewrite Z.div_add by lia; ring).
    rewrite NQ. rewrite !Z.div_div by lia. replace (2 ^ bits * (2 * 2 ^ Z.log2 d)) with (2 ^ (Z.log2 d + 1 + bits)) by (rewrite !Z.pow_add_r by lia; ring).
    apply magic_div with (b := bits); [lia|lia| |lia]. rewrite Z.add_simpl_r. rewrite !(Z.pow_add_r 2 (Z.log2 d + 1)), !(Z.pow_add_r 2 (Z.log2 d) 1) by lia. change (2 ^ 1) with 2.
    unfold m. rewrite F in PM |- *. set (w := 2 ^ Z.log2 d * 2 ^ bits / d) in *. nia.
Qed.
Theorem C72_branchfree_refuted : exists d n D, unsigned_gen 8 d true = Ret D /\ unsigned_divide D n = Ret 106 /\ n / d = 85.
Proof. exists 3, 255. eexists. split; [vm_compute; reflexivity|]. split; vm_compute; reflexivity. Qed.
(** The remainder method never answers. *)
Theorem C72_remainder : forall depth D n, unsigned_remainder depth D n = Raise RecursionError.
Proof. intros depth D n. induction depth; auto. Qed.
Example C72_ex2 : unsigned_gen 8 3 true = Ret {| dv_bits := 8; dv_divisor := 3; dv_magic := 0x56; dv_more := 1; dv_algorithm := GENERAL; dv_branchfree := true |} /\
  unsigned_gen 8 7 true = Raise UnboundLocalError /\
  match unsigned_gen 8 16 true with Ret D => (unsigned_divide D 32, unsigned_divide D 33) | _ => (Runs, Runs) end = (Ret 1, Ret 2).
Proof. vm_compute. auto. Qed.

(** *** etc/magic.py *)
(** The reduction loop keeps both bounds exact and apart, and stops only when it must. *)
Lemma reduce_ok : forall turns d k e s, 0 < d -> 0 <= e -> s = Z.of_nat turns -> 0 <= k -> 2 ^ (k + s) / d < (2 ^ (k + s) + 2 ^ (e + s)) / d ->
  exists s', 0 <= s' <= s /\ reduce_multiplier turns (2 ^ (k + s) / d) ((2 ^ (k + s) + 2 ^ (e + s)) / d) s = ((2 ^ (k + s') + 2 ^ (e + s')) / d, s') /\
    2 ^ (k + s') / d < (2 ^ (k + s') + 2 ^ (e + s')) / d /\
    (0 < s' -> (2 ^ (k + s') + 2 ^ (e + s')) / d / 2 <= 2 ^ (k + s') / d / 2).
Proof.
  induction turns as [|t IH]; intros d k e s Hd He Hs Hk Hlt.
  - exists s. cbn [reduce_multiplier]. repeat split; lia.
  - cbn [reduce_multiplier].
    assert (HV : forall x, x / d / 2 = x / 2 / d) by (intro x; rewrite !Z.div_div by lia; f_equal; ring).
    assert (E1 : 2 ^ (k + s) / 2 = 2 ^ (k + (s - 1))) by (replace (k + s) with (Z.succ (k + (s - 1))) by lia; rewrite Z.pow_succ_r by lia; rewrite Z.mul_comm; apply Z.div_mul; lia).
    assert (E2 : (2 ^ (k + s) + 2 ^ (e + s)) / 2 = 2 ^ (k + (s - 1)) + 2 ^ (e + (s - 1))).
    { replace (k + s) with (Z.succ (k + (s - 1))) by lia. replace (e + s) with (Z.succ (e + (s - 1))) by lia. rewrite !Z.pow_succ_r by lia.
      rewrite <- Z.mul_add_distr_l. rewrite Z.mul_comm. apply Z.div_mul. lia. }
    destruct (Z.ltb_spec (2 ^ (k + s) / d / 2) ((2 ^ (k + s) + 2 ^ (e + s)) / d / 2)) as [L|G].
    + destruct (Z.ltb_spec 0 s); [|lia]. cbn [andb]. rewrite !HV, E1, E2 in L |- *.
      destruct (IH d k e (s - 1) Hd He ltac:(lia) Hk L) as (s' & A & B & C & D). exists s'. split; [lia|]. auto.
    + cbn [andb]. exists s. split; [lia|]. split; [reflexivity|]. split; [exact Hlt|]. intros _. exact G.
Qed.
Definition precision_of (bits : Z) (sg : bool) : Z := if sg then bits - 1 else bits.
(** The chosen multiplier divides exactly, whenever the logarithm is not too small. *)
Theorem C72_multiplier : forall d bits sg l, 1 <= bits -> 0 <= l -> 0 < d <= 2 ^ l -> exists m s,
  choose_multiplier d bits sg l = Ret (m, s, l) /\ 0 <= s <= l /\ forall n, 0 <= n < 2 ^ precision_of bits sg -> n * m / 2 ^ (bits + s) = n / d.
Proof.
  intros d bits sg l Hb Hl Hd. unfold choose_multiplier, py_div. destruct (Z.eqb_spec d 0); [lia|]. cbn [pbind]. fold (precision_of bits sg).
  set (p := precision_of bits sg). assert (Hp : 0 <= p <= bits) by (unfold p, precision_of; destruct sg; lia).
  replace (bits + l - p) with (bits - p + l) by lia.
  assert (P1 : 2 ^ l <= 2 ^ (bits - p + l)) by (apply Z.pow_le_mono_r; lia).
  assert (LT : 2 ^ (bits + l) / d < (2 ^ (bits + l) + 2 ^ (bits - p + l)) / d).
  { apply Z.lt_le_trans with ((2 ^ (bits + l) + 1 * d) / d); [rewrite Z.div_add by lia; lia|]. apply Z.div_le_mono; lia. }
  destruct (reduce_ok (Z.to_nat l) d bits (bits - p) l ltac:(lia) ltac:(lia) ltac:(lia) ltac:(lia) LT) as (s & A & B & C & _).
  rewrite B. eexists. exists s. split; [reflexivity|]. split; [exact A|]. intros x Hx. apply magic_div with (b := p); [lia|lia| |exact Hx].
  replace (bits + s - p) with (bits - p + s) by lia.
  set (lo := 2 ^ (bits + s)) in *. set (ad := 2 ^ (bits - p + s)) in *.
  pose proof (Z.div_mod lo d ltac:(lia)). pose proof (Z.mod_pos_bound lo d ltac:(lia)). pose proof (Z.div_mod (lo + ad) d ltac:(lia)). pose proof (Z.mod_pos_bound (lo + ad) d ltac:(lia)).
  set (q := lo / d) in *. set (q' := (lo + ad) / d) in *. clearbody q q'. nia.
Qed.
(** With the exact logarithm it needs at most one bit more than the size. *)
Theorem C72_multiplier_size : forall d bits l m s, 1 <= bits -> 1 <= l <= bits -> 2 ^ (l - 1) < d <= 2 ^ l ->
  choose_multiplier d bits false l = Ret (m, s, l) -> m < 2 ^ (bits + 1) /\ (0 < s -> m / 2 <= 2 ^ (bits + s) / d / 2).
Proof.
  intros d bits l m s Hb Hl Hd H. assert (0 < 2 ^ (l - 1)) by (apply Z.pow_pos_nonneg; lia). unfold choose_multiplier, py_div in H. destruct (Z.eqb_spec d 0); [lia|]. cbn [pbind] in H.
  replace (bits + l - bits) with (0 + l) in H by lia.
  assert (LT : 2 ^ (bits + l) / d < (2 ^ (bits + l) + 2 ^ (0 + l)) / d).
  { apply Z.lt_le_trans with ((2 ^ (bits + l) + 1 * d) / d); [rewrite Z.div_add by lia; lia|]. apply Z.div_le_mono; [lia|]. rewrite Z.add_0_l. lia. }
  destruct (reduce_ok (Z.to_nat l) d bits 0 l ltac:(lia) ltac:(lia) ltac:(lia) ltac:(lia) LT) as (s' & A & B & C & D).
  rewrite B in H. injection H as Hm Hs. subst s'. subst m. split; [|exact D].
  apply Z.le_lt_trans with ((2 ^ (bits + l) + 2 ^ (0 + l)) / d).
  - apply Z.div_le_mono; [lia|]. apply Z.add_le_mono; apply Z.pow_le_mono_r; lia.
  - apply Z.div_lt_upper_bound; [lia|]. rewrite Z.add_0_l.
    assert (E : 2 ^ l = 2 * 2 ^ (l - 1)) by (rewrite <- Z.pow_succ_r by lia; f_equal; lia).
    assert (E1 : 2 ^ (bits + l) = 2 ^ bits * 2 ^ l) by (apply Z.pow_add_r; lia). assert (E2 : 2 ^ (bits + 1) = 2 * 2 ^ bits) by (rewrite Z.pow_add_r by lia; ring).
    assert (2 ^ l <= 2 ^ bits) by (apply Z.pow_le_mono_r; lia). rewrite E1, E2. rewrite E in *. nia.
Qed.
(** A logarithm rounded down spoils it. *)
Theorem C72_multiplier_refuted : exists d bits l m s n, 2 ^ l < d <= 2 ^ (l + 1) /\ choose_multiplier d bits false l = Ret (m, s, l) /\
  0 <= n < 2 ^ bits /\ n * m / 2 ^ (bits + s) <> n / d.
Proof.
  exists 7, 8, 2. eexists. eexists. exists 7. split; [vm_compute; split; [reflexivity|discriminate]|].
  split; [vm_compute; reflexivity|]. split; [vm_compute; split; [discriminate|reflexivity]|]. vm_compute. discriminate.
Qed.
Example C72_ex3 : choose_multiplier 10 16 false 4 = Ret (52429, 3, 4) /\ choose_multiplier 7 32 false 3 = Ret (4908534053, 3, 3) /\ choose_multiplier 7 32 true 3 = Ret (2454267027, 2, 3).
Proof. vm_compute. auto. Qed.

(** The shift is the number of factors two; zero makes the loop run forever. *)
Lemma fast_from : forall turns d n, d <> 0 -> 0 <= n -> (2 ^ n | d) -> Z.log2 (Z.abs d) - n < Z.of_nat turns ->
  exists r, fast_shift_from turns d n = Ret r /\ n <= r /\ (2 ^ r | d) /\ ~ (2 ^ (r + 1) | d).
Proof.
  induction turns as [|t IH]; intros d n Hd Hn Dv Ht.
  - exfalso. apply Z.divide_abs_r in Dv. apply Z.divide_pos_le in Dv; [|lia]. apply Z.log2_le_mono in Dv. rewrite pow_log in Dv by auto. lia.
  - cbn [fast_shift_from]. assert (P : 0 < 2 ^ (n + 1)) by (apply Z.pow_pos_nonneg; lia). destruct (Z.eqb_spec (d mod 2 ^ (n + 1)) 0) as [E|E].
    + apply Z.mod_divide in E; [|lia]. destruct (IH d (n + 1) Hd ltac:(lia) E ltac:(lia)) as (r & A & B & C & D). exists r. split; [exact A|]. split; [lia|]. auto.
    + exists n. split; [reflexivity|]. split; [lia|]. split; [exact Dv|]. intro F. apply E. apply Z.mod_divide; [lia|exact F].
Qed.
Theorem C72_fast_shift : forall d, (d <> 0 -> exists turns0 r, forall turns, (turns0 <= turns)%nat -> fast_shift turns d = Ret r /\ 0 <= r /\ (2 ^ r | d) /\ ~ (2 ^ (r + 1) | d)) /\
  (d = 0 -> forall turns, fast_shift turns d = Runs).
Proof.
  intro d. split.
  - intro Hd. pose proof (Z.log2_nonneg (Z.abs d)) as L.
    destruct (fast_from (Z.to_nat (Z.log2 (Z.abs d) + 1)) d 0 Hd ltac:(lia) (Z.divide_1_l d) ltac:(lia)) as (r & A & B & C & D).
    exists (Z.to_nat (Z.log2 (Z.abs d) + 1)), r. intros turns Ht. split; [|auto].
    destruct (fast_from turns d 0 Hd ltac:(lia) (Z.divide_1_l d) ltac:(lia)) as (r' & A' & B' & C' & D'). unfold fast_shift. rewrite A'. f_equal.
    assert (U : forall a b, 0 <= a < b -> (2 ^ b | d) -> (2 ^ (a + 1) | d)).
    { intros a b Hab Q. apply Z.divide_trans with (2 ^ b); [|exact Q]. exists (2 ^ (b - (a + 1))). rewrite <- Z.pow_add_r by lia. f_equal. lia. }
    destruct (Z.lt_trichotomy r r') as [T|[T|T]]; [exfalso; apply D; apply (U r r'); [lia|auto]|auto|exfalso; apply D'; apply (U r' r); [lia|auto]].
  - intros -> turns. unfold fast_shift. generalize 0 at 2. induction turns as [|t IH]; intro n; cbn [fast_shift_from]; [reflexivity|]. rewrite Zmod_0_l. apply IH.
Qed.

(** The factors: only for even divisors whose multiplier fits. *)
Theorem C72_factors : forall d l num_bits div_bits, 1 <= num_bits -> 0 <= div_bits -> 0 <= l -> 0 < d <= 2 ^ l -> exists turns0 sh m s, forall turns, (turns0 <= turns)%nat ->
  0 <= sh /\ (2 ^ sh | d) /\ ~ (2 ^ (sh + 1) | d) /\ choose_multiplier d num_bits false l = Ret (m, s, l) /\
  calculate_factors turns l d num_bits div_bits = (if (m <? 2 ^ num_bits) && (d mod 2 =? 0) then Ret (2 ^ (div_bits + sh), sh, m, s) else Raise NotImplementedError).
Proof.
  intros d l nb db Hnb Hdb Hl Hd. destruct (proj1 (C72_fast_shift d) ltac:(lia)) as (t0 & sh & F). destruct (C72_multiplier d nb false l Hnb Hl Hd) as (m & s & M & _ & _).
  exists t0, sh, m, s. intros turns Ht. destruct (F turns Ht) as (F1 & F2 & F3 & F4). split; [exact F2|]. split; [exact F3|]. split; [exact F4|]. split; [exact M|].
  unfold calculate_factors. rewrite F1. cbn [pbind]. rewrite M. cbn [pbind].
  assert (EV : negb (sh =? 0) = (d mod 2 =? 0)).
  { destruct (Z.eqb_spec sh 0) as [->|NZ]; cbn [negb]; symmetry.
    - apply Z.eqb_neq. intro E. apply F4. apply Z.mod_divide in E; [exact E|lia].
    - apply Z.eqb_eq. apply Z.mod_divide; [lia|]. apply Z.divide_trans with (2 ^ sh); [|exact F3]. exists (2 ^ (sh - 1)). rewrite Z.mul_comm, <- Z.pow_succ_r by lia. f_equal. lia. }
  rewrite EV. rewrite Z.leb_antisym. destruct (m <? 2 ^ nb); cbn [negb andb]; [|reflexivity]. destruct (d mod 2 =? 0); [|reflexivity].
  rewrite shl1 by lia. reflexivity.
Qed.
(** The product's high half as computed: the low product is lost and so is one high word. *)
Theorem C72_high : forall x y h, 0 <= h -> let H := 2 ^ h in let x0 := x mod H in let x1 := x / H mod H in let y0 := y mod H in let y1 := y / H mod H in
  magic_mulhi x y h = Ret ((x1 * y1 + (x1 * y0 + x0 * y1 mod H) / H) mod H).
Proof.
  intros x y h Hh H x0 x1 y0 y1. assert (P : 0 < H) by (apply Z.pow_pos_nonneg; lia). unfold magic_mulhi. rewrite !shr_div by auto. cbn [pbind]. rewrite !land_mask by auto. fold H.
  fold x0 y0. fold x1 y1. rewrite (Z.div_small ((x0 * y0) mod H)) by (apply Z.mod_pos_bound; auto). rewrite Z.add_0_r.
  rewrite !Z.mod_mod by lia. rewrite ?shr_div by auto. cbn [pbind]. fold H. rewrite (Z.div_small ((x0 * y1) mod H)) by (apply Z.mod_pos_bound; auto).
  assert (LM : forall z, Z.land z (H - 1) = z mod H) by (intro z; apply land_mask; auto).
  rewrite !LM, Zmod_0_l, Z.add_0_r, Z.mod_mod, <- Zplus_mod by lia. reflexivity.
Qed.
(** Below the limit the quotient and the remainder are right. *)
Theorem C72_divrem : forall num den sh factor factor_shr num_bits div_bits, 0 <= sh -> 0 <= div_bits -> 0 < den <= 2 ^ div_bits -> (2 ^ sh | den) ->
  0 <= num < 2 ^ (div_bits + sh) -> num < 2 ^ num_bits -> 0 <= num_bits ->
  fast_divrem num den (2 ^ (div_bits + sh)) sh factor factor_shr num_bits div_bits = Ret (num / den, num mod den).
Proof.
  intros num den sh f fs nb db Hsh Hdb Hden (d' & Ed) Hnum Hnb Hb. unfold fast_divrem. destruct (Z.ltb_spec num (2 ^ (db + sh))); [|lia].
  assert (P : 0 < 2 ^ sh) by (apply Z.pow_pos_nonneg; lia). rewrite !shr_div by auto. cbn [pbind]. rewrite !land_mask by auto.
  assert (D' : den / 2 ^ sh = d') by (rewrite Ed; apply Z.div_mul; lia). rewrite D'. assert (0 < d') by nia. unfold py_div. destruct (Z.eqb_spec d' 0); [lia|]. cbn [pbind].
  rewrite (Z.mod_small (num / 2 ^ sh)) by (split; [apply Z.div_pos; lia|]; apply Z.div_lt_upper_bound; [lia|]; rewrite Z.pow_add_r in Hnum by lia; lia).
  rewrite Z.div_div by lia. replace (2 ^ sh * d') with den by lia. do 2 f_equal.
  pose proof (Z.div_mod num den ltac:(lia)) as DM. pose proof (Z.mod_pos_bound num den ltac:(lia)) as MB. assert (0 <= num / den) by (apply Z.div_pos; lia).
  rewrite ?land_mask by auto.   rewrite (Z.mod_small (num / den * den)) by nia. rewrite Z.mod_small; lia.
Qed.
(** Above it they are not, with the script's own factors. *)
Theorem C72_divrem_refuted : exists d num_bits div_bits num, 2 * div_bits = num_bits /\ 0 <= num < 2 ^ num_bits /\
  exists fast sh m s, calculate_factors 8 4 d num_bits div_bits = Ret (fast, sh, m, s) /\ fast <= num /\
    fast_divrem num d fast sh m s num_bits div_bits = Ret (12, 112) /\ num / d = 100 /\ num * m / 2 ^ num_bits / 2 ^ s = num / d.
Proof.
  exists 10, 16, 8, 1000. split; [reflexivity|]. split; [lia|]. do 4 eexists. split; [vm_compute; reflexivity|]. vm_compute. repeat split; auto; discriminate.
Qed.
Example C72_ex4 : fast_shift 10 80 = Ret 4 /\ calculate_factors 8 4 10 16 8 = Ret (512, 1, 52429, 3) /\ calculate_factors 8 3 7 32 16 = Raise NotImplementedError /\
  fast_divrem 511 10 512 1 52429 3 16 8 = Ret (51, 1) /\ magic_mulhi 1000 52429 8 = Ret 103.
Proof. vm_compute. auto. Qed.

(** ** Assumptions (each must print "Closed under the global context") *)

Print Assumptions C72_halves.
Print Assumptions C72_rejects.
Print Assumptions C72_branched_outcome.
Print Assumptions C72_branched_divides.
Print Assumptions C72_top.
Print Assumptions C72_size_refuted.
Print Assumptions C72_branchfree_outcome.
Print Assumptions C72_branchfree_pow.
Print Assumptions C72_branchfree_value.
Print Assumptions C72_branchfree_refuted.
Print Assumptions C72_remainder.
Print Assumptions C72_multiplier.
Print Assumptions C72_multiplier_size.
Print Assumptions C72_multiplier_refuted.
Print Assumptions C72_fast_shift.
Print Assumptions C72_factors.
Print Assumptions C72_high.
Print Assumptions C72_divrem.
Print Assumptions C72_divrem_refuted.
