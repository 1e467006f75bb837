(** * Proofs about MCore.v: bit operations, counts, sign *)

Require Import ZArith List Bool Lia.
From Verif Require Import Prim Spec Facts MAdd PAdd PAddS PMul MShift PShift MCore PCore.
Import ListNotations.
Local Open Scope Z_scope.

(** ** Bits of a digit list *)

Lemma testbit_lt : forall v b n, 0 <= v < 2 ^ b -> b <= n -> Z.testbit v n = false.
Proof.
  intros v b n Hv Hn. destruct (Z.eq_dec v 0) as [->|]; [apply Z.bits_0|].
  assert (0 <= b). { destruct (Z.lt_ge_cases b 0); auto. rewrite Z.pow_neg_r in Hv; lia. }
  apply Z.bits_above_log2; [lia|]. apply Z.lt_le_trans with b; auto. apply Z.log2_lt_pow2; lia.
Qed.

Lemma lt_testbit : forall v b, 0 <= b -> 0 <= v -> (forall n, b <= n -> Z.testbit v n = false) -> v < 2 ^ b.
Proof.
  intros v b Hb Hv H. destruct (Z.eq_dec v 0) as [->|]; [apply pow2_pos; auto|].
  apply Z.log2_lt_pow2; [lia|]. destruct (Z.lt_ge_cases (Z.log2 v) b); auto.
  specialize (H (Z.log2 v) ltac:(lia)). rewrite Z.bit_log2 in H by lia. discriminate.
Qed.

Lemma testbit_split : forall w a h n, 0 <= w -> 0 <= a < 2 ^ w -> 0 <= n ->
  Z.testbit (a + 2 ^ w * h) n = if n <? w then Z.testbit a n else Z.testbit h (n - w).
Proof.
  intros w a h n Hw Ha Hn. rewrite Z.mul_comm. rewrite Z.add_comm. rewrite <- lor_add by auto.
  rewrite Z.lor_spec. destruct (Z.ltb_spec n w).
  - rewrite Z.mul_pow2_bits_low by lia. reflexivity.
  - rewrite (testbit_lt a w n) by lia. rewrite orb_false_r. apply Z.mul_pow2_bits; lia.
Qed.

Lemma testbit_lval : forall w l n, 1 <= w -> digits w l -> 0 <= n ->
  Z.testbit (lval w l) n = Z.testbit (nth (Z.to_nat (n / w)) l 0) (n mod w).
Proof.
  intros w l. induction l as [|a l IH]; intros n Hw Hd Hn; cbn [lval].
  - destruct (Z.to_nat (n / w)); cbn [nth]; rewrite !Z.bits_0; auto.
  - apply digits_inv in Hd. destruct Hd as (Ha & Hd). rewrite testbit_split by lia.
    destruct (Z.ltb_spec n w).
    + rewrite Z.div_small, Z.mod_small by lia. reflexivity.
    + rewrite IH by (auto; lia).
      assert (E1 : n / w = 1 + (n - w) / w).
      { replace n with ((n - w) + 1 * w) at 1 by lia. rewrite Z.div_add by lia. lia. }
      assert (E2 : n mod w = (n - w) mod w).
      { replace n with ((n - w) + 1 * w) at 1 by lia. rewrite Z.mod_add by lia. lia. }
      rewrite E1, E2. pose proof (Z.div_pos (n - w) w ltac:(lia) ltac:(lia)).
      replace (Z.to_nat (1 + (n - w) / w)) with (S (Z.to_nat ((n - w) / w))) by lia. reflexivity.
Qed.

(** ** A loop filling an array element by element *)

Lemma fill_loop : forall n (g : nat -> Z) body r0,
  length r0 = n ->
  (forall i r, (i < n)%nat -> length r = n -> body i r = Ok (upd r i (g i))) ->
  exists r, for_range 0 n body r0 = Ok r /\ length r = n /\ (forall i, (i < n)%nat -> nth i r 0 = g i).
Proof.
  intros n g body r0 HL HB.
  destruct (for_range_inv _ (fun k r => length r = n /\ forall i, (i < k)%nat -> nth i r 0 = g i) body 0 n r0)
    as (r & E & HI).
  - lia.
  - intros i r Hi (HLr & HN). exists (upd r i (g i)). split; [apply HB; auto; lia|].
    split; [rewrite length_upd; auto|]. intros j Hj.
    destruct (Nat.eq_dec i j) as [->|]; [apply nth_upd_same; lia|].
    rewrite nth_upd_other by auto. apply HN. lia.
  - split; auto. intros i Hi. lia.
  - exists r. destruct HI. auto.
Qed.

Lemma digits_of_nth : forall w l, (forall i, (i < length l)%nat -> 0 <= nth i l 0 < 2 ^ w) -> digits w l.
Proof.
  intros w l. induction l as [|a l IH]; intros H; [apply digits_nil|].
  apply digits_cons; [apply (H 0%nat); cbn; lia|]. apply IH. intros i Hi. apply (H (S i)). cbn. lia.
Qed.

Section P.
Context {c : Cfg}.
Hypothesis HV : Valid.
Local Notation W0 := (W_nonneg HV).
Local Notation HW := (HW1 HV).

Lemma testbit_uval : forall x n, wf x -> 0 <= n ->
  Z.testbit (uval x) n = Z.testbit (nth (Z.to_nat (n / W)) x 0) (n mod W).
Proof. intros x n (_ & Hd) Hn. apply testbit_lval; auto. apply (Wge1 HV). Qed.

Lemma not_const_ok : forall x, wf x -> not_const x = Ok (ofZ (-1 - uval x)).
Proof.
  intros x (HL & Hd). unfold not_const.
  destruct (fill_loop N (fun i => p_not W (nth i x 0))
    (fun i r => let* l := get x i in set r i (p_not W l)) (repeat 0 N)) as (r & E & HLr & HN).
  - apply repeat_length.
  - intros i r Hi Hr. mstep. auto.
  - rewrite E. cbn [bind]. rewrite (mk_ok HV). f_equal.
    assert (Hdr : digits W r).
    { apply digits_of_nth. intros i Hi. rewrite HN by lia. pose proof (digits_nth W x i W0 Hd).
      unfold p_not. lia. }
    apply (ofZ_intro HV); [split; auto|]. exists 1.
    assert (S : forall k, (k <= N)%nat -> pv W r k + pv W x k = 2 ^ (W * Z.of_nat k) - 1).
    { induction k; intros Hk.
      - rewrite !pv_0, Z.mul_0_r. reflexivity.
      - rewrite !pv_S by (try apply W0; lia). rewrite pow2_S by apply W0. rewrite HN by lia.
        specialize (IHk ltac:(lia)). unfold p_not. lia. }
    specialize (S N (le_n N)). rewrite !pv_all in S by auto. rewrite BITS_alt in S.
    unfold uval. lia.
Qed.

Section Bitwise.
  Variables (op : Z -> Z -> Z) (f : bool -> bool -> bool).
  Hypothesis Hop : forall a b n, 0 <= n -> Z.testbit (op a b) n = f (Z.testbit a n) (Z.testbit b n).
  Hypothesis Hf : f false false = false.
  Hypothesis Hnn : forall a b, 0 <= a -> 0 <= b -> 0 <= op a b.

  Lemma op_lt : forall w a b, 0 <= w -> 0 <= a < 2 ^ w -> 0 <= b < 2 ^ w -> 0 <= op a b < 2 ^ w.
  Proof.
    intros w a b Hw Ha Hb. split; [apply Hnn; lia|]. apply lt_testbit; auto; [apply Hnn; lia|].
    intros n Hn. rewrite Hop by lia. rewrite (testbit_lt a w), (testbit_lt b w) by lia. auto.
  Qed.
  Lemma op_0 : op 0 0 = 0.
  Proof. apply Z.bits_inj'. intros n Hn. rewrite Hop, !Z.bits_0 by auto. auto. Qed.

  Lemma bitwise_ok : forall x y, wf x -> wf y -> bitwise op x y = Ok (ofZ (op (uval x) (uval y))).
  Proof.
    intros x y Hx Hy. pose proof Hx as (HLx & Hdx). pose proof Hy as (HLy & Hdy). unfold bitwise.
    destruct (fill_loop N (fun i => op (nth i x 0) (nth i y 0))
      (fun i r => let* a := get x i in let* b := get y i in set r i (op a b)) (repeat 0 N)) as (r & E & HLr & HN).
    - apply repeat_length.
    - intros i r Hi Hr. mstep. auto.
    - rewrite E. cbn [bind]. rewrite (mk_ok HV). f_equal.
      assert (Hdr : digits W r).
      { apply digits_of_nth. intros i Hi. rewrite HN by lia. apply op_lt; auto using (W_nonneg HV), digits_nth. }
      apply (ofZ_intro HV); [split; auto|]. exists 0. rewrite Z.mul_0_l, Z.add_0_r.
      apply Z.bits_inj'. intros n Hn. rewrite Hop by auto.
      rewrite !testbit_uval by (auto; split; auto).
      assert (HN' : forall i, nth i r 0 = op (nth i x 0) (nth i y 0)).
      { intros i. destruct (Nat.lt_ge_cases i N); [apply HN; auto|].
        rewrite !nth_overflow by lia. symmetry. apply op_0. }
      rewrite HN'. rewrite Hop; auto. apply Z.mod_pos_bound. pose proof HW. lia.
  Qed.
End Bitwise.

Lemma bitand_ok : forall x y, wf x -> wf y -> bitand_const x y = Ok (ofZ (Z.land (uval x) (uval y))).
Proof.
  apply (bitwise_ok Z.land andb); auto.
  - intros. apply Z.land_spec.
  - intros. apply Z.land_nonneg; auto.
Qed.
Lemma bitor_ok : forall x y, wf x -> wf y -> bitor_const x y = Ok (ofZ (Z.lor (uval x) (uval y))).
Proof.
  apply (bitwise_ok Z.lor orb); auto.
  - intros. apply Z.lor_spec.
  - intros. apply Z.lor_nonneg; auto.
Qed.
Lemma bitxor_ok : forall x y, wf x -> wf y -> bitxor_const x y = Ok (ofZ (Z.lxor (uval x) (uval y))).
Proof.
  apply (bitwise_ok Z.lxor xorb); auto.
  - intros. apply Z.lxor_spec.
  - intros. apply Z.lxor_nonneg; tauto.
Qed.

(** ** Counting bits *)

Definition ones (v : Z) (n : nat) : Z :=
  Z.of_nat (length (filter (fun i => Z.testbit v (Z.of_nat i)) (seq 0 n))).

Lemma filter_seq_shift : forall (p : nat -> bool) n a,
  length (filter p (seq a n)) = length (filter (fun i => p (a + i)%nat) (seq 0 n)).
Proof.
  intros p n. revert p. induction n; intros p a; auto. cbn [seq filter].
  rewrite Nat.add_0_r.
  assert (E : forall i, p (S a + i)%nat = p (a + (1 + i))%nat) by (intros; f_equal; lia).
  destruct (p a); cbn [length]; rewrite (IHn p (S a)), (IHn (fun i => p (a + i)%nat) 1%nat), (filter_ext _ _ E); reflexivity.
Qed.

Lemma ones_add : forall v a b, ones v (a + b) = ones v a +
  Z.of_nat (length (filter (fun i => Z.testbit v (Z.of_nat (a + i))) (seq 0 b))).
Proof.
  intros. unfold ones. rewrite seq_app, filter_app, app_length, Nat2Z.inj_add. f_equal.
  rewrite Nat.add_0_l, filter_seq_shift. reflexivity.
Qed.

Lemma filter_ext_lt : forall (p q : nat -> bool) n,
  (forall i, (i < n)%nat -> p i = q i) -> filter p (seq 0 n) = filter q (seq 0 n).
Proof.
  intros p q n H. apply filter_ext_in. intros i Hi. apply in_seq in Hi. apply H. lia.
Qed.

Lemma ones_range : forall v n, 0 <= ones v n <= Z.of_nat n.
Proof.
  intros. unfold ones. split; [lia|]. apply Nat2Z.inj_le. rewrite <- (seq_length n 0) at 2.
  generalize (seq 0 n). induction l; cbn; auto. destruct (Z.testbit _ _); cbn; lia.
Qed.

Lemma ones_limb : forall x k, wf x -> (k < N)%nat ->
  ones (uval x) (Z.to_nat W * S k) = ones (uval x) (Z.to_nat W * k) + p_count_ones W (nth k x 0).
Proof.
  intros x k Hx Hk. replace (Z.to_nat W * S k)%nat with (Z.to_nat W * k + Z.to_nat W)%nat by lia.
  rewrite ones_add. f_equal. unfold p_count_ones. do 2 f_equal. apply filter_ext_lt. intros i Hi.
  pose proof HW. rewrite testbit_uval by (auto; lia).
  replace (Z.of_nat (Z.to_nat W * k + i)) with (Z.of_nat i + Z.of_nat k * W) by (rewrite Nat2Z.inj_add, Nat2Z.inj_mul; lia).
  rewrite Z.div_add, Z.mod_add by lia. rewrite Z.div_small, Z.mod_small by lia. rewrite Z.add_0_l, Nat2Z.id. auto.
Qed.

Lemma to_nat_BITS : (Z.to_nat W * N = Z.to_nat BITS)%nat.
Proof. pose proof HW. unfold BITS. rewrite Z2Nat.inj_mul by lia. rewrite Nat2Z.id. lia. Qed.

Lemma count_ones_ok : forall x, wf x -> count_ones x = Ok (ones (uval x) (Z.to_nat BITS)).
Proof.
  intros x Hx. unfold count_ones.
  destruct (for_range_inv _ (fun k v => v = ones (uval x) (Z.to_nat W * k))
    (fun i count => let* l := get x i in uadd 32 count (p_count_ones W l)) 0 N 0) as (r & E & HI).
  - lia.
  - intros i s Hi ->. pose proof Hx as (HL & _). rewrite get_ok by lia. cbn [bind]. unfold uadd.
    rewrite <- ones_limb by (auto; lia). rewrite uchk_ok; [eauto|].
    pose proof (ones_range (uval x) (Z.to_nat W * S i)). split; [lia|].
    pose proof (BITS_lt HV). pose proof HW. unfold BITS in *.
    assert (Z.of_nat (Z.to_nat W * S i) <= Z.of_nat N * W) by nia. lia.
  - rewrite Nat.mul_0_r. reflexivity.
  - rewrite E, HI, to_nat_BITS. reflexivity.
Qed.

(** Leading zeros of a [b]-bit value *)
Definition lz_of (b v : Z) : Z := if v =? 0 then b else b - 1 - Z.log2 v.

Lemma lz_of_range : forall b v, 0 <= b -> 0 <= v < 2 ^ b -> 0 <= lz_of b v <= b /\ (v <> 0 -> lz_of b v < b).
Proof.
  intros b v Hb Hv. unfold lz_of. destruct (Z.eqb_spec v 0); [lia|].
  pose proof (Z.log2_nonneg v). assert (Z.log2 v < b) by (apply Z.log2_lt_pow2; lia). lia.
Qed.

Lemma log2_top : forall a k h, 0 <= k -> 0 <= a < 2 ^ k -> 0 < h -> Z.log2 (a + 2 ^ k * h) = k + Z.log2 h.
Proof.
  intros a k h Hk Ha Hh. pose proof (Z.log2_nonneg h).
  apply Z.log2_unique; [lia|]. pose proof (Z.log2_spec h Hh) as S.
  rewrite Z.pow_succ_r by lia. rewrite !Z.pow_add_r by lia.
  rewrite Z.pow_succ_r in S by lia. pose proof (pow2_pos k Hk). nia.
Qed.

Lemma pv_top : forall x k, wf x -> (S k <= N)%nat -> uval x < 2 ^ (W * Z.of_nat (S k)) ->
  uval x = pv W x k + 2 ^ (W * Z.of_nat k) * nth k x 0.
Proof.
  intros x k Hx Hk Hlt. assert (HL : length x = N) by apply Hx.
  pose proof (pv_S W x k W0 ltac:(lia)) as P.
  rewrite (uval_firstn HV) in P by auto.
  rewrite Z.mod_small in P; [lia|]. pose proof (uval_range HV x Hx). lia.
Qed.

Lemma leading_zeros_ok : forall x, wf x -> leading_zeros x = Ok (lz_of BITS (uval x)).
Proof.
  intros x Hx. unfold leading_zeros. pose proof Hx as (HL & Hd). pose proof HW as HW'.
  pose proof (uval_range HV x Hx) as Ur.
  destruct (while_m_inv _ (fun s : Z * nat => let '(count, i) := s in (i <= N)%nat /\
      ((count = Z.of_nat i * W /\ uval x < 2 ^ (W * Z.of_nat (N - i))) \/
       (count < Z.of_nat i * W /\ uval x <> 0 /\ count = lz_of BITS (uval x)))) (fun s => N - snd s)%nat
    (fun s => let '(count, i) := s in (i <? N)%nat && (count =? Z.of_nat i * W))
    (fun s => let '(count, i) := s in
       let* l := get_limb x (N - i - 1) in
       let* count := uadd 32 count (p_leading_zeros W l) in
       Ok (count, S i)) N (0, 0%nat)) as ((r & i) & E & HI & HC).
  - intros (count & i) (Hi & HI) HC. apply andb_true_iff in HC. destruct HC as (C1 & C2).
    apply Nat.ltb_lt in C1. apply Z.eqb_eq in C2.
    destruct HI as [(_ & HU)|(HU & _)]; [|lia].
    unfold get_limb. rewrite get_ok by lia. cbn [bind].
    replace (N - i - 1)%nat with (N - S i)%nat by lia.
    replace (N - i)%nat with (S (N - S i)) in HU by lia. set (k := (N - S i)%nat) in *.
    pose proof (pv_top x k Hx ltac:(lia) HU) as T.
    pose proof (pv_range W x k W0 Hd ltac:(lia)) as Pr.
    pose proof (digits_nth W x k W0 Hd) as Dk.
    unfold uadd, p_leading_zeros.
    assert (HB : BITS = Z.of_nat i * W + W + W * Z.of_nat k) by (unfold BITS, k; nia).
    pose proof (BITS_lt HV).
    destruct (Z.eqb_spec (nth k x 0) 0) as [Z0|Z0].
    + rewrite uchk_ok by nia. cbn [bind]. eexists. split; [reflexivity|]. cbn [snd].
      split; [|lia]. split; [lia|]. left. split; [lia|].
      fold k. rewrite T, Z0. lia.
    + assert (0 < nth k x 0) by lia. pose proof (Z.log2_nonneg (nth k x 0)).
      assert (Z.log2 (nth k x 0) < W) by (apply Z.log2_lt_pow2; lia).
      rewrite uchk_ok by nia. cbn [bind]. eexists. split; [reflexivity|]. cbn [snd].
      split; [|lia]. split; [lia|]. right.
      assert (uval x <> 0) by (pose proof (pow2_pos (W * Z.of_nat k) (pw0 HW k)); nia).
      split; [lia|]. split; [auto|]. unfold lz_of. destruct (Z.eqb_spec (uval x) 0); [lia|].
      rewrite T at 1. rewrite log2_top by nia. lia.
  - split; [lia|]. left. split; [lia|]. rewrite Nat.sub_0_r, BITS_alt. lia.
  - cbn [snd]. lia.
  - rewrite E. cbn [bind]. f_equal. destruct HI as (Hi & HI).
    destruct HI as [(HU1 & HU)|(_ & _ & HU)]; auto.
    apply andb_false_iff in HC. destruct HC as [C|C].
    + apply Nat.ltb_ge in C. assert (i = N) by lia. subst i. rewrite Nat.sub_diag, Z.mul_0_r in HU.
      change (2 ^ 0) with 1 in HU. unfold lz_of. replace (uval x) with 0 by lia. cbn. unfold BITS. auto.
    + apply Z.eqb_neq in C. lia.
Qed.

Lemma ctz_pos_spec : forall p, 0 <= ctz_pos p /\ exists m, Zpos p = 2 ^ ctz_pos p * (2 * m + 1) /\ 0 <= m.
Proof.
  induction p as [p IH|p IH|]; cbn [ctz_pos].
  - split; [lia|]. exists (Zpos p). rewrite Z.pow_0_r. lia.
  - destruct IH as (H0 & m & E & Hm). split; [lia|]. exists m. split; [|lia].
    rewrite Z.pow_add_r by lia. rewrite Pos2Z.inj_xO, E. ring.
  - split; [lia|]. exists 0. cbn. lia.
Qed.

(** [r] is the number of trailing zeros of the [b]-bit value [v]. *)
Definition is_tz (b v r : Z) : Prop :=
  (v = 0 /\ r = b) \/ (0 <= r < b /\ exists m, v = 2 ^ r * (2 * m + 1)).

Lemma trailing_zeros_ok : forall x, wf x ->
  exists r, trailing_zeros x = Ok r /\ is_tz BITS (uval x) r.
Proof.
  intros x Hx. unfold trailing_zeros. pose proof Hx as (HL & Hd). pose proof HW as HW'.
  pose proof (uval_range HV x Hx) as Ur.
  destruct (while_m_inv _ (fun s : Z * nat => let '(count, i) := s in (i <= N)%nat /\
      ((count = Z.of_nat i * W /\ pv W x i = 0) \/
       (0 <= count < Z.of_nat i * W /\ is_tz BITS (uval x) count))) (fun s => N - snd s)%nat
    (fun s => let '(count, i) := s in (i <? N)%nat && (count =? Z.of_nat i * W))
    (fun s => let '(count, i) := s in
       let* l := get_limb x i in
       let* count := uadd 32 count (p_trailing_zeros W l) in
       Ok (count, S i)) N (0, 0%nat)) as ((r & i) & E & HI & HC).
  - intros (count & i) (Hi & HI) HC. apply andb_true_iff in HC. destruct HC as (C1 & C2).
    apply Nat.ltb_lt in C1. apply Z.eqb_eq in C2.
    destruct HI as [(_ & HU)|(HU & _)]; [|lia].
    unfold get_limb. rewrite get_ok by lia. cbn [bind].
    pose proof (digits_nth W x i W0 Hd) as Dk.
    assert (HB : Z.of_nat i * W + W <= BITS) by (unfold BITS; nia).
    pose proof (BITS_lt HV). unfold uadd, p_trailing_zeros.
    destruct (nth i x 0) as [|p|p] eqn:Ep; [| |lia].
    + rewrite uchk_ok by lia. cbn [bind]. eexists. split; [reflexivity|]. cbn [snd].
      split; [|lia]. split; [lia|]. left. split; [lia|].
      rewrite pv_S by (try apply W0; lia). rewrite HU, Ep. lia.
    + destruct (ctz_pos_spec p) as (T0 & m & Em & Hm).
      assert (ctz_pos p < W).
      { destruct (Z.lt_ge_cases (ctz_pos p) W); auto.
        assert (2 ^ W <= 2 ^ ctz_pos p) by (apply pow2_le_mono; lia). nia. }
      rewrite uchk_ok by lia. cbn [bind]. eexists. split; [reflexivity|]. cbn [snd].
      split; [|lia]. split; [lia|]. right. split; [lia|]. right. split; [lia|].
      unfold uval. rewrite (lval_split W x (S i)) by (try apply W0; lia).
      change (lval W (firstn (S i) x)) with (pv W x (S i)).
      rewrite pv_S by (try apply W0; lia). rewrite HU, Ep, Em.
      set (hi := lval W (skipn (S i) x)).
      rewrite pow2_S by apply W0. rewrite C2. rewrite Z.pow_add_r by nia.
      replace (Z.of_nat i * W) with (W * Z.of_nat i) by lia.
      exists (m + 2 ^ (W - 1 - ctz_pos p) * hi).
      replace (2 ^ W) with (2 ^ ctz_pos p * (2 * 2 ^ (W - 1 - ctz_pos p))).
      * ring.
      * rewrite <- (Z.pow_succ_r 2) by lia. rewrite <- Z.pow_add_r by lia. f_equal. lia.
  - split; [lia|]. left. split; [lia|]. apply pv_0.
  - cbn [snd]. lia.
  - rewrite E. cbn [bind]. exists r. split; auto. destruct HI as (Hi & HI).
    destruct HI as [(HU1 & HU)|(_ & HU)]; auto.
    apply andb_false_iff in HC. destruct HC as [C|C].
    + apply Nat.ltb_ge in C. assert (i = N) by lia. subst i. rewrite pv_all in HU by auto.
      left. auto.
    + apply Z.eqb_neq in C. lia.
Qed.

(** ** The top digit and the sign *)

Lemma top_signed : forall w l n, 1 <= w -> digits w l -> length l = S n ->
  (if lval w l <? 2 ^ (w * Z.of_nat (S n) - 1) then lval w l else lval w l - 2 ^ (w * Z.of_nat (S n)))
  = pv w l n + 2 ^ (w * Z.of_nat n) * scast w (nth n l 0).
Proof.
  intros w l n Hw Hd HL. rewrite (lval_last w l n) by (auto; lia).
  pose proof (pv_range w l n ltac:(lia) Hd ltac:(lia)) as Pr.
  pose proof (digits_nth w l n ltac:(lia) Hd) as D.
  change (lval w (firstn n l)) with (pv w l n).
  assert (HP : 2 ^ (w * Z.of_nat (S n)) = 2 ^ w * 2 ^ (w * Z.of_nat n)) by (apply pow2_S; lia).
  assert (HPh : 2 ^ (w * Z.of_nat (S n) - 1) = 2 ^ (w - 1) * 2 ^ (w * Z.of_nat n))
    by (rewrite <- Z.pow_add_r by nia; f_equal; rewrite Nat2Z.inj_succ; ring).
  rewrite HP, HPh. unfold scast. rewrite Z.mod_small by lia.
  pose proof (pow2_half w Hw). pose proof (pow2_pos (w - 1) ltac:(lia)).
  set (P := 2 ^ (w * Z.of_nat n)) in *. set (t := nth n l 0) in *. set (p := pv w l n) in *.
  destruct (Z.ltb_spec t (2 ^ (w - 1))), (Z.ltb_spec (p + t * P) (2 ^ (w - 1) * P)); nia.
Qed.

Lemma sval_top : forall x, wf x ->
  sval x = pv W x (N - 1) + 2 ^ (W * Z.of_nat (N - 1)) * scast W (nth (N - 1) x 0).
Proof.
  intros x (HL & Hd). pose proof (N1 HV).
  rewrite <- top_signed by (auto using (Wge1 HV); lia).
  replace (S (N - 1)) with N by lia. rewrite BITS_alt. reflexivity.
Qed.

Lemma is_negative_ok : forall x, wf x -> is_negative x = Ok (sval x <? 0).
Proof.
  intros x Hx. pose proof Hx as (HL & Hd). pose proof (N1 HV). unfold is_negative, get_limb.
  rewrite get_ok by lia. cbn [bind]. f_equal. rewrite sval_top by auto.
  pose proof (pv_range W x (N - 1) W0 Hd ltac:(lia)).
  destruct (Z.ltb_spec (scast W (nth (N - 1) x 0)) 0); symmetry; [apply Z.ltb_lt|apply Z.ltb_ge]; nia.
Qed.

Lemma is_positive_ok : forall x, wf x -> is_positive x = Ok (0 <? sval x).
Proof.
  intros x Hx. pose proof Hx as (HL & Hd). pose proof (N1 HV). unfold is_positive, most_significant_limb, get_limb.
  rewrite get_ok by lia. cbn [bind]. pose proof (sval_top x Hx) as T.
  pose proof (pv_range W x (N - 1) W0 Hd ltac:(lia)) as Pr.
  destruct (Z.ltb_spec (scast W (nth (N - 1) x 0)) 0).
  { f_equal. symmetry. apply Z.ltb_ge. nia. }
  destruct (Z.ltb_spec 0 (scast W (nth (N - 1) x 0))).
  { f_equal. symmetry. apply Z.ltb_lt. nia. }
  replace (scast W (nth (N - 1) x 0)) with 0 in T by lia. rewrite Z.mul_0_r, Z.add_0_r in T.
  match goal with |- for_range ?lo ?hi ?bd ?st = _ =>
    destruct (for_range_inv _ (fun k f => if (f : bool) then 0 < sval x else sval x = pv W x (N - 1 - k)) bd lo hi st)
      as (r & E & HI) end.
  - lia.
  - intros j f Hj HI. destruct f; [exists true; auto|].
    rewrite get_ok by lia. cbn [bind]. eexists. split; [reflexivity|].
    replace (N - 1 - j)%nat with (S (N - 1 - 1 - j)) in HI by lia.
    rewrite pv_S in HI by (try apply W0; lia). set (k := (N - 1 - 1 - j)%nat) in *.
    pose proof (digits_nth W x k W0 Hd). pose proof (pv_range W x k W0 Hd ltac:(lia)).
    pose proof (pow2_pos (W * Z.of_nat k) (pw0 HW k)).
    destruct (Z.ltb_spec 0 (nth k x 0)).
    + nia.
    + replace (N - 1 - S j)%nat with k by lia. replace (nth k x 0) with 0 in HI by lia. lia.
  - rewrite Nat.sub_0_r. auto.
  - rewrite E. f_equal. destruct r.
    + symmetry. apply Z.ltb_lt. auto.
    + rewrite Nat.sub_diag, pv_0 in HI. rewrite HI. reflexivity.
Qed.

Lemma is_even_ok : forall x, wf x -> is_even x = Ok (Z.even (uval x)).
Proof.
  intros x Hx. pose proof (N1 HV). unfold is_even, get_limb, urem. rewrite get_ok by (destruct Hx; lia). cbn [bind Z.eqb].
  f_equal. rewrite (limb0_mod HV) by auto. rewrite Zmod_even.
  pose proof HW. replace (2 ^ W) with (2 * 2 ^ (W - 1)) by (symmetry; apply pow2_half; lia).
  pose proof (pow2_pos (W - 1) (Wm1 HV)).
  rewrite Z.rem_mul_r by lia. rewrite Z.even_add, Z.even_mul. cbn [orb Z.even]. 
  rewrite Zmod_even. destruct (Z.even (uval x)); reflexivity.
Qed.
End P.
