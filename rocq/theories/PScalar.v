(** * Proofs: operations with scalar operands (MScalar.v) *)

Require Import ZArith List Bool Lia.
From Verif Require Import Prim Spec Facts MAdd PAdd PAddS MMul PMul PMulS MShift MCore PCore PBits PWide MArith PArith PArith2 PPow MDiv DivSpec PDiv PDivFull MScalar.
Import ListNotations.
Local Open Scope Z_scope.

(** the integer operation *)
Definition sopz (o : sop) (a b : Z) : Z :=
  match o with SAdd => a + b | SSub => a - b | SMul => a * b end.

Section P.
Context {c : Cfg}.
Hypothesis HV : Valid.

Local Notation B := (2 ^ W).
Let HW : 1 <= W <= 64 := HW1 HV.
Let HW2 : 2 <= W <= 64.
Proof. destruct (W_cases HV); lia. Qed.

Definition oflag (o : sop) (sg : bool) (a b : Z) : bool :=
  match o with SMul => mulf sg a b | _ => negb (fitsb sg (sopz o a b)) end.

(** ** The full-width operations *)

Definition wrapping_full (o : sop) (sg : bool) (x y : list Z) : res (list Z) :=
  match o with SAdd => wrapping_add sg x y | SSub => wrapping_sub sg x y | SMul => wrapping_mul sg x y end.
Definition overflowing_full (o : sop) (sg : bool) (x y : list Z) : res (list Z * bool) :=
  match o with SAdd => overflowing_add sg x y | SSub => overflowing_sub sg x y | SMul => overflowing_mul sg x y end.
Lemma wrapping_full_ok : forall o sg x y, wf x -> wf y ->
  wrapping_full o sg x y = Ok (ofZ (sopz o (val sg x) (val sg y))).
Proof.
  intros [] sg x y Hx Hy; cbn [wrapping_full sopz];
    [apply (wrapping_add_ok HV)|apply (wrapping_sub_ok HV)|apply (wrapping_mul_ok HV)]; auto.
Qed.
Lemma overflowing_full_ok : forall o sg x y, wf x -> wf y ->
  overflowing_full o sg x y = Ok (ofZ (sopz o (val sg x) (val sg y)), oflag o sg (val sg x) (val sg y)).
Proof.
  intros [] sg x y Hx Hy; cbn [overflowing_full sopz oflag];
    [apply (overflowing_add_ok HV)|apply (overflowing_sub_ok HV)|apply (overflowing_mul_ok HV)]; auto.
Qed.

Lemma lenc_ofZ : forall x v, wf x -> lenc W (length x) v = ofZ v.
Proof. intros x v (L & _). rewrite L. reflexivity. Qed.

Lemma BITS4 : 4 * W <= BITS.
Proof. rewrite <- BITS_alt. pose proof (N_ge4 HV). nia. Qed.
Lemma BITS2 : 2 * W + 1 <= BITS.
Proof. pose proof BITS4. lia. Qed.
Lemma fits_u_val : forall sg b v, 0 <= b <= 2 * W -> fits_u b v -> val sg (ofZ v) = v.
Proof.
  intros sg b v Hb [H0 H1]. apply (val_ofZ_small HV). pose proof BITS2.
  pose proof (pow2_le_mono b (BITS - 1)). pose proof (pBh HV). pose proof (pBhalf HV).
  destruct sg; cbn; unfold fits_s, fits_u; lia.
Qed.
Lemma fits_s_val : forall b v, 1 <= b <= 2 * W -> fits_s b v -> sval (ofZ v) = v.
Proof.
  intros b v Hb [H0 H1]. apply (val_ofZ_small HV true). pose proof BITS2.
  pose proof (pow2_le_mono (b - 1) (BITS - 1)). cbn. unfold fits_s. lia.
Qed.

Lemma mul_by_limbs : forall x l, wf x -> digits W l -> (1 <= length l <= N)%nat ->
  mul_wrapping_full x l = Ok (ofZ (uval x * lval W l)).
Proof.
  intros x l Hx Hl HL. pose proof Hx as (Lx & Dx). rewrite (mul_wrapping_full_ok HW) by (auto; lia).
  rewrite lenc_ofZ by auto. reflexivity.
Qed.
Lemma ofZ_mulc_uval : forall sg x v, wf x -> ofZ (uval x * v) = ofZ (val sg x * v).
Proof.
  intros sg x v Hx. rewrite <- (ofZ_mul_l HV false (uval x)), <- (ofZ_mul_l HV false (val sg x)). do 2 f_equal.
  cbn [wrapz]. destruct sg; cbn [val]; auto. unfold wrapz.
  rewrite (sval_mod HV) by auto. apply Z.mod_small. apply (uval_range HV). auto.
Qed.
Lemma uovf_mul : forall x l, wf x -> digits W l -> (1 <= length l <= N)%nat ->
  mul_overflowing_full x l = Ok (ofZ (uval x * lval W l), mulf false (uval x) (lval W l)).
Proof.
  intros x l Hx Hl HL. pose proof Hx as (Lx & Dx).
  destruct (mul_overflowing_full_ok HW x l) as (f & E & Hf); auto; try lia.
  rewrite E, lenc_ofZ by auto. do 2 f_equal. unfold mulf.
  apply (flag_u f). rewrite Hf, Lx, BITS_alt. pose proof (lval_range W x (W_nonneg HV) Dx).
  pose proof (lval_range W l (W_nonneg HV) Hl). unfold uval.
  assert (0 <= lval W x * lval W l) by (apply Z.mul_nonneg_nonneg; lia). lia.
Qed.

Lemma lval_1 : forall n, lval W [n] = n.
Proof. intros. cbn [lval]. lia. Qed.
Lemma digits_1 : forall n, fits_u W n -> digits W [n].
Proof. intros n H. constructor; [exact H|constructor]. Qed.

Lemma set0_ofZ : forall x n, wf x -> fits_u W n -> set (repeat 0 (length x)) 0 n = Ok (ofZ n).
Proof.
  intros x n Hx Hn. pose proof (N_ge4 HV). destruct Hx as (L & _). rewrite L.
  change (ofZ n) with (lenc W N n). rewrite <- (scalar1_ok HW2 N n) by (auto; lia). unfold scalar1.
  replace (0 <? N)%nat with true by (symmetry; apply Nat.ltb_lt; lia). reflexivity.
Qed.

(** ** One unsigned limb *)

Lemma wrapping_ulimb_ok : forall o sg x n, wf x -> fits_u W n ->
  wrapping_ulimb o sg x n = Ok (ofZ (sopz o (val sg x) n)).
Proof.
  intros [] sg x n Hx Hn; cbn [wrapping_ulimb sopz].
  - apply (wrapping_add_ulimb_ok HV); auto.
  - apply (wrapping_sub_ulimb_ok HV); auto.
  - pose proof (N_ge4 HV). unfold smul_wrapping_ulimb, mul_wrapping_limb.
    rewrite mul_by_limbs by (auto using digits_1; cbn; lia). rewrite lval_1.
    rewrite (ofZ_mulc_uval sg) by auto. destruct sg; cbn [bind]; apply (mk_ok HV).
Qed.
Lemma overflowing_ulimb_ok : forall o sg x n, wf x -> fits_u W n ->
  overflowing_ulimb o sg x n = Ok (ofZ (sopz o (val sg x) n), oflag o sg (val sg x) n).
Proof.
  intros [] sg x n Hx Hn; cbn [overflowing_ulimb sopz oflag].
  - apply (overflowing_add_ulimb_ok HV); auto.
  - apply (overflowing_sub_ulimb_ok HV); auto.
  - pose proof (N_ge4 HV). destruct sg.
    + unfold smul_overflowing_ulimb. rewrite set0_ofZ by auto. cbn [bind].
      change (mk_flag (smul_overflowing_full x (ofZ n))) with (overflowing_mul true x (ofZ n)).
      rewrite (overflowing_mul_ok HV) by (auto; apply (wf_ofZ HV)). rewrite (fits_u_val true W n) by (auto; lia). reflexivity.
    + unfold mul_overflowing_limb. rewrite uovf_mul by (auto using digits_1; cbn; lia). rewrite lval_1.
      unfold mk_flag. cbn [bind]. rewrite (mk_ok HV). reflexivity.
Qed.

(** ** Two unsigned limbs *)

Lemma uwide_ofZ : forall x n, wf x -> fits_u (2 * W) n -> uwide_limbs (length x) n = Ok (ofZ n).
Proof.
  intros x n Hx Hn. pose proof (N_ge4 HV). rewrite (uwide_limbs_ok HW) by (auto; destruct Hx as (L & _); lia).
  rewrite lenc_ofZ; auto.
Qed.
Lemma mn_add : forall x l, wf x -> digits W l -> (2 <= length l < N)%nat ->
  add_wrapping_mn x l = Ok (ofZ (uval x + lval W l)).
Proof.
  intros x l Hx Hl HL. pose proof Hx as (Lx & Dx). rewrite (add_wrapping_mn_ok HW) by (auto; lia). rewrite lenc_ofZ; auto.
Qed.
Lemma mn_sub : forall x l, wf x -> digits W l -> (2 <= length l < N)%nat ->
  sub_wrapping_mn x l = Ok (ofZ (uval x - lval W l)).
Proof.
  intros x l Hx Hl HL. pose proof Hx as (Lx & Dx). rewrite (sub_wrapping_mn_ok HW) by (auto; lia). rewrite lenc_ofZ; auto.
Qed.
Lemma mn_oadd : forall x l, wf x -> digits W l -> (2 <= length l < N)%nat ->
  add_overflowing_mn x l = Ok (ofZ (uval x + lval W l), negb (fitsb false (uval x + lval W l))).
Proof.
  intros x l Hx Hl HL. pose proof Hx as (Lx & Dx).
  destruct (add_overflowing_mn_ok HW x l) as (f & E & Hf); auto; try lia.
  rewrite E, lenc_ofZ by auto. rewrite Lx, BITS_alt in Hf. rewrite (flag_u _ _ Hf). reflexivity.
Qed.
Lemma mn_osub : forall x l, wf x -> digits W l -> (2 <= length l < N)%nat ->
  sub_overflowing_mn x l = Ok (ofZ (uval x - lval W l), negb (fitsb false (uval x - lval W l))).
Proof.
  intros x l Hx Hl HL. pose proof Hx as (Lx & Dx).
  destruct (sub_overflowing_mn_ok HW x l) as (f & E & Hf); auto; try lia.
  rewrite E, lenc_ofZ by auto. rewrite Lx, BITS_alt in Hf. rewrite (flag_u _ _ Hf). reflexivity.
Qed.

Lemma wrapping_uwide_ok : forall o sg x n, wf x -> fits_u (2 * W) n ->
  wrapping_uwide o sg x n = Ok (ofZ (sopz o (val sg x) n)).
Proof.
  intros o sg x n Hx Hn. pose proof (N_ge4 HV). unfold wrapping_uwide.
  assert (Hl : digits W (lenc W 2 n)) by (apply digits_lenc; lia).
  assert (HL : length (lenc W 2 n) = 2%nat) by apply length_lenc.
  assert (Hv : lval W (lenc W 2 n) = n) by (apply (lval_wide_limbs HW); auto).
  assert (Hf : wrapping_full o true x (ofZ n) = Ok (ofZ (sopz o (sval x) n))).
  { rewrite wrapping_full_ok by (auto; apply (wf_ofZ HV)). rewrite (fits_u_val true (2 * W)) by (auto; lia). reflexivity. }
  destruct o, sg; cbn [sopz val wrapping_full] in *;
    unfold sadd_wrapping_uwide, ssub_wrapping_uwide, smul_wrapping_uwide, add_wrapping_wide, sub_wrapping_wide, mul_wrapping_wide;
    rewrite ?uwide_ofZ by auto; rewrite ?(wide_limbs_ok HW) by auto; cbn [bind].
  - exact Hf.
  - rewrite mn_add by (auto; lia). rewrite Hv. apply (mk_ok HV).
  - exact Hf.
  - rewrite mn_sub by (auto; lia). rewrite Hv. apply (mk_ok HV).
  - rewrite mul_by_limbs by (auto; lia). rewrite Hv. cbn [bind]. rewrite (ofZ_mulc_uval true) by auto. apply (mk_ok HV).
  - rewrite mul_by_limbs by (auto; lia). rewrite Hv. apply (mk_ok HV).
Qed.
Lemma overflowing_uwide_ok : forall o sg x n, wf x -> fits_u (2 * W) n ->
  overflowing_uwide o sg x n = Ok (ofZ (sopz o (val sg x) n), oflag o sg (val sg x) n).
Proof.
  intros o sg x n Hx Hn. pose proof (N_ge4 HV). unfold overflowing_uwide.
  assert (Hl : digits W (lenc W 2 n)) by (apply digits_lenc; lia).
  assert (HL : length (lenc W 2 n) = 2%nat) by apply length_lenc.
  assert (Hv : lval W (lenc W 2 n) = n) by (apply (lval_wide_limbs HW); auto).
  assert (Hf : overflowing_full o true x (ofZ n) = Ok (ofZ (sopz o (sval x) n), oflag o true (sval x) n)).
  { rewrite overflowing_full_ok by (auto; apply (wf_ofZ HV)). rewrite (fits_u_val true (2 * W)) by (auto; lia). reflexivity. }
  assert (Hk : forall v f, mk_flag (Ok (v, f)) = Ok (v, f)).
  { intros. unfold mk_flag. cbn [bind]. rewrite (mk_ok HV). reflexivity. }
  destruct o, sg; cbn [sopz oflag val overflowing_full] in *;
    unfold sadd_overflowing_uwide, ssub_overflowing_uwide, smul_overflowing_uwide, add_overflowing_wide, sub_overflowing_wide, mul_overflowing_wide;
    rewrite ?uwide_ofZ by auto; rewrite ?(wide_limbs_ok HW) by auto; cbn [bind]; try exact Hf.
  - rewrite mn_oadd by (auto; lia). rewrite Hv. apply Hk.
  - rewrite mn_osub by (auto; lia). rewrite Hv. apply Hk.
  - rewrite uovf_mul by (auto; lia). rewrite Hv. apply Hk.
Qed.

(** ** Signed scalars *)

Lemma ilimb_full : forall o x n, wf x -> fits_s W n ->
  wrapping_ilimb o x n = wrapping_full o true x (ofZ n) /\ overflowing_ilimb o x n = overflowing_full o true x (ofZ n).
Proof.
  intros o x n Hx Hn. pose proof (N_ge4 HV).
  assert (E : ilimb_limbs (length x) n = Ok (ofZ n)).
  { rewrite (ilimb_limbs_ok HW) by (auto; destruct Hx as (L & _); lia). rewrite lenc_ofZ; auto. }
  unfold wrapping_ilimb, overflowing_ilimb.
  destruct o; cbn [wrapping_full overflowing_full];
    unfold sadd_wrapping_ilimb, ssub_wrapping_ilimb, smul_wrapping_ilimb, sadd_overflowing_ilimb, ssub_overflowing_ilimb, smul_overflowing_ilimb;
    rewrite E; split; reflexivity.
Qed.
Lemma iwide_full : forall o x n, wf x -> fits_s (2 * W) n ->
  wrapping_iwide o x n = wrapping_full o true x (ofZ n) /\ overflowing_iwide o x n = overflowing_full o true x (ofZ n).
Proof.
  intros o x n Hx Hn. pose proof (N_ge4 HV).
  assert (E : iwide_limbs (length x) n = Ok (ofZ n)).
  { rewrite (iwide_limbs_ok HW) by (auto; destruct Hx as (L & _); lia). rewrite lenc_ofZ; auto. }
  unfold wrapping_iwide, overflowing_iwide.
  destruct o; cbn [wrapping_full overflowing_full];
    unfold sadd_wrapping_iwide, ssub_wrapping_iwide, smul_wrapping_iwide, sadd_overflowing_iwide, ssub_overflowing_iwide, smul_overflowing_iwide;
    rewrite E; split; reflexivity.
Qed.
Lemma wrapping_ilimb_ok : forall o x n, wf x -> fits_s W n -> wrapping_ilimb o x n = Ok (ofZ (sopz o (sval x) n)).
Proof.
  intros o x n Hx Hn. rewrite (proj1 (ilimb_full o x n Hx Hn)), wrapping_full_ok by (auto; apply (wf_ofZ HV)).
  cbn [val]. rewrite (fits_s_val W n) by (auto; lia). reflexivity.
Qed.
Lemma wrapping_iwide_ok : forall o x n, wf x -> fits_s (2 * W) n -> wrapping_iwide o x n = Ok (ofZ (sopz o (sval x) n)).
Proof.
  intros o x n Hx Hn. rewrite (proj1 (iwide_full o x n Hx Hn)), wrapping_full_ok by (auto; apply (wf_ofZ HV)).
  cbn [val]. rewrite (fits_s_val (2 * W) n) by (auto; lia). reflexivity.
Qed.
Lemma overflowing_ilimb_ok : forall o x n, wf x -> fits_s W n ->
  overflowing_ilimb o x n = Ok (ofZ (sopz o (sval x) n), oflag o true (sval x) n).
Proof.
  intros o x n Hx Hn. rewrite (proj2 (ilimb_full o x n Hx Hn)), overflowing_full_ok by (auto; apply (wf_ofZ HV)).
  cbn [val]. rewrite (fits_s_val W n) by (auto; lia). reflexivity.
Qed.
Lemma overflowing_iwide_ok : forall o x n, wf x -> fits_s (2 * W) n ->
  overflowing_iwide o x n = Ok (ofZ (sopz o (sval x) n), oflag o true (sval x) n).
Proof.
  intros o x n Hx Hn. rewrite (proj2 (iwide_full o x n Hx Hn)), overflowing_full_ok by (auto; apply (wf_ofZ HV)).
  cbn [val]. rewrite (fits_s_val (2 * W) n) by (auto; lia). reflexivity.
Qed.

(** ** 128-bit scalars on 32-bit limbs *)

Lemma u128_to_limb_ok : forall n, W = 32 -> u128_to_limb n = Ok (lenc W 4 n).
Proof.
  intros n H. unfold u128_to_limb. rewrite H. cbn [assert_ bind lenc].
  change (32 =? 32) with true. cbn [assert_ bind]. do 2 f_equal.
  rewrite !Z.div_div by lia. change (2 ^ 32 * 2 ^ 32) with (2 ^ 64). change (2 ^ 64 * 2 ^ 32) with (2 ^ 96).
  reflexivity.
Qed.

(** What the four assignments store: the base 2^32 digits 1 and 3 are exchanged. *)
Definition swap13 (v : Z) : Z :=
  v mod 2 ^ 32 + 2 ^ 32 * (v / 2 ^ 96 mod 2 ^ 32) + 2 ^ 64 * (v / 2 ^ 64 mod 2 ^ 32) + 2 ^ 96 * (v / 2 ^ 32 mod 2 ^ 32).

Lemma swap13_range : forall v, 0 <= swap13 v < 2 ^ 128.
Proof.
  intros v. unfold swap13.
  pose proof (Z.mod_pos_bound v (2 ^ 32) ltac:(lia)). pose proof (Z.mod_pos_bound (v / 2 ^ 96) (2 ^ 32) ltac:(lia)).
  pose proof (Z.mod_pos_bound (v / 2 ^ 64) (2 ^ 32) ltac:(lia)). pose proof (Z.mod_pos_bound (v / 2 ^ 32) (2 ^ 32) ltac:(lia)).
  lia.
Qed.

Lemma lenc_cons : forall n a t, fits_u W a -> lenc W (S n) (a + B * t) = a :: lenc W n t.
Proof.
  intros n a t Ha. cbn [lenc]. unfold fits_u in Ha.
  rewrite (Z.mul_comm B t), Z.mod_add, Z.div_add, Z.mod_small, Z.div_small by lia. reflexivity.
Qed.

Lemma store_u128_ok : forall n v s, W = 32 -> (5 <= n)%nat -> 0 <= v < 2 ^ 128 -> s = 0 \/ s = -1 ->
  store_u128 (repeat (sign_limb s) n) v = Ok (lenc W n (swap13 v + 2 ^ 128 * s)).
Proof.
  intros n v s H32 Hn Hv Hs. unfold store_u128.
  destruct n as [|[|[|[|n]]]]; try lia.
  rewrite set_ok by (rewrite repeat_length; lia). cbn [bind]. rewrite ushr_ok by lia. cbn [bind].
  rewrite set_ok by (rewrite length_upd, repeat_length; lia). cbn [bind]. rewrite ushr_ok by lia. cbn [bind].
  rewrite set_ok by (rewrite !length_upd, repeat_length; lia). cbn [bind]. rewrite ushr_ok by lia. cbn [bind].
  rewrite set_ok by (rewrite !length_upd, repeat_length; lia). f_equal. cbn [repeat upd].
  unfold swap13, ucast.
  pose proof (Z.mod_pos_bound v (2 ^ 32) ltac:(lia)) as H0. pose proof (Z.mod_pos_bound (v / 2 ^ 96) (2 ^ 32) ltac:(lia)) as H1.
  pose proof (Z.mod_pos_bound (v / 2 ^ 64) (2 ^ 32) ltac:(lia)) as H2. pose proof (Z.mod_pos_bound (v / 2 ^ 32) (2 ^ 32) ltac:(lia)) as H3.
  set (a := v mod 2 ^ 32) in *. set (b := v / 2 ^ 96 mod 2 ^ 32) in *. set (d := v / 2 ^ 64 mod 2 ^ 32) in *. set (e := v / 2 ^ 32 mod 2 ^ 32) in *.
  replace (a + 2 ^ 32 * b + 2 ^ 64 * d + 2 ^ 96 * e + 2 ^ 128 * s) with (a + B * (b + B * (d + B * (e + B * s)))) by (rewrite H32; ring).
  rewrite !lenc_cons by (rewrite H32; auto). rewrite (lenc_sign HW) by auto. reflexivity.
Qed.
Lemma u128_to_limb_n_ok : forall v, W = 32 -> 0 <= v < 2 ^ 128 ->
  u128_to_limb_n N v = Ok (ofZ (swap13 v)).
Proof.
  intros v H32 Hv. unfold u128_to_limb_n. pose proof BITS4. 
  assert (5 <= N)%nat by (pose proof BITS_alt; pose proof (BITS_ge HV); nia).
  replace (W =? 32) with true by (symmetry; apply Z.eqb_eq; auto).
  replace (4 <? N)%nat with true by (symmetry; apply Nat.ltb_lt; lia). cbn [assert_ bind].
  replace 0 with (sign_limb 0) at 1 by (rewrite (sign_limb_eq HW); reflexivity).
  rewrite store_u128_ok by auto. rewrite Z.mul_0_r, Z.add_0_r. reflexivity.
Qed.
(** the signed scalar [i128_to_limb_n] stores *)
Definition swap13s (v : Z) : Z := swap13 (v mod 2 ^ 128) + 2 ^ 128 * (if v <? 0 then -1 else 0).
Lemma i128_to_limb_n_ok : forall v, W = 32 -> fits_s 128 v ->
  i128_to_limb_n N v = Ok (ofZ (swap13s v)).
Proof.
  intros v H32 Hv. unfold i128_to_limb_n.
  assert (5 <= N)%nat by (pose proof BITS_alt; pose proof (BITS_ge HV); nia).
  replace (W =? 32) with true by (symmetry; apply Z.eqb_eq; auto).
  replace (4 <? N)%nat with true by (symmetry; apply Nat.ltb_lt; lia). cbn [assert_ bind].
  replace (p_wrapping_sub 32 0 (b2z (v <? 0))) with (sign_limb (if v <? 0 then -1 else 0)).
  2:{ unfold sign_limb. rewrite H32. destruct (v <? 0); reflexivity. }
  rewrite store_u128_ok; auto.
  - apply Z.mod_pos_bound. lia.
  - destruct (v <? 0); auto.
Qed.
Lemma swap13s_fits : forall v, - 2 ^ 128 <= swap13s v < 2 ^ 128.
Proof. intros v. pose proof (swap13_range (v mod 2 ^ 128)). unfold swap13s. destruct (v <? 0); lia. Qed.
Lemma swap_val : forall v, - 2 ^ 128 <= v < 2 ^ 128 -> sval (ofZ v) = v.
Proof.
  intros v H. apply (val_ofZ_small HV true). cbn. unfold fits_s. pose proof (BITS_ge HV).
  pose proof (pow2_le_mono 128 (BITS - 1)). lia.
Qed.

Lemma mn_same : forall x y, wf x -> wf y ->
  add_wrapping_mn x y = Panic /\ sub_wrapping_mn x y = Panic /\
  add_overflowing_mn x y = Panic /\ sub_overflowing_mn x y = Panic.
Proof.
  intros x y (Lx & _) (Ly & _). unfold add_wrapping_mn, sub_wrapping_mn, add_overflowing_mn, sub_overflowing_mn.
  rewrite Lx, Ly, Nat.ltb_irrefl, andb_false_r. cbn. auto.
Qed.

Lemma assertW : (2 * W =? 64) || (2 * W =? 128) = true.
Proof. destruct (W_cases HV) as [-> | ->]; reflexivity. Qed.

(** The kinds a theorem about signed values must leave out. *)
Definition swapped (k : skind) : Prop := k = K128 /\ W = 32.
Lemma swapped_dec : forall k, swapped k \/ ~ swapped k.
Proof. intros k. unfold swapped. destruct (W_cases HV); destruct k; intuition (try lia; try discriminate). Qed.

Lemma ucast_fits : forall b v, fits_u b v -> ucast b v = v.
Proof. intros b v H. apply Z.mod_small. exact H. Qed.
Lemma scast_fits : forall b v, 1 <= b -> fits_s b v -> scast b v = v.
Proof. intros b v Hb H. rewrite scast_swrap by auto. apply swrap_small; auto. Qed.
Lemma fits_u_mono : forall a b v, 0 <= a <= b -> fits_u a v -> fits_u b v.
Proof. intros a b v H [H0 H1]. pose proof (pow2_le_mono a b). unfold fits_u. lia. Qed.
Lemma fits_s_mono : forall a b v, 1 <= a <= b -> fits_s a v -> fits_s b v.
Proof. intros a b v H [H0 H1]. pose proof (pow2_le_mono (a - 1) (b - 1)). unfold fits_s. lia. Qed.

Lemma wrapping_us_ok : forall o k sg x n, wf x -> fits_u (kbits k) n -> (sg = true -> ~ swapped k) ->
  wrapping_us o k sg x n = Ok (ofZ (sopz o (val sg x) n)).
Proof.
  intros o k sg x n Hx Hn Hs. pose proof (N_ge4 HV).
  destruct k; cbn [wrapping_us kbits] in *.
  - apply wrapping_ulimb_ok; auto.
  - apply wrapping_uwide_ok; auto.
  - assert (fits_u W n) by (destruct (W_cases HV); apply (fits_u_mono 32); auto; lia).
    unfold wrapping_u32. rewrite ucast_fits by auto. apply wrapping_ulimb_ok; auto.
  - unfold wrapping_u64. destruct (W_cases HV) as [E|E]; rewrite E.
    + change (32 =? 64) with false. apply wrapping_uwide_ok; auto. rewrite E. exact Hn.
    + change (64 =? 64) with true. apply wrapping_ulimb_ok; auto. rewrite E. exact Hn.
  - unfold wrapping_u128. rewrite assertW. cbn [assert_ bind].
    destruct (W_cases HV) as [E|E].
    + replace (2 * W =? 128) with false by (rewrite E; reflexivity).
      destruct sg; [exfalso; apply Hs; [auto|split; auto]|].
      rewrite u128_to_limb_ok by auto. cbn [bind].
      assert (5 <= N)%nat by (pose proof BITS_alt; pose proof (BITS_ge HV); nia).
      assert (Hl : digits W (lenc W 4 n)) by (apply digits_lenc; lia).
      assert (HL : length (lenc W 4 n) = 4%nat) by apply length_lenc.
      assert (Hv : lval W (lenc W 4 n) = n).
      { rewrite lval_lenc by lia. apply Z.mod_small. rewrite E. exact Hn. }
      destruct o; cbn [sopz val];
        [rewrite mn_add by (auto; lia)|rewrite mn_sub by (auto; lia)|rewrite mul_by_limbs by (auto; lia)];
        rewrite Hv; cbn [bind]; apply (mk_ok HV).
    + replace (2 * W =? 128) with true by (rewrite E; reflexivity).
      assert (fits_u (2 * W) n) by (rewrite E; exact Hn).
      rewrite ucast_fits by auto. apply wrapping_uwide_ok; auto.
Qed.
Lemma overflowing_us_ok : forall o k sg x n, wf x -> fits_u (kbits k) n -> (sg = true -> ~ swapped k) ->
  overflowing_us o k sg x n = Ok (ofZ (sopz o (val sg x) n), oflag o sg (val sg x) n).
Proof.
  intros o k sg x n Hx Hn Hs. pose proof (N_ge4 HV).
  destruct k; cbn [overflowing_us kbits] in *.
  - apply overflowing_ulimb_ok; auto.
  - apply overflowing_uwide_ok; auto.
  - assert (fits_u W n) by (destruct (W_cases HV); apply (fits_u_mono 32); auto; lia).
    unfold overflowing_u32. rewrite ucast_fits by auto. apply overflowing_ulimb_ok; auto.
  - unfold overflowing_u64. destruct (W_cases HV) as [E|E]; rewrite E.
    + change (32 =? 64) with false. apply overflowing_uwide_ok; auto. rewrite E. exact Hn.
    + change (64 =? 64) with true. apply overflowing_ulimb_ok; auto. rewrite E. exact Hn.
  - unfold overflowing_u128. rewrite assertW. cbn [assert_ bind].
    destruct (W_cases HV) as [E|E].
    + replace (2 * W =? 128) with false by (rewrite E; reflexivity).
      destruct sg; [exfalso; apply Hs; [auto|split; auto]|].
      rewrite u128_to_limb_ok by auto. cbn [bind].
      assert (5 <= N)%nat by (pose proof BITS_alt; pose proof (BITS_ge HV); nia).
      assert (Hl : digits W (lenc W 4 n)) by (apply digits_lenc; lia).
      assert (HL : length (lenc W 4 n) = 4%nat) by apply length_lenc.
      assert (Hv : lval W (lenc W 4 n) = n).
      { rewrite lval_lenc by lia. apply Z.mod_small. rewrite E. exact Hn. }
      destruct o; cbn [sopz val oflag];
        [rewrite mn_oadd by (auto; lia)|rewrite mn_osub by (auto; lia)|rewrite uovf_mul by (auto; lia)];
        rewrite Hv; unfold mk_flag; cbn [bind]; rewrite (mk_ok HV); reflexivity.
    + replace (2 * W =? 128) with true by (rewrite E; reflexivity).
      assert (fits_u (2 * W) n) by (rewrite E; exact Hn).
      rewrite ucast_fits by auto. apply overflowing_uwide_ok; auto.
Qed.
Lemma wrapping_is_ok : forall o k x n, wf x -> fits_s (kbits k) n -> ~ swapped k ->
  wrapping_is o k x n = Ok (ofZ (sopz o (sval x) n)).
Proof.
  intros o k x n Hx Hn Hs.
  destruct k; cbn [wrapping_is kbits] in *.
  - apply wrapping_ilimb_ok; auto.
  - apply wrapping_iwide_ok; auto.
  - assert (fits_s W n) by (destruct (W_cases HV); apply (fits_s_mono 32); auto; lia).
    unfold wrapping_i32. rewrite scast_fits by (auto; lia). apply wrapping_ilimb_ok; auto.
  - unfold wrapping_i64. destruct (W_cases HV) as [E|E]; rewrite E.
    + change (32 =? 64) with false. apply wrapping_iwide_ok; auto. rewrite E. exact Hn.
    + change (64 =? 64) with true. apply wrapping_ilimb_ok; auto. rewrite E. exact Hn.
  - unfold wrapping_i128. rewrite assertW. cbn [assert_ bind].
    destruct (W_cases HV) as [E|E]; [exfalso; apply Hs; split; auto|].
    replace (2 * W =? 128) with true by (rewrite E; reflexivity).
    assert (fits_s (2 * W) n) by (rewrite E; exact Hn).
    rewrite scast_fits by (auto; lia). apply wrapping_iwide_ok; auto.
Qed.
Lemma overflowing_is_ok : forall o k x n, wf x -> fits_s (kbits k) n -> ~ swapped k ->
  overflowing_is o k x n = Ok (ofZ (sopz o (sval x) n), oflag o true (sval x) n).
Proof.
  intros o k x n Hx Hn Hs.
  destruct k; cbn [overflowing_is kbits] in *.
  - apply overflowing_ilimb_ok; auto.
  - apply overflowing_iwide_ok; auto.
  - assert (fits_s W n) by (destruct (W_cases HV); apply (fits_s_mono 32); auto; lia).
    unfold overflowing_i32. rewrite scast_fits by (auto; lia). apply overflowing_ilimb_ok; auto.
  - unfold overflowing_i64. destruct (W_cases HV) as [E|E]; rewrite E.
    + change (32 =? 64) with false. apply overflowing_iwide_ok; auto. rewrite E. exact Hn.
    + change (64 =? 64) with true. apply overflowing_ilimb_ok; auto. rewrite E. exact Hn.
  - unfold overflowing_i128. rewrite assertW. cbn [assert_ bind].
    destruct (W_cases HV) as [E|E]; [exfalso; apply Hs; split; auto|].
    replace (2 * W =? 128) with true by (rewrite E; reflexivity).
    assert (fits_s (2 * W) n) by (rewrite E; exact Hn).
    rewrite scast_fits by (auto; lia). apply overflowing_iwide_ok; auto.
Qed.

(** ** The signed 128-bit operations on 32-bit limbs *)

Lemma swapped_add : forall o x n, W = 32 -> wf x -> 0 <= n < 2 ^ 128 -> o <> SMul ->
  wrapping_us o K128 true x n = Panic /\ overflowing_us o K128 true x n = Panic.
Proof.
  intros o x n E Hx Hn Ho. cbn [wrapping_us overflowing_us]. unfold wrapping_u128, overflowing_u128.
  rewrite assertW. cbn [assert_ bind]. replace (2 * W =? 128) with false by (rewrite E; reflexivity).
  rewrite u128_to_limb_n_ok by auto. cbn [bind].
  destruct (mn_same x (ofZ (swap13 n)) Hx (wf_ofZ HV _)) as (P1 & P2 & P3 & P4).
  destruct o; try congruence; rewrite ?P1, ?P2, ?P3, ?P4; split; reflexivity.
Qed.
Lemma swapped_add_i : forall o x n, W = 32 -> wf x -> fits_s 128 n -> o <> SMul ->
  wrapping_is o K128 x n = Panic /\ overflowing_is o K128 x n = Panic.
Proof.
  intros o x n E Hx Hn Ho. cbn [wrapping_is overflowing_is]. unfold wrapping_i128, overflowing_i128.
  rewrite assertW. cbn [assert_ bind]. replace (2 * W =? 128) with false by (rewrite E; reflexivity).
  rewrite i128_to_limb_n_ok by auto. cbn [bind].
  destruct (mn_same x (ofZ (swap13s n)) Hx (wf_ofZ HV _)) as (P1 & P2 & P3 & P4).
  destruct o; try congruence; rewrite ?P1, ?P2, ?P3, ?P4; split; reflexivity.
Qed.
Lemma swapped_mul : forall x n, W = 32 -> wf x -> 0 <= n < 2 ^ 128 ->
  wrapping_us SMul K128 true x n = Ok (ofZ (sval x * swap13 n)) /\
  overflowing_us SMul K128 true x n = Ok (ofZ (sval x * swap13 n), mulf true (sval x) (swap13 n)).
Proof.
  intros x n E Hx Hn. cbn [wrapping_us overflowing_us]. unfold wrapping_u128, overflowing_u128.
  rewrite assertW. cbn [assert_ bind]. replace (2 * W =? 128) with false by (rewrite E; reflexivity).
  rewrite u128_to_limb_n_ok by auto. cbn [bind]. pose proof (swap13_range n).
  change (let* l := smul_wrapping_full x (ofZ (swap13 n)) in mk l) with (wrapping_mul true x (ofZ (swap13 n))).
  change (mk_flag (smul_overflowing_full x (ofZ (swap13 n)))) with (overflowing_mul true x (ofZ (swap13 n))).
  rewrite (wrapping_mul_ok HV), (overflowing_mul_ok HV) by (auto; apply (wf_ofZ HV)). cbn [val].
  rewrite swap_val by lia. auto.
Qed.
Lemma swapped_mul_i : forall x n, W = 32 -> wf x -> fits_s 128 n ->
  wrapping_is SMul K128 x n = Ok (ofZ (sval x * swap13s n)) /\
  overflowing_is SMul K128 x n = Ok (ofZ (sval x * swap13s n), mulf true (sval x) (swap13s n)).
Proof.
  intros x n E Hx Hn. cbn [wrapping_is overflowing_is]. unfold wrapping_i128, overflowing_i128.
  rewrite assertW. cbn [assert_ bind]. replace (2 * W =? 128) with false by (rewrite E; reflexivity).
  rewrite i128_to_limb_n_ok by auto. cbn [bind]. pose proof (swap13s_fits n).
  change (let* l := smul_wrapping_full x (ofZ (swap13s n)) in mk l) with (wrapping_mul true x (ofZ (swap13s n))).
  change (mk_flag (smul_overflowing_full x (ofZ (swap13s n)))) with (overflowing_mul true x (ofZ (swap13s n))).
  rewrite (wrapping_mul_ok HV), (overflowing_mul_ok HV) by (auto; apply (wf_ofZ HV)). cbn [val].
  rewrite swap_val by lia. auto.
Qed.

(** ** Checked and plain forms *)

Lemma opt_ok : forall v f, opt (Ok (ofZ v, f)) = Ok (some_if (negb f) v).
Proof. intros. rewrite opt_eq. reflexivity. Qed.
Lemma checked_us_ok : forall o k sg x n, wf x -> fits_u (kbits k) n -> (sg = true -> ~ swapped k) ->
  checked_us o k sg x n = Ok (some_if (negb (oflag o sg (val sg x) n)) (sopz o (val sg x) n)).
Proof. intros. unfold checked_us. rewrite overflowing_us_ok by auto. apply opt_ok. Qed.
Lemma checked_is_ok : forall o k x n, wf x -> fits_s (kbits k) n -> ~ swapped k ->
  checked_is o k x n = Ok (some_if (negb (oflag o true (sval x) n)) (sopz o (sval x) n)).
Proof. intros. unfold checked_is. rewrite overflowing_is_ok by auto. apply opt_ok. Qed.
Lemma plain_us_ok : forall o k sg x n, wf x -> fits_u (kbits k) n -> (sg = true -> ~ swapped k) ->
  plain_us o k sg x n =
  if chk && oflag o sg (val sg x) n then Panic else Ok (ofZ (sopz o (val sg x) n)).
Proof.
  intros. unfold plain_us. rewrite checked_us_ok, wrapping_us_ok by auto. destruct chk; cbn [negb andb]; auto.
  rewrite unwrap_some_if. unfold ok_if. destruct (oflag _ _ _ _); reflexivity.
Qed.
Lemma plain_is_ok : forall o k x n, wf x -> fits_s (kbits k) n -> ~ swapped k ->
  plain_is o k x n =
  if chk && oflag o true (sval x) n then Panic else Ok (ofZ (sopz o (sval x) n)).
Proof.
  intros. unfold plain_is. rewrite checked_is_ok, wrapping_is_ok by auto. destruct chk; cbn [negb andb]; auto.
  rewrite unwrap_some_if. unfold ok_if. destruct (oflag _ _ _ _); reflexivity.
Qed.
End P.
