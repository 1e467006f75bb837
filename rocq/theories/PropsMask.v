(** * Properties: the documented reduction of shift amounts (C99)

    int/overflowing.rs 184-188 and 198-202: a shift amount that is too large is
    "masked (N-1) where N is the number of bits".  shared/bitops.rs 196-198 and
    220-222: the wrapping shifts use [mask(rhs)], where "mask removes any
    high-order bits of rhs that would cause the shift to exceed the bitwidth".
    The code takes the remainder by the number of bits. *)

Require Import ZArith List Bool Lia.
From Verif Require Import Prim Spec Facts MCore MArith PCore PArith PWide PBits PBits2 PRet PMisc PApi2 PropsBits.
Import ListNotations.
Local Open Scope Z_scope.

Definition power_of_two (b : Z) : Prop := exists k, 0 <= k /\ b = 2 ^ k.
(** [masked b r]: the amount [r] with the mask of [b] bits.  [stripped r s]: [s]
    is [r] without its bits from some place on. *)
Definition masked (b r : Z) : Z := Z.land r (b - 1).
Definition stripped (r s : Z) : Prop := exists j, 0 <= j /\ forall i, 0 <= i -> Z.testbit s i = Z.testbit r i && (i <? j).

Lemma stripped_mod : forall r s, 0 <= r -> stripped r s <-> exists j, 0 <= j /\ s = r mod 2 ^ j.
Proof.
  intros r s Hr. split; intros (j & Hj & H); exists j; split; auto.
  - apply Z.bits_inj'. intros i Hi. rewrite H, Z.testbit_mod_pow2 by auto. apply andb_comm.
  - intros i Hi. subst s. rewrite Z.testbit_mod_pow2 by auto. apply andb_comm.
Qed.
Lemma masked_pow : forall k r, 0 <= k -> masked (2 ^ k) r = r mod 2 ^ k.
Proof. intros. unfold masked. replace (2 ^ k - 1) with (Z.ones k) by (rewrite Z.ones_equiv; lia). apply Z.land_ones. auto. Qed.

(** The next power of two tells the two apart. *)
Lemma above : forall b, 2 <= b -> ~ power_of_two b -> let p := 2 ^ (Z.log2 b + 1) in
  p mod b = p - b /\ 0 < p - b < b /\ masked b p = 0 /\ 2 * b < 4 * 2 ^ Z.log2 b.
Proof.
  intros b Hb N p. destruct (Z.log2_spec b ltac:(lia)) as (L & U). rewrite Z.pow_succ_r in U by apply Z.log2_nonneg.
  assert (P : p = 2 * 2 ^ Z.log2 b) by (unfold p; rewrite Z.pow_add_r by (try apply Z.log2_nonneg; lia); lia).
  assert (2 ^ Z.log2 b <> b) by (intros E; apply N; exists (Z.log2 b); split; [apply Z.log2_nonneg|auto]).
  split; [symmetry; apply Z.mod_unique with 1; lia|]. split; [lia|]. split; [|lia].
  unfold masked. apply Z.bits_inj'. intros i Hi. rewrite Z.land_spec, Z.bits_0. unfold p.
  rewrite Z.pow2_bits_eqb by (pose proof (Z.log2_nonneg b); lia). destruct (Z.eqb_spec (Z.log2 b + 1) i) as [<-|]; auto.
  cbn [andb]. apply Z.bits_above_log2; [lia|]. pose proof (Z.log2_le_mono (b - 1) b ltac:(lia)). lia.
Qed.

Section C.
Context {c : Cfg} (HV : Valid).

Lemma bits_bound : 256 <= BITS /\ BITS < 2 ^ 31.
Proof. destruct HV as (_ & (k & Hk & E) & H). split; [|exact H]. apply Z.le_trans with (128 * k); [lia|]. rewrite E. apply Z.le_refl. Qed.
Lemma next_fits : ~ power_of_two BITS -> 0 <= 2 ^ (Z.log2 BITS + 1) < 2 ^ 32.
Proof.
  intros N. destruct bits_bound as (H1 & H2). assert (H0 : 0 < BITS) by lia. destruct (Z.log2_spec BITS H0) as (L & U).
  rewrite Z.pow_add_r by (try apply Z.log2_nonneg; lia). change (2 ^ 1) with 2. change (2 ^ 32) with (2 ^ 31 * 2).
  split; [|lia]. pose proof (Z.pow_pos_nonneg 2 (Z.log2 BITS) ltac:(lia) (Z.log2_nonneg _)). lia.
Qed.
Lemma pow2_small : forall m, 0 <= m < BITS -> 0 <= 2 ^ m < 2 ^ BITS.
Proof. intros. split; [apply Z.pow_nonneg; lia|]. apply Z.pow_lt_mono_r; lia. Qed.
Lemma pow_decides : power_of_two BITS \/ ~ power_of_two BITS.
Proof.
  destruct (Z.eq_dec (2 ^ Z.log2 BITS) BITS) as [E|E]; [left; exists (Z.log2 BITS); split; [apply Z.log2_nonneg|auto]|right].
  intros (k & Hk & Ek). apply E. rewrite Ek, Z.log2_pow2 by auto. auto.
Qed.
End C.

(** Removing high-order bits gives the amount the code uses, for every amount,
    exactly when the width is a power of two. *)
Theorem C99_stripped_exact : forall (c : Cfg), Valid ->
  (forall r, fits_u 32 r -> stripped r (r mod BITS)) <-> power_of_two BITS.
Proof.
  intros c HV. split.
  - intros H. destruct (pow_decides (c := c)) as [|N]; auto. exfalso.
    destruct (bits_bound HV) as (B1 & B2). pose proof (next_fits HV N) as F.
    destruct (above BITS (Z.le_trans 2 256 BITS ltac:(discriminate) B1) N) as (E & P & _). specialize (H _ F). rewrite stripped_mod in H by lia.
    destruct H as (j & Hj & H). rewrite E in H. destruct (Z.le_gt_cases j (Z.log2 BITS + 1)) as [L|L].
    + assert (Z0 : 2 ^ (Z.log2 BITS + 1) mod 2 ^ j = 0).
      { replace (Z.log2 BITS + 1) with ((Z.log2 BITS + 1 - j) + j) by lia. rewrite Z.pow_add_r by lia. apply Z.mod_mul. lia. }
      rewrite Z0 in H. lia.
    + rewrite Z.mod_small in H; [lia|]. split; [lia|]. apply Z.pow_lt_mono_r; lia.
  - intros (k & Hk & E) r Hr. rewrite stripped_mod by (destruct Hr; lia). exists k. rewrite <- E. auto.
Qed.

(** The same for the documented mask, on results: signed, unsigned, left, right. *)
Definition shl_masked (c : Cfg) : Prop := forall x r, wf x -> fits_u 32 r ->
  returns_u (wrapping_shl x r) ((uval x * 2 ^ masked BITS r) mod 2 ^ BITS).
Definition shr_masked (c : Cfg) : Prop := forall x r, wf x -> fits_u 32 r ->
  returns_u (wrapping_shr false x r) (uval x / 2 ^ masked BITS r).
Definition sshr_masked (c : Cfg) : Prop := forall x r, wf x -> fits_u 32 r ->
  returns_s (wrapping_shr true x r) (sval x / 2 ^ masked BITS r).
Definition o_shl_masked (c : Cfg) : Prop := forall x r, wf x -> fits_u 32 r ->
  returns_s_flag (s_overflowing_shl x r) (swrap BITS (sval x * 2 ^ masked BITS r)) (BITS <= r).
Definition o_shr_masked (c : Cfg) : Prop := forall x r, wf x -> fits_u 32 r ->
  returns_s_flag (s_overflowing_shr x r) (sval x / 2 ^ masked BITS r) (BITS <= r).

Lemma returned : forall (c : Cfg) m v v', returns_u m v -> returns_u m v' -> v = v'.
Proof. intros c m v v' (r & E & _ & <-) (r' & E' & _ & <-). congruence. Qed.
Lemma returned_s : forall (c : Cfg) m v v', returns_s m v -> returns_s m v' -> v = v'.
Proof. intros c m v v' (r & E & _ & <-) (r' & E' & _ & <-). congruence. Qed.
Lemma returned_flag : forall (c : Cfg) m v v' p p', returns_s_flag m v p -> returns_s_flag m v' p' -> v = v'.
Proof. intros c m v v' p p' (r & f & E & _ & <- & _) (r' & f' & E' & _ & <- & _). congruence. Qed.

Lemma small_fits : forall (c : Cfg) v, Valid -> 0 <= v <= 2 -> fits_s BITS v /\ uval (ofZ v) = v /\ sval (ofZ v) = v.
Proof.
  intros c v HV Hv. destruct (bits_bound HV) as (B1 & B2).
  assert (B : 2 ^ 2 <= 2 ^ (BITS - 1)) by (apply Z.pow_le_mono_r; lia).
  assert (B' : 2 ^ 2 <= 2 ^ BITS) by (apply Z.pow_le_mono_r; lia). change (2 ^ 2) with 4 in *.
  assert (F : fits_s BITS v) by (unfold fits_s; lia). split; auto. split.
  - rewrite (uval_ofZ HV). apply Z.mod_small. lia.
  - apply (sval_ofZ_fits HV). auto.
Qed.
Lemma not_small : forall m, 0 < m -> 2 / 2 ^ m <> 2.
Proof.
  intros m Hm E. assert (2 ^ 1 <= 2 ^ m) by (apply Z.pow_le_mono_r; lia). change (2 ^ 1) with 2 in *.
  assert (2 / 2 ^ m < 2) by (apply Z.div_lt; lia). lia.
Qed.
Lemma two_pow_small : forall (c : Cfg) m, Valid -> 0 < m < BITS -> (1 * 2 ^ m) mod 2 ^ BITS <> (1 * 2 ^ 0) mod 2 ^ BITS.
Proof.
  intros c m HV Hm. rewrite !Z.mul_1_l. rewrite !Z.mod_small by (apply pow2_small; lia). change (2 ^ 0) with 1.
  assert (2 ^ 1 <= 2 ^ m) by (apply Z.pow_le_mono_r; lia). change (2 ^ 1) with 2 in *. lia.
Qed.
Lemma swrap_mod : forall b v v', 0 <= b -> swrap b v = swrap b v' -> v mod 2 ^ b = v' mod 2 ^ b.
Proof.
  intros b v v' Hb E. unfold swrap in E. assert (E' : (v + 2 ^ (b - 1)) mod 2 ^ b = (v' + 2 ^ (b - 1)) mod 2 ^ b) by lia.
  replace v with (v + 2 ^ (b - 1) - 2 ^ (b - 1)) by lia. rewrite Zminus_mod, E', <- Zminus_mod. f_equal. lia.
Qed.

Lemma o_shl : forall (c : Cfg) x r, Valid -> wf x -> fits_u 32 r ->
  returns_s_flag (s_overflowing_shl x r) (swrap BITS (sval x * 2 ^ (r mod BITS))) (BITS <= r).
Proof.
  intros c x r HV Hx Hr. destruct (C15_wrapping_shl c x r HV Hx Hr) as (_ & s & E & Ws & Vs).
  exists s, (BITS <=? r). rewrite (s_overflowing_shl_ok HV) by auto. rewrite (wrapping_shl_ok HV) in E by auto.
  split; [congruence|]. split; auto. split; auto. apply Z.leb_le.
Qed.

Theorem C99_mask_exact : forall (c : Cfg), Valid ->
  (shl_masked c <-> power_of_two BITS) /\ (shr_masked c <-> power_of_two BITS) /\ (sshr_masked c <-> power_of_two BITS) /\
  (o_shl_masked c <-> power_of_two BITS) /\ (o_shr_masked c <-> power_of_two BITS).
Proof.
  intros c HV. destruct (bits_bound HV) as (B1 & B2).
  assert (G : forall Q : Prop, (power_of_two BITS -> (forall r, fits_u 32 r -> masked BITS r = r mod BITS) -> Q) ->
    (~ power_of_two BITS -> let p := 2 ^ (Z.log2 BITS + 1) in fits_u 32 p -> masked BITS p = 0 -> 0 < p mod BITS < BITS -> ~ Q) ->
    (Q <-> power_of_two BITS)).
  { intros Q H1 H2. split.
    - intros HQ. destruct (pow_decides (c := c)) as [|N]; auto. exfalso. destruct (above BITS (Z.le_trans 2 256 BITS ltac:(discriminate) B1) N) as (E & P & M & _).
      pose proof (next_fits HV N) as F. apply (H2 N F M); auto. rewrite E. auto.
    - intros HP. apply H1; auto. destruct HP as (k & Hk & E). intros r _. rewrite E. apply masked_pow. auto. }
  destruct (small_fits c 1 HV ltac:(lia)) as (_ & U1 & S1). destruct (small_fits c 2 HV ltac:(lia)) as (_ & U2 & S2).
  split; [|split; [|split; [|split]]]; apply G.
  - intros _ E x r Hx Hr. rewrite E by auto. apply (C15_wrapping_shl c); auto.
  - intros N p F M P H. specialize (H _ p (wf_ofZ HV 1) F). rewrite U1, M in H.
    destruct (C15_wrapping_shl c _ p HV (wf_ofZ HV 1) F) as (R & _). rewrite U1 in R. apply (two_pow_small c _ HV P).
    eapply returned; eauto.
  - intros _ E x r Hx Hr. rewrite E by auto. apply (C16_wrapping_shr_u c); auto.
  - intros N p F M P H. specialize (H _ p (wf_ofZ HV 2) F). rewrite U2, M in H.
    pose proof (C16_wrapping_shr_u c _ p HV (wf_ofZ HV 2) F) as R. rewrite U2 in R. apply (not_small (p mod BITS)); [lia|].
    rewrite <- (Z.div_1_r 2) at 3. eapply returned; eauto.
  - intros _ E x r Hx Hr. rewrite E by auto. apply (C16_wrapping_shr_s c); auto.
  - intros N p F M P H. specialize (H _ p (wf_ofZ HV 2) F). rewrite S2, M in H.
    pose proof (C16_wrapping_shr_s c _ p HV (wf_ofZ HV 2) F) as R. rewrite S2 in R. apply (not_small (p mod BITS)); [lia|].
    rewrite <- (Z.div_1_r 2) at 3. eapply returned_s; eauto.
  - intros _ E x r Hx Hr. rewrite E by auto. apply o_shl; auto.
  - intros N p F M P H. specialize (H _ p (wf_ofZ HV 1) F). rewrite S1, M in H.
    pose proof (o_shl c _ p HV (wf_ofZ HV 1) F) as R. rewrite S1 in R. apply (two_pow_small c _ HV P).
    apply swrap_mod; [lia|]. eapply returned_flag; eauto.
  - intros _ E x r Hx Hr. rewrite E by auto. apply (C16_overflowing_shr c); auto.
  - intros N p F M P H. specialize (H _ p (wf_ofZ HV 2) F). rewrite S2, M in H.
    pose proof (C16_overflowing_shr c _ p HV (wf_ofZ HV 2) F) as R. rewrite S2 in R. apply (not_small (p mod BITS)); [lia|].
    rewrite <- (Z.div_1_r 2) at 3. eapply returned_flag; eauto.
Qed.

(** So the documentation is right for the widths 256, 512 and 1024. *)
Theorem C99_widths : forall (c : Cfg), Valid -> BITS = 256 \/ BITS = 512 \/ BITS = 1024 ->
  shl_masked c /\ shr_masked c /\ sshr_masked c /\ o_shl_masked c /\ o_shr_masked c.
Proof.
  intros c HV HB. destruct (C99_mask_exact c HV) as (A & B & C & D & E).
  assert (P : power_of_two BITS) by (destruct HB as [->|[->| ->]]; [exists 8|exists 9|exists 10]; split; lia || reflexivity).
  repeat split; try (apply A; auto); try (apply B; auto); try (apply C; auto); try (apply D; auto); try (apply E; auto).
Qed.
(** And wrong for 384: one shifted by 512. *)
Theorem C99_mask_refuted : exists c x r, Valid (c := c) /\ wf (c := c) x /\ fits_u 32 r /\
  ~ returns_u (c := c) (wrapping_shl (c := c) x r) ((uval (c := c) x * 2 ^ masked 384 r) mod 2 ^ 384) /\
  ~ stripped r (r mod 384).
Proof.
  exists c384_64, [1; 0; 0; 0; 0; 0], 512. split; [repeat split; [right; reflexivity|exists 3; split; lia || reflexivity]|].
  split; [split; [reflexivity|repeat constructor; cbn; lia]|]. split; [unfold fits_u; lia|]. split.
  - intros (r & E & _ & V). assert (E' : wrapping_shl (c := c384_64) [1; 0; 0; 0; 0; 0] 512 = Ok [0; 0; 1; 0; 0; 0]) by (vm_compute; reflexivity).
    rewrite E' in E. injection E as <-. vm_compute in V. discriminate.
  - rewrite stripped_mod by lia. intros (j & Hj & H). change (512 mod 384) with 128 in H.
    destruct (Z.le_gt_cases j 9) as [L|L].
    + change 512 with (2 ^ 9) in H. replace 9 with ((9 - j) + j) in H by lia. rewrite Z.pow_add_r, Z.mod_mul in H by lia. lia.
    + rewrite Z.mod_small in H; [lia|]. split; [lia|]. change 512 with (2 ^ 9). apply Z.pow_lt_mono_r; lia.
Qed.
Example C99_ex : masked 256 300 = 44 /\ 300 mod 256 = 44 /\ masked 384 512 = 0 /\ 512 mod 384 = 128 /\
  wrapping_shl (c := c384_64) [1; 0; 0; 0; 0; 0] 512 = Ok [0; 0; 1; 0; 0; 0] /\
  s_overflowing_shl (c := c256_64) [5; 0; 0; 0] 300 = Ok ([5 * 2 ^ 44; 0; 0; 0], true).
Proof. vm_compute. repeat split. Qed.

(** ** Assumptions (each must print "Closed under the global context") *)

Print Assumptions C99_stripped_exact.
Print Assumptions C99_mask_exact.
Print Assumptions C99_widths.
Print Assumptions C99_mask_refuted.
