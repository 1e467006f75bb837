(** * Properties: memory layout and byte order (C20, C22, C23, C54)

    [be] is the target's byte order, [true] for big endian.  A value is its
    [limbs] array [m] in memory; [ord be m] lists the limbs least significant
    first (a big-endian target stores the most significant one first). *)

Require Import ZArith List Bool Lia.
From Verif Require Import Prim Spec Facts MShift MCore PCore PBits PWide PRet MScalar PScalar MLayout PLayout PLayout2.
Import ListNotations.
Local Open Scope Z_scope.

Section Spec.
Context {c : Cfg}.
(** [m] is a stored value denoting [v]. *)
Definition stores (be : bool) (m : list Z) (v : Z) : Prop := wf (ord be m) /\ uval (ord be m) = v.

(** [f] turns a stored value into the array of its base [2^w] digits, the most
    significant digit first if [be'], otherwise last. *)
Definition digits_out (be be' : bool) (w : Z) (f : list Z -> res (list Z)) : Prop :=
  forall m, wf (ord be m) ->
  exists l, f m = Ok l /\ w * Z.of_nat (length l) = BITS /\ digits w l /\
            lval w (ord be' l) = uval (ord be m).
(** [f] turns such an array into the stored value. *)
Definition digits_in (be be' : bool) (w : Z) (f : list Z -> res (list Z)) : Prop :=
  forall l, w * Z.of_nat (length l) = BITS -> digits w l ->
  exists m, f l = Ok m /\ stores be m (lval w (ord be' l)).
Definition byte (v i : Z) : Z := v / 2 ^ (8 * i) mod 256.
End Spec.

Section Helpers.
Context {c : Cfg}.
Hypothesis HV : Valid.
Lemma out_of : forall be be' w n f, 0 <= w -> w * Z.of_nat n = BITS ->
  (forall x, wf x -> f (ord be x) = Ok (ord be' (lenc w n (uval x)))) -> digits_out be be' w f.
Proof.
  intros be be' w n f Hw Hn H m Hm. exists (ord be' (lenc w n (uval (ord be m)))).
  split; [rewrite <- H by auto; rewrite ord_ord; auto|].
  split; [rewrite length_ord, length_lenc; auto|].
  split; [apply digits_ord, digits_lenc; auto|].
  rewrite ord_ord, lval_lenc, Hn by auto. apply Z.mod_small. apply (uval_range HV); auto.
Qed.
Lemma in_of : forall be be' w n f, 0 < w -> w * Z.of_nat n = BITS ->
  (forall l, digits w l -> length l = n -> f (ord be' l) = Ok (ord be (ofZ (lval w l)))) -> digits_in be be' w f.
Proof.
  intros be be' w n f Hw Hn H l HL D.
  assert (E : length l = n) by nia.
  exists (ord be (ofZ (lval w (ord be' l)))).
  rewrite <- H by (rewrite ?length_ord; auto using digits_ord). rewrite ord_ord. split; auto.
  unfold stores. rewrite ord_ord. split; [apply (wf_ofZ HV)|]. rewrite (uval_ofZ HV). apply Z.mod_small.
  rewrite <- Hn, <- E, <- (length_ord be' l). apply lval_range; [lia|]. apply digits_ord; auto.
Qed.
Lemma bytes_bits : 8 * Z.of_nat BYTES = BITS. Proof. exact (B8 HV). Qed.
Lemma words_bits : forall k n, BYTES = (n * k)%nat -> w8 k * Z.of_nat n = BITS.
Proof. intros k n H. rewrite <- bytes_bits, H. unfold w8. lia. Qed.
Lemma ofZ_lval : forall x, wf x -> ofZ (lval W x) = x.
Proof. intros x Hx. apply (ofZ_uval HV); auto. Qed.
Lemma lenc_uval : forall x, wf x -> lenc W N (uval x) = x.
Proof. intros x Hx. apply (ofZ_uval HV); auto. Qed.
End Helpers.

(** ** C20: byte and bit reversal *)

Theorem C20_swap_bytes : forall (c : Cfg) be m, Valid -> wf (ord be m) ->
  exists r, mem_swap_bytes m = Ok r /\ wf (ord be r) /\
    forall i, 0 <= i < BITS / 8 -> byte (uval (ord be r)) i = byte (uval (ord be m)) (BITS / 8 - 1 - i).
Proof.
  intros c be m HV Hm. exists (ord be (ofZ (swapz (uval (ord be m))))).
  rewrite <- (swap_bytes_ok HV) by auto. rewrite !ord_ord. split; auto. split; [apply (wf_ofZ HV)|].
  rewrite (uval_ofZ HV), <- (B8 HV). unfold swapz.
  rewrite Z.mod_small by (apply revz_range; lia). rewrite (Z.mul_comm 8), Z.div_mul by lia.
  intros i Hi. unfold byte. change 256 with (2 ^ 8).
  pose proof (revz_digit 8 BYTES (uval (ord be m)) (Z.to_nat i) ltac:(lia) ltac:(lia)) as E.
  rewrite Nat2Z.inj_sub, Nat2Z.inj_sub, Z2Nat.id in E by lia. exact E.
Qed.
Theorem C20_swap_bytes_twice : forall (c : Cfg) be m, Valid -> wf (ord be m) ->
  exists r, mem_swap_bytes m = Ok r /\ mem_swap_bytes r = Ok m.
Proof.
  intros c be m HV Hm. exists (ord be (ofZ (swapz (uval (ord be m))))).
  rewrite <- (swap_bytes_ok HV) by auto. rewrite ord_ord. split; auto.
  rewrite (swap_bytes_ok HV) by apply (wf_ofZ HV). rewrite (uval_ofZ HV), <- (B8 HV). unfold swapz.
  rewrite Z.mod_small by (apply revz_range; lia). rewrite revz_revz by lia. rewrite (B8 HV), (ofZ_mod HV).
  rewrite (ofZ_uval HV), ord_ord by auto. reflexivity.
Qed.
Theorem C20_reverse_bits : forall (c : Cfg) be m, Valid -> wf (ord be m) ->
  exists r, mem_reverse_bits m = Ok r /\ wf (ord be r) /\
    forall i, 0 <= i < BITS -> Z.testbit (uval (ord be r)) i = Z.testbit (uval (ord be m)) (BITS - 1 - i).
Proof.
  intros c be m HV Hm. exists (ord be (ofZ (revbz (uval (ord be m))))).
  rewrite <- (reverse_bits_ok HV) by auto. rewrite !ord_ord. split; auto. split; [apply (wf_ofZ HV)|].
  pose proof (BITS_pos HV).
  rewrite (uval_ofZ HV). unfold revbz. rewrite Z.mod_small
    by (pose proof (revz_range 1 (Z.to_nat BITS) (uval (ord be m)) ltac:(lia)) as R; rewrite Z.mul_1_l, Z2Nat.id in R by lia; exact R).
  intros i Hi.
  pose proof (revz_digit 1 (Z.to_nat BITS) (uval (ord be m)) (Z.to_nat i) ltac:(lia) ltac:(lia)) as E.
  rewrite Nat2Z.inj_sub, Nat2Z.inj_sub, !Z2Nat.id, !Z.mul_1_l in E by lia. change (2 ^ 1) with 2 in E.
  change (Z.of_nat 1) with 1 in E.
  rewrite <- !Z.testbit_spec' in E by lia. apply Z.b2z_inj in E. exact E.
Qed.
Theorem C20_reverse_bits_twice : forall (c : Cfg) be m, Valid -> wf (ord be m) ->
  exists r, mem_reverse_bits m = Ok r /\ mem_reverse_bits r = Ok m.
Proof.
  intros c be m HV Hm. exists (ord be (ofZ (revbz (uval (ord be m))))).
  rewrite <- (reverse_bits_ok HV) by auto. rewrite ord_ord. split; auto.
  pose proof (BITS_pos HV).
  rewrite (reverse_bits_ok HV) by apply (wf_ofZ HV). rewrite (uval_ofZ HV). unfold revbz.
  rewrite Z.mod_small
    by (pose proof (revz_range 1 (Z.to_nat BITS) (uval (ord be m)) ltac:(lia)) as R; rewrite Z.mul_1_l, Z2Nat.id in R by lia; exact R).
  rewrite revz_revz by lia. rewrite Z.mul_1_l, Z2Nat.id, (ofZ_mod HV) by lia.
  rewrite (ofZ_uval HV), ord_ord by auto. reflexivity.
Qed.
(** [to_be] ([to_le]) gives the value whose bytes in memory are the big- (little-)
    endian representation of the operand, and [from_be] ([from_le]) undoes it. *)
Theorem C20_to_be : forall (c : Cfg) be m, Valid -> wf (ord be m) ->
  exists r, to_be be m = Ok r /\ wf (ord be r) /\ from_be be r = Ok m /\
    lval 8 (rev (transmute_to_bytes be limb_bytes r)) = uval (ord be m).
Proof.
  intros c be m HV Hm. pose proof (to_be_bytes_ok HV be (ord be m) Hm) as E. rewrite ord_ord in E.
  unfold to_be_bytes, to_ne_bytes in E. unfold to_be, from_be in *. destruct be; cbn [bind] in E.
  - exists m. inversion E as [E']. rewrite E', rev_involutive, lval_lenc, (B8 HV) by lia. repeat split; auto; try apply Hm.
    apply Z.mod_small. apply (uval_range HV); auto.
  - destruct (C20_swap_bytes c false m HV Hm) as (r & E1 & E2 & _).
    destruct (C20_swap_bytes_twice c false m HV Hm) as (r' & E3 & E4).
    rewrite E1 in E3. inversion E3; subst r'. exists r. rewrite E1 in E. cbn [bind] in E. inversion E as [E'].
    rewrite E', rev_involutive, lval_lenc, (B8 HV) by lia. repeat split; auto; try apply E2.
    apply Z.mod_small. apply (uval_range HV); auto.
Qed.
Theorem C20_to_le : forall (c : Cfg) be m, Valid -> wf (ord be m) ->
  exists r, to_le be m = Ok r /\ wf (ord be r) /\ from_le be r = Ok m /\
    lval 8 (transmute_to_bytes be limb_bytes r) = uval (ord be m).
Proof.
  intros c be m HV Hm. pose proof (to_le_bytes_ok HV be (ord be m) Hm) as E. rewrite ord_ord in E.
  unfold to_le_bytes, to_ne_bytes in E. unfold to_le, from_le in *. destruct be; cbn [bind negb] in *.
  - destruct (C20_swap_bytes c true m HV Hm) as (r & E1 & E2 & _).
    destruct (C20_swap_bytes_twice c true m HV Hm) as (r' & E3 & E4).
    rewrite E1 in E3. inversion E3; subst r'. exists r. rewrite E1 in E. cbn [bind] in E. inversion E as [E'].
    rewrite E', lval_lenc, (B8 HV) by lia. repeat split; auto; try apply E2.
    apply Z.mod_small. apply (uval_range HV); auto.
  - exists m. inversion E as [E']. rewrite E', lval_lenc, (B8 HV) by lia. repeat split; auto; try apply Hm.
    apply Z.mod_small. apply (uval_range HV); auto.
Qed.

(** ** C22: byte arrays *)

Theorem C22_to_bytes : forall (c : Cfg) be, Valid ->
  digits_out be false 8 (to_le_bytes be) /\ digits_out be true 8 (to_be_bytes be) /\
  digits_out be be 8 (to_ne_bytes be).
Proof.
  intros c be HV. split; [|split]; apply (out_of HV _ _ _ BYTES); try lia; try apply (bytes_bits HV); intros x Hx.
  - exact (to_le_bytes_ok HV be x Hx).
  - exact (to_be_bytes_ok HV be x Hx).
  - exact (to_ne_bytes_ok HV be x Hx).
Qed.
Theorem C22_from_bytes : forall (c : Cfg) be, Valid ->
  digits_in be false 8 (from_le_bytes be) /\ digits_in be true 8 (from_be_bytes be) /\
  digits_in be be 8 (from_ne_bytes be).
Proof.
  intros c be HV. split; [|split]; apply (in_of HV _ _ _ BYTES); try lia; try apply (bytes_bits HV); intros l D HL.
  - exact (from_le_bytes_ok HV be l D HL).
  - exact (from_be_bytes_ok HV be l D HL).
  - exact (from_ne_bytes_ok HV be l D HL).
Qed.

(** Any pair of conversions of the two kinds, of the same order, is inverse. *)
Lemma in_out : forall (c : Cfg) be be' w f g, Valid -> 0 <= w -> digits_out be be' w f -> digits_in be be' w g ->
  (forall m, wf (ord be m) -> exists l, f m = Ok l /\ g l = Ok m) /\
  (forall l, w * Z.of_nat (length l) = BITS -> digits w l -> exists m, g l = Ok m /\ f m = Ok l).
Proof.
  intros c be be' w f g HV Hw Ho Hi. split.
  - intros m Hm. destruct (Ho m Hm) as (l & E1 & E2 & E3 & E4). destruct (Hi l E2 E3) as (m' & F1 & F2 & F3).
    exists l. split; auto. rewrite F1. f_equal. rewrite E4 in F3. apply (uval_inj HV) in F3; auto.
    rewrite <- (ord_ord be m'), F3, ord_ord. reflexivity.
  - intros l E2 E3. destruct (Hi l E2 E3) as (m & F1 & F2 & F3). destruct (Ho m F2) as (l' & E1 & G2 & G3 & G4).
    exists m. split; auto. rewrite E1. f_equal. rewrite <- (ord_ord be' l'), <- (ord_ord be' l). f_equal.
    rewrite F3 in G4. apply (lval_inj w) in G4; auto using digits_ord.
    rewrite !length_ord. pose proof (BITS_pos HV). nia.
Qed.
Theorem C22_roundtrip : forall (c : Cfg) be m, Valid -> wf (ord be m) ->
  (exists b, to_le_bytes be m = Ok b /\ from_le_bytes be b = Ok m) /\
  (exists b, to_be_bytes be m = Ok b /\ from_be_bytes be b = Ok m) /\
  (exists b, to_ne_bytes be m = Ok b /\ from_ne_bytes be b = Ok m).
Proof.
  intros c be m HV Hm. destruct (C22_to_bytes c be HV) as (A1 & A2 & A3).
  destruct (C22_from_bytes c be HV) as (B1 & B2 & B3).
  split; [|split].
  - apply (proj1 (in_out c be _ 8 _ _ HV ltac:(lia) A1 B1)); auto.
  - apply (proj1 (in_out c be _ 8 _ _ HV ltac:(lia) A2 B2)); auto.
  - apply (proj1 (in_out c be _ 8 _ _ HV ltac:(lia) A3 B3)); auto.
Qed.
Theorem C22_roundtrip_bytes : forall (c : Cfg) be b, Valid -> 8 * Z.of_nat (length b) = BITS -> digits 8 b ->
  (exists m, from_le_bytes be b = Ok m /\ to_le_bytes be m = Ok b) /\
  (exists m, from_be_bytes be b = Ok m /\ to_be_bytes be m = Ok b) /\
  (exists m, from_ne_bytes be b = Ok m /\ to_ne_bytes be m = Ok b).
Proof.
  intros c be b HV HL D. destruct (C22_to_bytes c be HV) as (A1 & A2 & A3).
  destruct (C22_from_bytes c be HV) as (B1 & B2 & B3).
  split; [|split].
  - apply (proj2 (in_out c be _ 8 _ _ HV ltac:(lia) A1 B1)); auto.
  - apply (proj2 (in_out c be _ 8 _ _ HV ltac:(lia) A2 B2)); auto.
  - apply (proj2 (in_out c be _ 8 _ _ HV ltac:(lia) A3 B3)); auto.
Qed.
(** The same for the signed reading of the value. *)
Theorem C22_signed : forall (c : Cfg) be m, Valid -> wf (ord be m) ->
  exists b, to_le_bytes be m = Ok b /\ swrap BITS (lval 8 b) = sval (ord be m).
Proof.
  intros c be m HV Hm. destruct (C22_to_bytes c be HV) as (A1 & _). destruct (A1 m Hm) as (b & E & _ & _ & V).
  exists b. split; auto. cbn [ord] in V. rewrite V, (sval_swrap HV) by auto. reflexivity.
Qed.
Theorem C22_from_signed : forall (c : Cfg) be b, Valid -> 8 * Z.of_nat (length b) = BITS -> digits 8 b ->
  exists m, from_le_bytes be b = Ok m /\ wf (ord be m) /\ sval (ord be m) = swrap BITS (lval 8 b).
Proof.
  intros c be b HV HL D. destruct (C22_from_bytes c be HV) as (A1 & _). destruct (A1 b HL D) as (m & E & Hm & V).
  exists m. split; auto. split; auto. rewrite (sval_swrap HV), V by auto. reflexivity.
Qed.

(** ** C23: word arrays *)

Theorem C23_limbs : forall (c : Cfg) be, Valid ->
  (digits_out be false W (to_le_limbs be) /\ digits_out be true W (to_be_limbs be) /\
   digits_out be be W to_ne_limbs) /\
  (digits_in be false W (from_le_limbs be) /\ digits_in be true W (from_be_limbs be) /\
   digits_in be be W from_ne_limbs).
Proof.
  intros c be HV. pose proof (W_pos HV).
  split; (split; [|split]);
    [apply (out_of HV _ _ _ N)|apply (out_of HV _ _ _ N)|apply (out_of HV _ _ _ N)
    |apply (in_of HV _ _ _ N)|apply (in_of HV _ _ _ N)|apply (in_of HV _ _ _ N)];
    try lia; try apply BITS_alt.
  - intros x Hx. rewrite (lenc_uval HV) by auto. apply to_le_limbs_ok.
  - intros x Hx. rewrite (lenc_uval HV) by auto. apply to_be_limbs_ok.
  - intros x Hx. rewrite (lenc_uval HV) by auto. reflexivity.
  - intros l D HL. rewrite (ofZ_lval HV) by (split; auto). apply (from_le_limbs_ok HV).
  - intros l D HL. rewrite (ofZ_lval HV) by (split; auto). apply (from_be_limbs_ok HV).
  - intros l D HL. rewrite (ofZ_lval HV) by (split; auto). apply (from_ne_limbs_ok HV).
Qed.
Lemma words_ok : forall (c : Cfg) be k n, Valid -> BYTES = (n * k)%nat ->
  (digits_out be false (w8 k) (to_le_words be k n) /\ digits_out be true (w8 k) (to_be_words be k n) /\
   digits_out be be (w8 k) (to_ne_words be k n)) /\
  (digits_in be false (w8 k) (from_le_words be k) /\ digits_in be true (w8 k) (from_be_words be k) /\
   digits_in be be (w8 k) (from_ne_words be k)).
Proof.
  intros c be k n HV Hkn. pose proof (words_bits HV k n Hkn) as Hw. pose proof (BITS_pos HV).
  assert (0 < w8 k) by (unfold w8 in *; nia).
  split; (split; [|split]);
    [apply (out_of HV _ _ _ n)|apply (out_of HV _ _ _ n)|apply (out_of HV _ _ _ n)
    |apply (in_of HV _ _ _ n)|apply (in_of HV _ _ _ n)|apply (in_of HV _ _ _ n)];
    try lia; auto.
  - intros x Hx. exact (to_le_words_ok HV k n Hkn be x Hx).
  - intros x Hx. exact (to_be_words_ok HV k n Hkn be x Hx).
  - intros x Hx. exact (to_ne_words_ok HV k n Hkn be x Hx).
  - intros l D HL. exact (from_le_words_ok HV k n Hkn be l D HL).
  - intros l D HL. exact (from_be_words_ok HV k n Hkn be l D HL).
  - intros l D HL. exact (from_ne_words_ok HV k n Hkn be l D HL).
Qed.
Theorem C23_wide : forall (c : Cfg) be, Valid ->
  (digits_out be false (2 * W) (to_le_wide be) /\ digits_out be true (2 * W) (to_be_wide be) /\
   digits_out be be (2 * W) (to_ne_wide be)) /\
  (digits_in be false (2 * W) (from_le_wide be) /\ digits_in be true (2 * W) (from_be_wide be) /\
   digits_in be be (2 * W) (from_ne_wide be)).
Proof. intros c be HV. pose proof (words_ok c be _ _ HV (wide_len HV)) as H. rewrite (w8_wide HV) in H. exact H. Qed.
Theorem C23_u32 : forall (c : Cfg) be, Valid ->
  (digits_out be false 32 (to_le_u32 be) /\ digits_out be true 32 (to_be_u32 be) /\ digits_out be be 32 (to_ne_u32 be)) /\
  (digits_in be false 32 (from_le_u32 be) /\ digits_in be true 32 (from_be_u32 be) /\ digits_in be be 32 (from_ne_u32 be)).
Proof. intros c be HV. exact (words_ok c be _ _ HV (u32_len HV)). Qed.
Theorem C23_u64 : forall (c : Cfg) be, Valid ->
  (digits_out be false 64 (to_le_u64 be) /\ digits_out be true 64 (to_be_u64 be) /\ digits_out be be 64 (to_ne_u64 be)) /\
  (digits_in be false 64 (from_le_u64 be) /\ digits_in be true 64 (from_be_u64 be) /\ digits_in be be 64 (from_ne_u64 be)).
Proof. intros c be HV. exact (words_ok c be _ _ HV (u64_len HV)). Qed.
(** each [to]/[from] pair of the same order is a pair of inverses *)
Theorem C23_roundtrip : forall (c : Cfg) be be' w f g, Valid -> 0 <= w ->
  digits_out be be' w f -> digits_in be be' w g ->
  (forall m, wf (ord be m) -> exists l, f m = Ok l /\ g l = Ok m) /\
  (forall l, w * Z.of_nat (length l) = BITS -> digits w l -> exists m, g l = Ok m /\ f m = Ok l).
Proof. exact in_out. Qed.
(** a conversion of the wrong order gives the reversed digits *)
Theorem C23_order : forall (c : Cfg) be w f g m l l', Valid -> 0 < w -> wf (ord be m) ->
  digits_out be false w f -> digits_out be true w g -> f m = Ok l -> g m = Ok l' -> l' = rev l.
Proof.
  intros c be w f g m l l' HV Hw Hm Hf Hg E E'.
  destruct (Hf m Hm) as (a & A1 & A2 & A3 & A4). destruct (Hg m Hm) as (b & B1 & B2 & B3 & B4).
  rewrite E in A1. inversion A1; subst a. rewrite E' in B1. inversion B1; subst b.
  rewrite <- (rev_involutive l'). f_equal. apply (lval_inj w); auto using digits_rev; try lia.
  - rewrite rev_length. nia.
  - cbn [ord] in *. congruence.
Qed.

(** ** C54: the code that works on the limbs does not depend on the byte order *)

(** reading and writing through [ne_index!] (util.rs 20-28) *)
Theorem C54_read : forall be l i, ne_get be (ord be l) i = get l i.
Proof. exact ne_get_ok. Qed.
Theorem C54_write : forall be l i v, ne_set be (ord be l) i v = (let* r := set l i v in Ok (ord be r)).
Proof. exact ne_set_ok. Qed.
Lemma nth_to_wide : forall (c : Cfg) n x i, length x = (2 * n)%nat -> (i < n)%nat ->
  nth i (to_wide x) 0 = nth (2 * i) x 0 + 2 ^ W * nth (2 * i + 1) x 0.
Proof.
  intros c n. induction n; intros x i L Hi; [lia|]. destruct x as [|a [|b x]]; try (cbn in L; lia).
  destruct i; cbn [to_wide nth].
  - reflexivity.
  - rewrite IHn by (cbn in L; lia). replace (2 * S i)%nat with (S (S (2 * i)))%nat by lia.
    replace (S (S (2 * i)) + 1)%nat with (S (S (2 * i + 1))) by lia. reflexivity.
Qed.
Theorem C54_get_wide : forall (c : Cfg) be m i, Valid -> wf (ord be m) ->
  (Z.of_nat i * (2 * W) < BITS ->
     mem_get_wide be m i = Ok (uval (ord be m) / 2 ^ (2 * W * Z.of_nat i) mod 2 ^ (2 * W))) /\
  (BITS <= Z.of_nat i * (2 * W) -> mem_get_wide be m i = Panic).
Proof.
  intros c be m i HV Hm. rewrite <- (ord_ord be m) at 1 3. rewrite !(mem_get_wide_ok HV) by auto.
  pose proof (N_wide HV) as HN. pose proof (W_pos HV). pose proof (BITS_alt (c := c)). unfold get_wide.
  destruct (Nat.ltb_spec i WIDE) as [Hi|Hi]; cbn [assert_ bind]; split; intros Hb; try nia; auto.
  pose proof (to_wide_lenc HV _ Hm) as E. destruct Hm as [HL D].
  rewrite !get_ok by lia. cbn [bind]. f_equal. rewrite <- (nth_lenc (2 * W) WIDE) by lia. rewrite <- E.
  symmetry. apply (nth_to_wide c WIDE); lia.
Qed.
Theorem C54_get_limb : forall (c : Cfg) be m i, Valid -> wf (ord be m) -> (i < N)%nat ->
  mem_get_limb be m i = Ok (uval (ord be m) / 2 ^ (W * Z.of_nat i) mod 2 ^ W).
Proof.
  intros c be m i HV Hm Hi. unfold mem_get_limb. rewrite <- (ord_ord be m) at 1. rewrite ne_get_ok.
  pose proof Hm as [HL D]. rewrite get_ok by lia. f_equal. rewrite <- (lenc_uval HV _ Hm) at 1.
  apply nth_lenc; auto. apply (W_nonneg HV).
Qed.
(** the operations that index the array directly (bitops.rs 17-26, 109-160) *)
Theorem C54_count_ones : forall (c : Cfg) be x, Valid -> wf x -> count_ones (ord be x) = count_ones x.
Proof. intros c be x HV Hx. exact (mem_count_ones HV be x Hx). Qed.
Theorem C54_not : forall (c : Cfg) be x, Valid -> wf x ->
  not_const (ord be x) = (let* r := not_const x in Ok (ord be r)).
Proof. intros c be x HV Hx. exact (mem_not HV be x Hx). Qed.
Theorem C54_bitwise : forall (c : Cfg) be op x y, Valid -> wf x -> wf y ->
  bitwise op (ord be x) (ord be y) = (let* r := bitwise op x y in Ok (ord be r)).
Proof. intros c be op x y HV Hx Hy. exact (mem_bitwise HV be op x y Hx Hy). Qed.
(** the reinterpretation as double limbs, used by shifts and rotations *)
Theorem C54_to_wide : forall (c : Cfg) be x, Valid -> wf x -> to_ne_wide be (ord be x) = Ok (ord be (to_wide x)).
Proof. intros c be x HV Hx. exact (mem_to_wide HV be x Hx). Qed.
Theorem C54_from_wide : forall (c : Cfg) be l, Valid -> digits (2 * W) l -> length l = WIDE ->
  from_ne_wide be (ord be l) = Ok (ord be (from_wide l)).
Proof. intros c be l HV D HL. exact (mem_from_wide HV be l D HL). Qed.
(** the splitting of a [u128] into limbs (util.rs 101-107) *)
Theorem C54_u128_to_limb : forall (c : Cfg) be v, Valid -> fits_u 128 v ->
  mem_u128_to_limb be v = (let* l := u128_to_limb v in Ok (ord be l)).
Proof. intros c be v HV Hv. exact (mem_u128_ok be v Hv). Qed.

(** ** Examples *)
Definition X64 : list Z := [0x0102030405060708; 0x1112131415161718; 0x2122232425262728; 0x3132333435363738].
Example C20_ex1 : @mem_swap_bytes c256_64 X64 =
  Ok [0x3837363534333231; 0x2827262524232221; 0x1817161514131211; 0x0807060504030201].
Proof. vm_compute. auto. Qed.
Example C20_ex2 : @mem_reverse_bits c256_64 [1; 0; 0; 2 ^ 62] = Ok [2; 0; 0; 2 ^ 63].
Proof. vm_compute. auto. Qed.
Example C20_ex3 : @to_be c256_64 true X64 = Ok X64 /\ @to_be c256_64 false X64 = @mem_swap_bytes c256_64 X64.
Proof. vm_compute. auto. Qed.
Example C20_ex4 : Valid (c := c256_64) /\ wf (c := c256_64) (ord true X64) /\ wf (c := c256_64) (ord false X64).
Proof.
  split; [exact valid_c256_64|]. split; (split; [reflexivity|]); repeat constructor; cbn; lia.
Qed.
Example C22_ex1 : @to_le_bytes c256_64 true (rev X64) = @to_le_bytes c256_64 false X64 /\
  @to_be_bytes c256_64 true (rev X64) =
  Ok [0x31; 0x32; 0x33; 0x34; 0x35; 0x36; 0x37; 0x38; 0x21; 0x22; 0x23; 0x24; 0x25; 0x26; 0x27; 0x28;
      0x11; 0x12; 0x13; 0x14; 0x15; 0x16; 0x17; 0x18; 0x01; 0x02; 0x03; 0x04; 0x05; 0x06; 0x07; 0x08].
Proof. vm_compute. auto. Qed.
Example C22_ex2 : @from_be_bytes c256_32 false (repeat 0 31 ++ [5]) = Ok [5; 0; 0; 0; 0; 0; 0; 0] /\
  @from_be_bytes c256_32 true (repeat 0 31 ++ [5]) = Ok [0; 0; 0; 0; 0; 0; 0; 5].
Proof. vm_compute. auto. Qed.
Example C23_ex1 : @to_be_u32 c256_64 false X64 =
  Ok [0x31323334; 0x35363738; 0x21222324; 0x25262728; 0x11121314; 0x15161718; 0x01020304; 0x05060708] /\
  @to_be_u32 c256_64 true (rev X64) = @to_be_u32 c256_64 false X64 /\
  @to_le_wide c256_64 true (rev X64) = @to_le_wide c256_64 false X64.
Proof. vm_compute. auto. Qed.
Example C23_ex2 : @from_le_u64 c256_32 true [1; 2; 3; 4] = Ok [0; 4; 0; 3; 0; 2; 0; 1] /\
  @from_le_u64 c256_32 false [1; 2; 3; 4] = Ok [1; 0; 2; 0; 3; 0; 4; 0].
Proof. vm_compute. auto. Qed.
Example C54_ex1 : @mem_get_wide c256_32 true [8; 7; 6; 5; 4; 3; 2; 1] 1 = Ok (3 + 4 * 2 ^ 32) /\
  @mem_get_wide c256_32 false [1; 2; 3; 4; 5; 6; 7; 8] 1 = Ok (3 + 4 * 2 ^ 32) /\
  @mem_get_wide c256_32 true [8; 7; 6; 5; 4; 3; 2; 1] 4 = Panic.
Proof. vm_compute. auto. Qed.
Example C54_ex2 : ne_set true [1; 2; 3; 4] 0 9 = Ok [1; 2; 3; 9] /\ ne_get true [1; 2; 3; 4] 4 = Panic /\
  @mem_u128_to_limb c256_32 true (1 + 2 ^ 32 * 2) = Ok [0; 0; 2; 1].
Proof. vm_compute. auto. Qed.

(** ** Assumptions (each must print "Closed under the global context") *)

Print Assumptions C20_swap_bytes.
Print Assumptions C20_swap_bytes_twice.
Print Assumptions C20_reverse_bits.
Print Assumptions C20_reverse_bits_twice.
Print Assumptions C20_to_be.
Print Assumptions C20_to_le.
Print Assumptions C22_to_bytes.
Print Assumptions C22_from_bytes.
Print Assumptions C22_roundtrip.
Print Assumptions C22_roundtrip_bytes.
Print Assumptions C22_signed.
Print Assumptions C22_from_signed.
Print Assumptions C23_limbs.
Print Assumptions C23_wide.
Print Assumptions C23_u32.
Print Assumptions C23_u64.
Print Assumptions C23_roundtrip.
Print Assumptions C23_order.
Print Assumptions C54_read.
Print Assumptions C54_write.
Print Assumptions C54_get_wide.
Print Assumptions C54_get_limb.
Print Assumptions C54_count_ones.
Print Assumptions C54_not.
Print Assumptions C54_bitwise.
Print Assumptions C54_to_wide.
Print Assumptions C54_from_wide.
Print Assumptions C54_u128_to_limb.
