(** * Runs of bits: the counting functions in terms of individual bits *)

Require Import ZArith List Bool Lia.
From Verif Require Import Prim Spec Facts MAdd MShift MCore PCore PBits PWide MArith PArith PArith2 PMisc.
Import ListNotations.
Local Open Scope Z_scope.

(** The number of bits of [v] equal to [t] among positions 0 .. b-1. *)
Definition bit_count (b v : Z) (t : bool) : Z :=
  Z.of_nat (length (filter (fun i => eqb (Z.testbit v (Z.of_nat i)) t) (seq 0 (Z.to_nat b)))).
(** [r] is the length of the maximal run of bits equal to [t] at the top,
    respectively the bottom, of the [b]-bit pattern [v]. *)
Definition run_top (b v : Z) (t : bool) (r : Z) : Prop :=
  0 <= r <= b /\ (forall i, b - r <= i < b -> Z.testbit v i = t) /\ (r < b -> Z.testbit v (b - 1 - r) = negb t).
Definition run_bot (b v : Z) (t : bool) (r : Z) : Prop :=
  0 <= r <= b /\ (forall i, 0 <= i < r -> Z.testbit v i = t) /\ (r < b -> Z.testbit v r = negb t).

Lemma run_top_unique : forall b v t r r', run_top b v t r -> run_top b v t r' -> r = r'.
Proof.
  intros b v t r r' (H1 & H2 & H3) (H1' & H2' & H3'). destruct (Z.lt_trichotomy r r') as [L|[L|L]]; auto; exfalso.
  - rewrite H2' in H3 by lia. destruct t; discriminate (H3 ltac:(lia)).
  - rewrite H2 in H3' by lia. destruct t; discriminate (H3' ltac:(lia)).
Qed.
Lemma run_bot_unique : forall b v t r r', run_bot b v t r -> run_bot b v t r' -> r = r'.
Proof.
  intros b v t r r' (H1 & H2 & H3) (H1' & H2' & H3'). destruct (Z.lt_trichotomy r r') as [L|[L|L]]; auto; exfalso.
  - rewrite H2' in H3 by lia. destruct t; discriminate (H3 ltac:(lia)).
  - rewrite H2 in H3' by lia. destruct t; discriminate (H3' ltac:(lia)).
Qed.

Lemma lz_run : forall b v, 0 <= b -> 0 <= v < 2 ^ b -> run_top b v false (lz_of b v).
Proof.
  intros b v Hb Hv. destruct (lz_of_range b v Hb Hv) as (R & _). split; auto. unfold lz_of in *.
  destruct (Z.eqb_spec v 0) as [->|E].
  - split; [intros; apply Z.testbit_0_l|lia].
  - split.
    + intros i Hi. apply Z.bits_above_log2; lia.
    + intros _. replace (b - 1 - (b - 1 - Z.log2 v)) with (Z.log2 v) by ring. apply Z.bit_log2. lia.
Qed.
Lemma tz_run : forall b v r, 0 <= b -> is_tz b v r -> run_bot b v false r.
Proof.
  intros b v r Hb [(-> & ->)|(Hr & m & ->)].
  - split; [lia|]. split; [intros; apply Z.testbit_0_l|lia].
  - split; [lia|]. rewrite Z.mul_comm. split.
    + intros i Hi. apply Z.mul_pow2_bits_low. lia.
    + intros _. rewrite Z.mul_pow2_bits by lia. rewrite Z.sub_diag. rewrite Z.testbit_odd_0. reflexivity.
Qed.
Lemma run_top_neg : forall b v v' r, (forall i, 0 <= i < b -> Z.testbit v' i = negb (Z.testbit v i)) ->
  run_top b v' false r -> run_top b v true r.
Proof.
  intros b v v' r E (H1 & H2 & H3). split; auto. split.
  - intros i Hi. specialize (H2 i Hi). rewrite E in H2 by lia. destruct (Z.testbit v i); auto.
  - intros L. specialize (H3 L). rewrite E in H3 by lia. destruct (Z.testbit v (b - 1 - r)); auto.
Qed.
Lemma run_bot_neg : forall b v v' r, (forall i, 0 <= i < b -> Z.testbit v' i = negb (Z.testbit v i)) ->
  run_bot b v' false r -> run_bot b v true r.
Proof.
  intros b v v' r E (H1 & H2 & H3). split; auto. split.
  - intros i Hi. specialize (H2 i Hi). rewrite E in H2 by lia. destruct (Z.testbit v i); auto.
  - intros L. specialize (H3 L). rewrite E in H3 by lia. destruct (Z.testbit v r); auto.
Qed.
Lemma bit_count_ones : forall b v, bit_count b v true = ones v (Z.to_nat b).
Proof.
  intros. unfold bit_count, ones. do 2 f_equal. apply filter_ext. intro. destruct (Z.testbit v (Z.of_nat a)); auto.
Qed.
Lemma bit_count_zeros : forall b v v', (forall i, 0 <= i < b -> Z.testbit v' i = negb (Z.testbit v i)) ->
  ones v' (Z.to_nat b) = bit_count b v false.
Proof.
  intros b v v' E. unfold bit_count, ones. do 2 f_equal. apply filter_ext_lt. intros i Hi. rewrite E by lia.
  destruct (Z.testbit v (Z.of_nat i)); auto.
Qed.
Lemma bit_count_total : forall b v, 0 <= b -> bit_count b v true + bit_count b v false = b.
Proof.
  intros b v Hb. unfold bit_count.
  assert (forall l : list nat, (length (filter (fun i => eqb (Z.testbit v (Z.of_nat i)) true) l) +
    length (filter (fun i => eqb (Z.testbit v (Z.of_nat i)) false) l))%nat = length l) as A.
  { induction l as [|a l IH]; cbn; auto. destruct (Z.testbit v (Z.of_nat a)); cbn; lia. }
  specialize (A (seq 0 (Z.to_nat b))). rewrite seq_length in A. lia.
Qed.

Section P.
Context {c : Cfg}.
Hypothesis HV : Valid.

Lemma BITS_nonneg : 0 <= BITS.
Proof. pose proof (BITS_ge HV). lia. Qed.
Lemma uval_not : forall x, wf x -> uval (ofZ (-1 - uval x)) = 2 ^ BITS - 1 - uval x.
Proof.
  intros x Hx. rewrite (ofZ_cong HV _ (2 ^ BITS - 1 - uval x) (-1)) by ring. apply (val_ofZ_small HV false).
  pose proof (uval_range HV x Hx). red. cbn. red. lia.
Qed.
Lemma not_bits : forall x i, wf x -> 0 <= i < BITS ->
  Z.testbit (uval (ofZ (-1 - uval x))) i = negb (Z.testbit (uval x) i).
Proof.
  intros x i Hx Hi. rewrite (uval_ofZ HV). rewrite testbit_mod by lia. destruct (Z.ltb_spec i BITS); [|lia].
  replace (-1 - uval x) with (Z.lnot (uval x)) by (unfold Z.lnot; lia). apply Z.lnot_spec. lia.
Qed.
Lemma count_zeros_ok : forall x, wf x -> count_zeros x = Ok (bit_count BITS (uval x) false).
Proof.
  intros x Hx. unfold count_zeros. rewrite (not_const_ok HV) by auto. cbn [bind].
  rewrite (count_ones_ok HV) by apply (wf_ofZ HV). f_equal. apply bit_count_zeros. intros. apply not_bits; auto.
Qed.
Lemma leading_ones_ok : forall x, wf x -> exists r, leading_ones x = Ok r /\ run_top BITS (uval x) true r.
Proof.
  intros x Hx. unfold leading_ones. rewrite (not_const_ok HV) by auto. cbn [bind].
  rewrite (leading_zeros_ok HV) by apply (wf_ofZ HV). eexists. split; [reflexivity|].
  eapply run_top_neg; [|apply lz_run; [apply BITS_nonneg|apply (uval_range HV), (wf_ofZ HV)]].
  intros. apply not_bits; auto.
Qed.
Lemma trailing_ones_ok : forall x, wf x -> exists r, trailing_ones x = Ok r /\ run_bot BITS (uval x) true r.
Proof.
  intros x Hx. unfold trailing_ones. rewrite (not_const_ok HV) by auto. cbn [bind].
  destruct (trailing_zeros_ok HV (ofZ (-1 - uval x)) (wf_ofZ HV _)) as (r & -> & T). exists r. split; auto.
  eapply run_bot_neg; [|apply tz_run; [apply BITS_nonneg|exact T]]. intros. apply not_bits; auto.
Qed.
End P.
