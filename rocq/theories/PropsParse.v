(** * Properties: parsing (C27, C28, C51)

    Strings are lists of byte values; 43 is ['+'], 45 is ['-'].  [numeral sg
    radix s v] (TextSpec.v) says that [s] is a numeral for [v]. *)

Require Import ZArith List Bool Lia.
From Verif Require Import Prim Spec Facts MCore PCore MArith PArith PArith2 PRet MScalar TextSpec MApi MParse PParse PParse2.
Import ListNotations.
Local Open Scope Z_scope.

Notation E64 := (@ofZ c256_64).
Notation E32 := (@ofZ c256_32).
Notation E512 := (@ofZ c512_32).

Definition parses_u {c : Cfg} (m : res parsed) (v : Z) : Prop :=
  exists r, m = Ok (POk r) /\ wf r /\ uval r = v.
Definition parses_s {c : Cfg} (m : res parsed) (v : Z) : Prop :=
  exists r, m = Ok (POk r) /\ wf r /\ sval r = v.
(** Reading the digits [s] reaches [ch] after a prefix of value [u]. *)
Definition reaches (radix : Z) (s p : list Z) (ch u : Z) : Prop :=
  (exists t, s = p ++ ch :: t) /\ numval radix p = Some u.
(** A digit after a prefix of value [u] at most [h], the product [u * radix]
    exceeding [h] by less than [k]. *)
Definition in_window (h k radix : Z) (s p : list Z) (ch u : Z) : Prop :=
  reaches radix s p ch u /\ u <= h /\ digit_in radix ch <> None /\ h < u * radix < h + k.
Definition no_window {c : Cfg} (radix : Z) (s : list Z) : Prop :=
  forall p ch u, ~ in_window (2 ^ (BITS - 1)) (2 ^ (BITS - W)) radix s p ch u.

Section Aux.
Context {c : Cfg}.
Hypothesis HV : Valid.
Lemma minus_bytes : forall t, bytes t -> bytes (45 :: t).
Proof. intros t H. constructor; auto. unfold fits_u. lia. Qed.
Definition parses sg m v := exists r, m = Ok (POk r) /\ wf r /\ val sg r = v.
Lemma parses_ofZ : forall sg w v, fits sg w -> (parses sg (Ok (POk (ofZ w))) v <-> w = v).
Proof.
  intros sg w v F. split.
  - intros (r & E & Hr & Hv). inversion E; subst. symmetry. apply (val_ofZ_small HV). auto.
  - intros <-. exists (ofZ w). repeat split; try apply (wf_ofZ HV). apply (val_ofZ_small HV). auto.
Qed.
Lemma parses_err : forall sg e v, ~ parses sg (Ok (PErr e)) v.
Proof. intros sg e v (r & E & _). discriminate. Qed.
Lemma pos_value : forall sg s radix v, bytes s -> 2 <= radix <= 36 -> hd 0 s <> 45 -> s <> [43] ->
  (parses sg (from_str_radix sg s radix) v <-> numeral sg radix s v /\ fits sg v).
Proof.
  intros sg s radix v Hb Hr Hm Hp. rewrite (from_str_radix_ok HV) by auto. rewrite numeral_pos by auto.
  destruct s as [|b t].
  - cbn. split; [intros H; exfalso; exact (parses_err _ _ _ H)|intros ((H & _) & _); contradiction].
  - assert (Hne : strip_plus (b :: t) <> []).
    { cbn. destruct (Z.eqb_spec b 43); [|discriminate]. subst. intros ->. contradiction. }
    rewrite parse_result_pos by (auto; discriminate). pose proof (hi_nonneg HV sg).
    destruct (scan (hi_of sg) radix 0 (strip_plus (b :: t))) as [w| |] eqn:E; cbn [from_scan].
    + apply scan_value in E; [|lia|lia]. destruct E as [E1 E2].
      assert (0 <= w) by (apply (horner_nonneg radix (strip_plus (b :: t))); auto; lia).
      rewrite parses_ofZ by (apply (fits_hi HV); auto). unfold numval. rewrite E1. split.
      * intros <-. split; [split; auto|apply (fits_hi HV); auto].
      * intros ((_ & H2) & _). inversion H2; auto.
    + split; [intros H'; exfalso; exact (parses_err _ _ _ H')|]. intros ((_ & H2) & F).
      assert (0 <= v) by (apply (horner_nonneg radix (strip_plus (b :: t))); auto; lia).
      assert (H3 : scan (hi_of sg) radix 0 (strip_plus (b :: t)) = Value v).
      { apply scan_value; [lia|lia|]. split; auto. apply (fits_hi HV); auto. }
      congruence.
    + split; [intros H'; exfalso; exact (parses_err _ _ _ H')|]. intros ((_ & H2) & F).
      assert (0 <= v) by (apply (horner_nonneg radix (strip_plus (b :: t))); auto; lia).
      assert (H3 : scan (hi_of sg) radix 0 (strip_plus (b :: t)) = Value v).
      { apply scan_value; [lia|lia|]. split; auto. apply (fits_hi HV); auto. }
      congruence.
Qed.
Lemma neg_value : forall t radix v, bytes t -> 2 <= radix <= 36 -> t <> [] -> no_window radix t ->
  (parses true (from_str_radix true (45 :: t) radix) v <-> numeral true radix (45 :: t) v /\ fits true v).
Proof.
  intros t radix v Hb Hr Hm Hn. rewrite (from_str_radix_ok HV) by (auto using minus_bytes).
  rewrite numeral_neg, parse_result_neg. pose proof (pBh HV).
  rewrite scan_neg_plain; [|lia|lia|exact Hn].
  assert (FV : forall u, 0 <= u -> (fits true (- u) <-> u <= 2 ^ (BITS - 1))) by (intros; cbn; unfold fits_s; lia).
  assert (HF : numval radix t = Some (- v) -> fits true v -> scan (2 ^ (BITS - 1)) radix 0 t = Value (- v)).
  { intros H2 F. apply scan_value; [lia|lia|]. split; auto. apply FV; [apply (horner_nonneg radix t); auto; lia|].
    rewrite Z.opp_involutive. auto. }
  destruct (scan (2 ^ (BITS - 1)) radix 0 t) as [w| |] eqn:E; cbn [from_scan].
  - apply scan_value in E; [|lia|lia]. destruct E as [E1 E2].
    assert (0 <= w) by (apply (horner_nonneg radix t); auto; lia).
    rewrite parses_ofZ by (apply FV; auto). unfold numval. rewrite E1. split.
    + intros <-. split; [split; auto; f_equal; lia|apply FV; auto].
    + intros ((_ & H2) & _). inversion H2; lia.
  - split; [intros H'; exfalso; exact (parses_err _ _ _ H')|]. intros ((_ & H2) & F). specialize (HF H2 F). congruence.
  - split; [intros H'; exfalso; exact (parses_err _ _ _ H')|]. intros ((_ & H2) & F). specialize (HF H2 F). congruence.
Qed.
Lemma hd45 : forall s, {t | s = 45 :: t} + {hd 0 s <> 45}.
Proof. intros [|b t]; [right; cbn; lia|]. destruct (Z.eq_dec b 45); [left; exists t; subst; auto|right; auto]. Qed.
End Aux.

(** ** C27: which strings are accepted *)

Theorem C27_unsigned : forall (c : Cfg) s radix v, Valid -> bytes s -> 2 <= radix <= 36 -> s <> [43] ->
  (parses_u (from_str_radix false s radix) v <-> numeral false radix s v /\ fits_u BITS v).
Proof.
  intros c s radix v HV Hb Hr Hs. destruct (hd45 s) as [[t ->]|Hd]; [|exact (pos_value HV false s radix v Hb Hr Hd Hs)].
  rewrite (from_str_radix_ok HV) by auto. split.
  - intros (r & E & _). discriminate.
  - intros [H _]. exfalso. exact (numeral_neg_u _ _ _ H).
Qed.
Theorem C27_signed_partial : forall (c : Cfg) s radix v, Valid -> bytes s -> 2 <= radix <= 36 ->
  s <> [43] -> s <> [45] -> (forall t, s = 45 :: t -> no_window radix t) ->
  (parses_s (from_str_radix true s radix) v <-> numeral true radix s v /\ fits_s BITS v).
Proof.
  intros c s radix v HV Hb Hr Hs Hs' Hw. destruct (hd45 s) as [[t ->]|Hd]; [|exact (pos_value HV true s radix v Hb Hr Hd Hs)].
  apply (neg_value HV t radix v); auto; [inversion Hb; auto|]. intros ->. contradiction.
Qed.
(** without any side condition in one direction: every numeral of a
    representable value is read correctly *)
Theorem C27_complete_signed : forall (c : Cfg) s radix v, Valid -> bytes s -> 2 <= radix <= 36 ->
  numeral true radix s v -> fits_s BITS v -> parses_s (from_str_radix true s radix) v.
Proof.
  intros c s radix v HV Hb Hr Hn Hf. apply C27_signed_partial; auto.
  - intros ->. apply numeral_pos in Hn; [|cbn; lia]. destruct Hn; auto.
  - intros ->. apply numeral_neg in Hn. destruct Hn; auto.
  - intros t -> p ch u (((q & ->) & Hp) & Hu & Hd & Hlt). apply numeral_neg in Hn. destruct Hn as [_ Hn].
    unfold numval in *. rewrite horner_app, Hp in Hn. cbn [horner] in Hn.
    destruct (digit_in radix ch) as [d|] eqn:E; [|contradiction]. pose proof (digit_in_range _ _ _ E).
    pose proof (pBh HV). assert (0 <= u) by (apply (horner_nonneg radix p); auto; lia).
    apply horner_ge in Hn; [|lia|nia]. unfold fits_s in Hf. lia.
Qed.
(** the window: the last digit read there gives a positive number *)
Theorem C27_window : forall (c : Cfg) p ch u d radix, Valid -> bytes (p ++ [ch]) -> 2 <= radix <= 36 ->
  numval radix p = Some u -> u <= 2 ^ (BITS - 1) -> digit_in radix ch = Some d ->
  2 ^ (BITS - 1) < u * radix < 2 ^ (BITS - 1) + 2 ^ (BITS - W) ->
  parses_s (from_str_radix true (45 :: p ++ [ch]) radix) (2 ^ BITS - (u * radix + d)).
Proof.
  intros c p ch u d radix HV Hb Hr Hp Hu Hd Hw.
  rewrite (from_str_radix_ok HV) by (auto using minus_bytes).
  rewrite parse_result_neg. rewrite (scan_neg_unnoticed (2 ^ (BITS - 1)) (2 ^ (BITS - W)) radix p 0 ch d [] u) by (auto; lia).
  cbn [from_scan]. pose proof (pBhalf HV). pose proof (pBh HV). pose proof (digit_in_range _ _ _ Hd).
  assert (HW : 2 ^ (BITS - W) * 2 <= 2 ^ (BITS - 1)).
  { rewrite Z.mul_comm, <- Z.pow_succ_r by (pose proof (BITS_ge HV); pose proof (HW1 HV); lia).
    apply pow2_le_mono. pose proof (W_cases HV). pose proof (BITS_ge HV). lia. }
  assert (36 <= 2 ^ (BITS - W)).
  { apply Z.le_trans with (2 ^ 64); [vm_compute; discriminate|]. apply pow2_le_mono. pose proof (W_cases HV). pose proof (BITS_ge HV). lia. }
  replace (2 * 2 ^ (BITS - 1)) with (2 ^ BITS) by lia.
  eexists. split; [reflexivity|]. split; [apply (wf_ofZ HV)|]. apply (val_ofZ_small HV true). cbn. unfold fits_s. lia.
Qed.
(** a lone sign is read as zero *)
Theorem C27_plus_refuted : exists c : Cfg, Valid /\
  parses_u (from_str_radix false [43] 10) 0 /\ parses_s (from_str_radix true [43] 10) 0 /\
  parses_s (from_str_radix true [45] 10) 0 /\ forall v, ~ numeral true 10 [43] v /\ ~ numeral true 10 [45] v.
Proof.
  exists c256_64. split; [exact valid_c256_64|]. split; [exists (E64 0); split; [vm_compute; reflexivity|split; [apply (wf_ofZ valid_c256_64)|reflexivity]]|]. split; [exists (E64 0); split; [vm_compute; reflexivity|split; [apply (wf_ofZ valid_c256_64)|reflexivity]]|].
  split; [exists (E64 0); split; [vm_compute; reflexivity|split; [apply (wf_ofZ valid_c256_64)|reflexivity]]|]. intros v. split; intros H.
  - apply numeral_pos in H; [|cbn; lia]. destruct H; auto.
  - apply numeral_neg in H. destruct H; auto.
Qed.
Fixpoint decs (n : nat) (v : Z) (acc : list Z) : list Z :=
  match n with O => acc | S k => if v =? 0 then acc else decs k (v / 10) (48 + v mod 10 :: acc) end.
Definition dec (v : Z) : list Z := decs 100 v [].
(** "-578…970", that is -(2^255 + 2), is read as 2^255 - 2 *)
Theorem C27_negative_refuted : exists (c : Cfg) s v, Valid /\ bytes s /\
  numeral true 10 s v /\ ~ fits_s BITS v /\ parses_s (from_str_radix true s 10) (v + 2 ^ BITS).
Proof.
  exists c256_64, (45 :: dec (2 ^ 255 + 2)), (- (2 ^ 255 + 2)). split; [exact valid_c256_64|]. split.
  { apply Forall_forall. intros x Hx. assert (F : forallb (fun b => (0 <=? b) && (b <? 256)) (45 :: dec (2 ^ 255 + 2)) = true) by (vm_compute; reflexivity).
    rewrite forallb_forall in F. specialize (F x Hx). apply andb_true_iff in F. unfold fits_u. change (2 ^ 8) with 256.
    rewrite Z.leb_le, Z.ltb_lt in F. auto. }
  split; [apply numeral_neg; split; [vm_compute; discriminate|vm_compute; reflexivity]|].
  split; [vm_compute; intros [H _]; apply H; reflexivity|]. exists (E64 (2 ^ 255 - 2)). split; [vm_compute; reflexivity|].
  split; [apply (wf_ofZ valid_c256_64)|vm_compute; reflexivity].
Qed.

(** "FFx" in base 36, "+00042", "-128" *)
Example C27_ex1 : from_str_radix (c := c256_64) false [70; 70; 120] 36 = Ok (POk (E64 (15 * 1296 + 15 * 36 + 33)))
  /\ from_str_radix (c := c256_32) true [43; 48; 48; 48; 52; 50] 10 = Ok (POk (E32 42))
  /\ from_str_radix (c := c512_32) true [45; 49; 50; 56] 10 = Ok (POk (E512 (-128))).
Proof. vm_compute. auto. Qed.
(** the largest and the smallest value, with the checked loop *)
Example C27_ex2 : from_str_radix (c := c256_64) false (dec (2 ^ 256 - 1)) 10 = Ok (POk (E64 (2 ^ 256 - 1)))
  /\ from_str_radix (c := c256_64) false (dec (2 ^ 256)) 10 = Ok (PErr EPosOverflow)
  /\ from_str_radix (c := c256_32) true (45 :: dec (2 ^ 255)) 10 = Ok (POk (E32 (- 2 ^ 255)))
  /\ from_str_radix (c := c256_32) true (45 :: dec (2 ^ 255 + 1)) 10 = Ok (PErr ENegOverflow)
  /\ from_str_radix (c := c256_32) true (dec (2 ^ 255)) 10 = Ok (PErr EPosOverflow).
Proof. vm_compute. auto. Qed.
Example C27_ex3 : from_str_radix (c := c256_64) true (45 :: dec (2 ^ 255 + 2)) 10 = Ok (POk (E64 (2 ^ 255 - 2))).
Proof. vm_compute. auto. Qed.

(** ** C28: the errors *)

Theorem C28_panic : forall (c : Cfg) sg s radix, Valid -> bytes s ->
  (from_str_radix sg s radix = Panic <-> ~ 2 <= radix <= 36).
Proof.
  intros c sg s radix HV Hb. split; [|apply from_str_radix_panic]. intros H Hr. rewrite (from_str_radix_ok HV) in H by auto. discriminate.
Qed.
Theorem C28_total : forall (c : Cfg) sg s radix, Valid -> bytes s -> 2 <= radix <= 36 ->
  exists p, from_str_radix sg s radix = Ok p.
Proof. intros c sg s radix HV Hb Hr. rewrite (from_str_radix_ok HV) by auto. eauto. Qed.
Section Aux2.
Context {c : Cfg}.
Hypothesis HV : Valid.
Lemma scan_not_empty : forall neg r, from_scan neg r <> PErr EEmpty.
Proof. intros neg [| |]; cbn; try discriminate. destruct neg; discriminate. Qed.
Lemma from_scan_bad : forall neg r, Ok (from_scan neg r) = Ok (PErr EInvalidDigit) <-> r = BadDigit.
Proof. intros neg [| |]; cbn; split; try discriminate; auto. destruct neg; discriminate. Qed.
Lemma from_scan_large : forall neg r, Ok (from_scan neg r) = Ok (PErr (perr_of neg)) <-> r = TooLarge.
Proof. intros neg [| |]; cbn; split; try discriminate; auto. destruct neg; discriminate. Qed.
End Aux2.
Theorem C28_empty : forall (c : Cfg) sg s radix, Valid -> bytes s -> 2 <= radix <= 36 ->
  (from_str_radix sg s radix = Ok (PErr EEmpty) <-> s = []).
Proof.
  intros c sg s radix HV Hb Hr. rewrite (from_str_radix_ok HV) by auto. split; [|intros ->; reflexivity].
  destruct s as [|b t]; auto. intros H. inversion H as [E]. exfalso. cbn [parse_result] in E.
  destruct (b =? 43); [exact (scan_not_empty _ _ E)|]. destruct (b =? 45).
  - destruct sg; [exact (scan_not_empty _ _ E)|discriminate].
  - exact (scan_not_empty _ _ E).
Qed.
(** no minus sign: [strip_plus s] are the digits *)
Theorem C28_invalid_positive : forall (c : Cfg) sg s radix, Valid -> bytes s -> 2 <= radix <= 36 -> hd 0 s <> 45 ->
  (from_str_radix sg s radix = Ok (PErr EInvalidDigit) <->
   exists p ch u, reaches radix (strip_plus s) p ch u /\ fits sg u /\ digit_in radix ch = None).
Proof.
  intros c sg s radix HV Hb Hr Hd. rewrite (from_str_radix_ok HV) by auto. destruct s as [|b t].
  - split; [discriminate|]. intros (p & ch & u & ((t & E) & _) & _). destruct p; discriminate.
  - rewrite parse_result_pos by (auto; discriminate). rewrite from_scan_bad.
    rewrite scan_bad by (pose proof (hi_nonneg HV sg); lia).
    split; intros (p & ch & u & (Hs & Hn) & Hu & Hc); exists p, ch, u; (split; [split; [exact Hs|exact Hn]|]); (split; [|exact Hc]);
      assert (0 <= u) by (apply (horner_nonneg radix p); auto; lia); apply (fits_hi HV); auto.
Qed.
Theorem C28_overflow_positive : forall (c : Cfg) sg s radix, Valid -> bytes s -> 2 <= radix <= 36 -> hd 0 s <> 45 ->
  (from_str_radix sg s radix = Ok (PErr EPosOverflow) <->
   exists p ch u d, reaches radix (strip_plus s) p ch u /\ fits sg u /\ digit_in radix ch = Some d /\ ~ fits sg (u * radix + d))
  /\ from_str_radix sg s radix <> Ok (PErr ENegOverflow).
Proof.
  intros c sg s radix HV Hb Hr Hd. rewrite (from_str_radix_ok HV) by auto. destruct s as [|b t].
  - split; [|discriminate]. split; [discriminate|]. intros (p & ch & u & d & ((t & E) & _) & _). destruct p; discriminate.
  - rewrite parse_result_pos by (auto; discriminate). split.
    + rewrite (from_scan_large false). rewrite scan_large by (pose proof (hi_nonneg HV sg); lia).
      split; intros (p & ch & u & d & (Hs & Hn) & Hu & Hc & Hl); exists p, ch, u, d; (split; [split; [exact Hs|exact Hn]|]);
        (assert (0 <= u) by (apply (horner_nonneg radix p); auto; lia)); pose proof (digit_in_range _ _ _ Hc);
        (assert (0 <= u * radix + d) by nia); split.
      * apply (fits_hi HV); auto.
      * split; auto. rewrite (fits_hi HV) by auto. lia.
      * apply (fits_hi HV); auto.
      * split; auto. rewrite (fits_hi HV) in Hl by auto. lia.
    + destruct (scan _ _ _ _); discriminate.
Qed.
(** a minus sign: unsigned types refuse it whatever follows *)
Theorem C28_unsigned_minus : forall (c : Cfg) t radix, Valid -> bytes t -> 2 <= radix <= 36 ->
  from_str_radix false (45 :: t) radix = Ok (PErr ENegOverflow).
Proof. intros c t radix HV Hb Hr. rewrite (from_str_radix_ok HV) by (auto using minus_bytes). reflexivity. Qed.
Theorem C28_signed_minus_partial : forall (c : Cfg) t radix, Valid -> bytes t -> 2 <= radix <= 36 -> no_window radix t ->
  (from_str_radix true (45 :: t) radix = Ok (PErr EInvalidDigit) <->
   exists p ch u, reaches radix t p ch u /\ fits_s BITS (- u) /\ digit_in radix ch = None) /\
  (from_str_radix true (45 :: t) radix = Ok (PErr ENegOverflow) <->
   exists p ch u d, reaches radix t p ch u /\ fits_s BITS (- u) /\ digit_in radix ch = Some d /\ ~ fits_s BITS (- (u * radix + d))) /\
  from_str_radix true (45 :: t) radix <> Ok (PErr EPosOverflow).
Proof.
  intros c t radix HV Hb Hr Hw. rewrite (from_str_radix_ok HV) by (auto using minus_bytes).
  rewrite parse_result_neg. pose proof (pBh HV). rewrite scan_neg_plain; [|lia|lia|exact Hw].
  assert (FV : forall u, 0 <= u -> (fits_s BITS (- u) <-> u <= 2 ^ (BITS - 1))) by (intros; unfold fits_s; lia).
  split; [|split].
  - rewrite from_scan_bad.
    assert (HS : match scan (2 ^ (BITS - 1)) radix 0 t with Value v => Value (- v) | r => r end = BadDigit
      <-> scan (2 ^ (BITS - 1)) radix 0 t = BadDigit) by (destruct (scan _ _ _ _); split; auto; discriminate).
    rewrite HS, scan_bad by lia.
    split; intros (p & ch & u & (Hs & Hn) & Hu & Hc); exists p, ch, u; (split; [split; [exact Hs|exact Hn]|]); (split; [|exact Hc]);
      assert (0 <= u) by (apply (horner_nonneg radix p); auto; lia); apply FV; auto.
  - rewrite (from_scan_large true).
    assert (HS : match scan (2 ^ (BITS - 1)) radix 0 t with Value v => Value (- v) | r => r end = TooLarge
      <-> scan (2 ^ (BITS - 1)) radix 0 t = TooLarge) by (destruct (scan _ _ _ _); split; auto; discriminate).
    rewrite HS, scan_large by lia.
    split; intros (p & ch & u & d & (Hs & Hn) & Hu & Hc & Hl); exists p, ch, u, d; (split; [split; [exact Hs|exact Hn]|]);
      (assert (0 <= u) by (apply (horner_nonneg radix p); auto; lia)); pose proof (digit_in_range _ _ _ Hc);
      (assert (0 <= u * radix + d) by nia); split.
    + apply FV; auto.
    + split; auto. rewrite FV by auto. lia.
    + apply FV; auto.
    + split; auto. rewrite FV in Hl by auto. lia.
  - destruct (scan _ _ _ _); discriminate.
Qed.
(** in the window the error depends on the character after the overflow *)
Theorem C28_window : forall (c : Cfg) p ch u d ch' t radix, Valid -> bytes (p ++ ch :: ch' :: t) -> 2 <= radix <= 36 ->
  numval radix p = Some u -> u <= 2 ^ (BITS - 1) -> digit_in radix ch = Some d ->
  2 ^ (BITS - 1) < u * radix < 2 ^ (BITS - 1) + 2 ^ (BITS - W) ->
  from_str_radix true (45 :: p ++ ch :: ch' :: t) radix =
  Ok (PErr (match digit_in radix ch' with Some _ => ENegOverflow | None => EInvalidDigit end)).
Proof.
  intros c p ch u d ch' t radix HV Hb Hr Hp Hu Hd Hw.
  rewrite (from_str_radix_ok HV) by (auto using minus_bytes).
  rewrite parse_result_neg. rewrite (scan_neg_unnoticed (2 ^ (BITS - 1)) (2 ^ (BITS - W)) radix p 0 ch d (ch' :: t) u) by (auto; lia).
  destruct (digit_in radix ch'); reflexivity.
Qed.
(** "-578…970x": the digits before the 'x' are already out of range *)
Theorem C28_window_refuted : exists (c : Cfg) s v, Valid /\ numval 10 s = Some v /\ ~ fits_s BITS (- v) /\
  from_str_radix true (45 :: s ++ [120]) 10 = Ok (PErr EInvalidDigit).
Proof.
  exists c256_64, (dec (2 ^ 255 + 2)), (2 ^ 255 + 2). split; [exact valid_c256_64|]. split; [vm_compute; reflexivity|].
  split; [vm_compute; intros [H _]; apply H; reflexivity|]. vm_compute. reflexivity.
Qed.
Example C28_ex1 : from_str_radix (c := c256_64) false [] 10 = Ok (PErr EEmpty)
  /\ from_str_radix (c := c256_64) false [49; 56; 49] 8 = Ok (PErr EInvalidDigit)
  /\ from_str_radix (c := c256_64) false [45; 48] 10 = Ok (PErr ENegOverflow)
  /\ from_str_radix (c := c256_64) false (dec (2 ^ 256) ++ [33]) 10 = Ok (PErr EPosOverflow)
  /\ from_str_radix (c := c256_64) true (33 :: dec (2 ^ 256)) 10 = Ok (PErr EInvalidDigit)
  /\ from_str_radix (c := c256_64) true (45 :: dec (2 ^ 256) ++ [33]) 10 = Ok (PErr ENegOverflow)
  /\ from_str_radix (c := c256_64) true [49] 37 = Panic.
Proof. vm_compute. repeat split. Qed.

(** ** C51: FromStr *)

Section Aux3.
Context {c : Cfg}.
Hypothesis HV : Valid.
Lemma short_fits : forall sg s v, (length s < 39)%nat -> short_result sg s = inl v -> fits sg v.
Proof.
  intros sg s v Hl H. apply short_bound in H. destruct H as [H1 H2].
  assert (10 ^ Z.of_nat (length s) <= 10 ^ 38) by (apply Z.pow_le_mono_r; lia).
  assert (10 ^ 38 <= 2 ^ (BITS - 1)).
  { apply Z.le_trans with (2 ^ 255); [vm_compute; discriminate|]. apply pow2_le_mono. pose proof (BITS_ge HV). lia. }
  pose proof (pBhalf HV). destruct sg; cbn; [unfold fits_s; lia|]. specialize (H2 eq_refl). unfold fits_u. lia.
Qed.
Lemma short_value : forall small sg s v, (length s < 39)%nat ->
  (parses sg (from_str small sg s) v <-> numeral sg 10 s v /\ fits sg v).
Proof.
  intros small sg s v Hs. rewrite (from_str_short HV) by auto. rewrite <- short_numeral.
  destruct (short_result sg s) as [w|e] eqn:E.
  - pose proof (short_fits sg s w Hs E). rewrite (parses_ofZ HV) by auto. split.
    + intros <-. auto.
    + intros [H' _]. inversion H'. auto.
  - split; [intros H; exfalso; exact (parses_err _ _ _ H)|intros [H _]; discriminate].
Qed.
End Aux3.

Theorem C51_unsigned : forall (c : Cfg) small s v, Valid -> bytes s ->
  (parses_u (from_str small false s) v <-> numeral false 10 s v /\ fits_u BITS v).
Proof.
  intros c small s v HV Hb. destruct (Nat.lt_ge_cases (length s) 39) as [L|L].
  - exact (short_value HV small false s v L).
  - rewrite from_str_long by auto. apply C27_unsigned; auto; [lia|]. intros ->. cbn in L. lia.
Qed.
Theorem C51_signed_partial : forall (c : Cfg) small s v, Valid -> bytes s -> (forall t, s = 45 :: t -> no_window 10 t) ->
  (parses_s (from_str small true s) v <-> numeral true 10 s v /\ fits_s BITS v).
Proof.
  intros c small s v HV Hb Hw. destruct (Nat.lt_ge_cases (length s) 39) as [L|L].
  - exact (short_value HV small true s v L).
  - rewrite from_str_long by auto. apply C27_signed_partial; auto; [lia| |]; intros ->; cbn in L; lia.
Qed.
Theorem C51_complete_signed : forall (c : Cfg) small s v, Valid -> bytes s ->
  numeral true 10 s v -> fits_s BITS v -> parses_s (from_str small true s) v.
Proof.
  intros c small s v HV Hb Hn Hf. destruct (Nat.lt_ge_cases (length s) 39) as [L|L].
  - apply (short_value HV small true s v L). auto.
  - rewrite from_str_long by auto. apply C27_complete_signed; auto. lia.
Qed.
Theorem C51_signed_refuted : exists (c : Cfg) s v, Valid /\
  numeral true 10 s v /\ ~ fits_s BITS v /\ parses_s (from_str false true s) (v + 2 ^ BITS).
Proof.
  destruct C27_negative_refuted as (c & s & v & HV & Hb & Hn & Hf & Hp). exists c, s, v. repeat (split; auto).
  destruct (Nat.lt_ge_cases (length s) 39) as [L|L]; [|rewrite from_str_long by auto; auto].
  exfalso. assert (H : exists w, short_result true s = inl w /\ w = v).
  { exists v. split; auto. apply short_numeral. auto. }
  destruct H as (w & Hw & ->). apply (short_fits HV) in Hw; auto.
Qed.
(** the errors of strings short enough for the standard library *)
Theorem C51_errors_short : forall (c : Cfg) small sg s e, Valid -> bytes s -> (length s < 39)%nat ->
  from_str small sg s = Ok (PErr e) -> e = match s with [] => EEmpty | _ => EInvalidDigit end.
Proof.
  intros c small sg s e HV Hb Hl. rewrite (from_str_short HV) by auto.
  destruct (short_result sg s) eqn:E; [discriminate|]. intros H. inversion H; subst. exact (short_error _ _ _ E).
Qed.
(** the same answers as [from_str_radix], except for lone signs and for
    minus signs before unsigned numbers *)
Theorem C51_radix : forall (c : Cfg) small sg s, Valid -> bytes s -> s <> [43] -> s <> [45] ->
  (hd 0 s = 45 -> sg = true) -> from_str small sg s = from_str_radix sg s 10.
Proof.
  intros c small sg s HV Hb Hs Hs' Hd. destruct (Nat.lt_ge_cases (length s) 39) as [L|L]; [|apply from_str_long; auto].
  rewrite (from_str_short HV), (from_str_radix_ok HV) by (auto; lia). f_equal.
  assert (HP : 10 ^ 38 <= 2 ^ (BITS - 1)).
  { apply Z.le_trans with (2 ^ 255); [vm_compute; discriminate|]. apply pow2_le_mono. pose proof (BITS_ge HV). lia. }
  assert (HQ : forall u : list Z, (length u <= length s)%nat -> (0 + 1) * 10 ^ Z.of_nat (length u) <= 2 ^ (BITS - 1)).
  { intros u Hu. assert (10 ^ Z.of_nat (length u) <= 10 ^ 38) by (apply Z.pow_le_mono_r; lia). lia. }
  pose proof (pBhalf HV). assert (HH : 2 ^ (BITS - 1) <= hi_of sg + 1) by (pose proof (pBh HV); destruct sg; cbn [hi_of]; lia).
  destruct s as [|b t]; [reflexivity|]. destruct (hd45 (b :: t)) as [[t' E]|Hm].
  - inversion E; subst. rewrite (Hd eq_refl), parse_result_neg.
    rewrite scan_neg_nolimit by (try lia; apply HQ; cbn; lia).
    destruct t' as [|x y]; [contradiction|]. cbn. unfold numval. cbn [horner].
    destruct (match digit_in 10 x with Some d => _ | None => None end); reflexivity.
  - rewrite parse_result_pos by (auto; discriminate). cbn [hd] in Hm.
    assert (HN : strip_plus (b :: t) <> []).
    { cbn. destruct (Z.eqb_spec b 43); [|discriminate]. subst. intros ->. contradiction. }
    assert (HL : (length (strip_plus (b :: t)) <= length (b :: t))%nat) by (cbn; destruct (b =? 43); cbn; lia).
    rewrite scan_nolimit by (try lia; specialize (HQ _ HL); lia).
    unfold short_result. destruct (Z.eqb_spec b 45); [contradiction|]. rewrite andb_false_r, orb_false_r.
    fold (strip_plus (b :: t)). change (if b =? 43 then t else b :: t) with (strip_plus (b :: t)).
    destruct (strip_plus (b :: t)) as [|x y] eqn:Ex; [contradiction|]. unfold numval.
    destruct (horner 10 0 (x :: y)); reflexivity.
Qed.
Theorem C51_sign_refuted : exists c : Cfg, Valid /\
  from_str false false [43] = Ok (PErr EInvalidDigit) /\ parses_u (from_str_radix false [43] 10) 0 /\
  from_str false false [45; 49] = Ok (PErr EInvalidDigit) /\ from_str_radix false [45; 49] 10 = Ok (PErr ENegOverflow).
Proof. exists c256_64. split; [exact valid_c256_64|]. split; [vm_compute; reflexivity|].
  split; [exists (E64 0); split; [vm_compute; reflexivity|split; [apply (wf_ofZ valid_c256_64)|reflexivity]]|].
  split; vm_compute; reflexivity.
Qed.
Example C51_ex1 : from_str (c := c256_32) true true [45; 49; 50; 56] = Ok (POk (E32 (-128)))
  /\ from_str (c := c256_64) false false (dec (10 ^ 37 + 7)) = Ok (POk (E64 (10 ^ 37 + 7)))
  /\ from_str (c := c256_64) false true (45 :: dec (10 ^ 60 + 7)) = Ok (POk (E64 (- (10 ^ 60 + 7))))
  /\ from_str (c := c256_64) false false (dec (10 ^ 18) ++ [97]) = Ok (PErr EInvalidDigit).
Proof. vm_compute. auto. Qed.

(** ** Assumptions (each must print "Closed under the global context") *)

Print Assumptions C27_unsigned.
Print Assumptions C27_signed_partial.
Print Assumptions C27_complete_signed.
Print Assumptions C27_window.
Print Assumptions C27_plus_refuted.
Print Assumptions C27_negative_refuted.
Print Assumptions C28_panic.
Print Assumptions C28_total.
Print Assumptions C28_empty.
Print Assumptions C28_invalid_positive.
Print Assumptions C28_overflow_positive.
Print Assumptions C28_unsigned_minus.
Print Assumptions C28_signed_minus_partial.
Print Assumptions C28_window.
Print Assumptions C28_window_refuted.
Print Assumptions C51_unsigned.
Print Assumptions C51_signed_partial.
Print Assumptions C51_complete_signed.
Print Assumptions C51_signed_refuted.
Print Assumptions C51_errors_short.
Print Assumptions C51_radix.
Print Assumptions C51_sign_refuted.
