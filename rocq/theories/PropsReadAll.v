(** * Properties: reading numbers and logarithms, decided (C79)

    C27, C28, C51 and C34 say what parsing and the logarithms do away from the
    defects they inherit (the overflow that signed multiplication misses, and
    the division step that panics).  Here the outcome is decided for every
    string and for every pair of arguments. *)

Require Import ZArith List Bool Lia.
From Verif Require Import Prim Spec Facts MCore PCore MArith PArith PArith2 PRet MScalar MApi TextSpec MParse PParse PParse2 PropsParse
  MWrite PWrite PWrite2 PropsWrite PWide DivSpec PApi PApi2 PApi3 PIlog.
Import ListNotations.
Local Open Scope Z_scope.

(** [s] begins with digits whose value [w] is below the smallest signed value
    when negated, but by so little that the multiplication does not notice;
    [rest] is what follows them. *)
Definition missed {c : Cfg} (radix : Z) (s rest : list Z) (w : Z) : Prop :=
  exists p ch u d, s = p ++ ch :: rest /\ numval radix p = Some u /\ digit_in radix ch = Some d /\ w = u * radix + d /\
    u <= 2 ^ (BITS - 1) /\ 2 ^ (BITS - 1) < u * radix < 2 ^ (BITS - 1) + 2 ^ (BITS - W).

Section ScanNeg.
Variables (h k radix : Z).
Hypothesis Hh : 0 <= h.
Hypothesis Hr : 2 <= radix.
Definition miss (s rest : list Z) (w : Z) : Prop :=
  exists p ch u d, s = p ++ ch :: rest /\ numval radix p = Some u /\ digit_in radix ch = Some d /\ w = u * radix + d /\
    u <= h /\ h < u * radix < h + k.
Lemma find_missed : forall s acc, (exists p ch u, unnoticed h k radix acc s p ch u) \/ (forall p ch u, ~ unnoticed h k radix acc s p ch u).
Proof.
  induction s as [|ch t IH]; intros acc.
  - right. intros p ch u (((t & E) & _) & _). destruct p; discriminate.
  - destruct (digit_in radix ch) as [d|] eqn:E.
    + assert (D : {acc <= h /\ h < acc * radix < h + k} + {~ (acc <= h /\ h < acc * radix < h + k)}).
      { destruct (Z_le_dec acc h); [|right; lia]. destruct (Z_lt_dec h (acc * radix)); [|right; lia].
        destruct (Z_lt_dec (acc * radix) (h + k)); [left|right]; lia. }
      destruct D as [D|D].
      * left. exists [], ch, acc. split; [split; [exists t; reflexivity|reflexivity]|]. split; [lia|]. split; [congruence|lia].
      * destruct (IH (acc * radix + d)) as [(p & b & u & ((t' & ->) & Hp) & R)|N].
        -- left. exists (ch :: p), b, u. split; [split; [exists t'; reflexivity|cbn [horner]; rewrite E; auto]|auto].
        -- right. intros p b u (((t' & Et) & Hp) & Hu & Hd & Hw). destruct p as [|a p]; cbn in Et; inversion Et; subst.
           { cbn in Hp. inversion Hp; subst. apply D. lia. }
           cbn [horner] in Hp. rewrite E in Hp. apply (N p b u). split; [split; [exists t'; reflexivity|auto]|auto].
    + right. intros p b u (((t' & Et) & Hp) & Hu & Hd & Hw). destruct p as [|a p]; cbn in Et; inversion Et; subst.
      { contradiction. }
      cbn [horner] in Hp. rewrite E in Hp. discriminate.
Qed.
Lemma miss_or : forall s, (exists rest w, miss s rest w) \/ (forall p ch u, ~ unnoticed h k radix 0 s p ch u).
Proof.
  intros s. destruct (find_missed s 0) as [(p & ch & u & ((t & ->) & Hp) & Hu & Hd & Hw)|N]; [left|right; auto].
  destruct (digit_in radix ch) as [d|] eqn:E; [|contradiction]. exists t, (u * radix + d), p, ch, u, d. auto 10.
Qed.
Lemma miss_scan : forall s rest w, miss s rest w -> scan_neg h k radix 0 s =
  match rest with [] => Value (2 * h - w) | ch :: _ => match digit_in radix ch with Some _ => TooLarge | None => BadDigit end end.
Proof.
  intros s rest w (p & ch & u & d & -> & Hp & Hd & -> & Hu & Hw).
  apply (scan_neg_unnoticed h k radix p 0 ch d rest u); auto; lia.
Qed.
Lemma split_cmp : forall (p : list Z) ch t p' ch' t', p ++ ch :: t = p' ++ ch' :: t' ->
  (exists q, p = p' ++ ch' :: q) \/ (p = p' /\ ch = ch' /\ t = t') \/ (exists q, p' = p ++ ch :: q).
Proof.
  induction p as [|a p IH]; intros ch t p' ch' t' E; destruct p' as [|a' p']; cbn in E; inversion E; subst.
  - right; left; auto.
  - right; right. exists p'. reflexivity.
  - left. exists p. reflexivity.
  - destruct (IH _ _ _ _ _ H1) as [(q & ->)|[(-> & -> & ->)|(q & ->)]].
    + left. exists q. reflexivity.
    + right; left; auto.
    + right; right. exists q. reflexivity.
Qed.
(** beyond a missed overflow the value of the digits is out of range *)
Lemma beyond : forall p ch q v u d, numval radix p = Some u -> digit_in radix ch = Some d -> numval radix (p ++ ch :: q) = Some v -> u * radix + d <= v.
Proof.
  intros p ch q v u d Hp Hd Hv. unfold numval in *. rewrite horner_app, Hp in Hv. cbn [horner] in Hv. rewrite Hd in Hv.
  assert (0 <= u) by (apply (horner_nonneg radix p); auto; lia). pose proof (digit_in_range _ _ _ Hd).
  apply horner_ge in Hv; auto; [lia|nia].
Qed.
Lemma range_no_miss : forall s v, numval radix s = Some v -> v <= h -> forall p ch u, ~ unnoticed h k radix 0 s p ch u.
Proof.
  intros s v Hv Hl p ch u (((t & ->) & Hp) & Hu & Hd & Hw). destruct (digit_in radix ch) as [d|] eqn:E; [|contradiction].
  pose proof (beyond p ch t v u d Hp E Hv). pose proof (digit_in_range _ _ _ E). lia.
Qed.
Lemma stop_no_miss : forall s p ch u, stops radix 0 s p ch u -> u <= h ->
  match digit_in radix ch with Some d => h < u * radix + d /\ ~ h < u * radix < h + k | None => True end ->
  forall p' ch' u', ~ unnoticed h k radix 0 s p' ch' u'.
Proof.
  intros s p ch u ((t & ->) & Hp) Hu Hc p' ch' u' (((t' & E) & Hp') & Hu' & Hd & Hw).
  destruct (digit_in radix ch') as [d'|] eqn:E'; [|contradiction].
  destruct (split_cmp _ _ _ _ _ _ E) as [(q & ->)|[(-> & -> & ->)|(q & ->)]].
  - pose proof (beyond p' ch' q u u' d' Hp' E' Hp). pose proof (digit_in_range _ _ _ E'). lia.
  - rewrite E' in Hc. rewrite Hp in Hp'. inversion Hp'; subst. tauto.
  - destruct (digit_in radix ch) as [d|] eqn:Ed.
    + pose proof (beyond p ch q u' u d Hp Ed Hp'). lia.
    + rewrite horner_app, Hp in Hp'. cbn [horner] in Hp'. rewrite Ed in Hp'. discriminate.
Qed.
Lemma scan_neg_value : forall s v, scan_neg h k radix 0 s = Value v <->
  (numval radix s = Some (- v) /\ - v <= h) \/ (exists w, miss s [] w /\ v = 2 * h - w).
Proof.
  intros s v. split.
  - intros E. destruct (miss_or s) as [(rest & w & M)|N].
    + rewrite (miss_scan _ _ _ M) in E. destruct rest as [|a r]; [|destruct (digit_in radix a); discriminate].
      inversion E; subst. right. exists w. auto.
    + rewrite scan_neg_plain in E by (auto; lia). left. destruct (scan h radix 0 s) as [w| |] eqn:S; inversion E; subst.
      rewrite Z.opp_involutive. apply scan_value in S; [exact S|lia|lia].
  - intros [(Hv & Hl)|(w & M & ->)]; [|exact (miss_scan _ _ _ M)].
    rewrite scan_neg_plain by (auto; try lia; exact (range_no_miss _ _ Hv Hl)).
    assert (S : scan h radix 0 s = Value (- v)) by (apply scan_value; [lia|lia|auto]). rewrite S, Z.opp_involutive. reflexivity.
Qed.
Lemma scan_neg_bad : forall s, scan_neg h k radix 0 s = BadDigit <->
  (exists p ch u, stops radix 0 s p ch u /\ u <= h /\ digit_in radix ch = None) \/
  (exists ch t w, miss s (ch :: t) w /\ digit_in radix ch = None).
Proof.
  intros s. split.
  - intros E. destruct (miss_or s) as [(rest & w & M)|N].
    + rewrite (miss_scan _ _ _ M) in E. destruct rest as [|a r]; [discriminate|]. right. exists a, r, w. split; auto.
      destruct (digit_in radix a); [discriminate|auto].
    + rewrite scan_neg_plain in E by (auto; lia). left. destruct (scan h radix 0 s) as [w| |] eqn:S; inversion E; subst.
      apply scan_bad in S; [exact S|lia|lia].
  - intros [(p & ch & u & S & Hu & Hd)|(ch & t & w & M & Hd)].
    + rewrite scan_neg_plain; [|lia|lia|apply (stop_no_miss s p ch u S Hu); rewrite Hd; auto].
      assert (S' : scan h radix 0 s = BadDigit) by (apply scan_bad; [lia|lia|eauto 10]). rewrite S'. reflexivity.
    + rewrite (miss_scan _ _ _ M), Hd. reflexivity.
Qed.
Lemma scan_neg_large : forall s, scan_neg h k radix 0 s = TooLarge <->
  (exists p ch u d, stops radix 0 s p ch u /\ u <= h /\ digit_in radix ch = Some d /\ h < u * radix + d /\ ~ h < u * radix < h + k) \/
  (exists ch t w, miss s (ch :: t) w /\ digit_in radix ch <> None).
Proof.
  intros s. split.
  - intros E. destruct (miss_or s) as [(rest & w & M)|N].
    + rewrite (miss_scan _ _ _ M) in E. destruct rest as [|a r]; [discriminate|]. right. exists a, r, w. split; auto.
      destruct (digit_in radix a); discriminate.
    + rewrite scan_neg_plain in E by (auto; lia). left. destruct (scan h radix 0 s) as [w| |] eqn:S; inversion E; subst.
      apply scan_large in S; [|lia|lia]. destruct S as (p & ch & u & d & S & Hu & Hd & Hl). exists p, ch, u, d.
      repeat (split; auto). intros B. apply (N p ch u). split; [exact S|]. split; auto. split; [congruence|auto].
  - intros [(p & ch & u & d & S & Hu & Hd & Hl & Hn)|(ch & t & w & M & Hd)].
    + rewrite scan_neg_plain; [|lia|lia|apply (stop_no_miss s p ch u S Hu); rewrite Hd; auto].
      assert (S' : scan h radix 0 s = TooLarge) by (apply scan_large; [lia|lia|eauto 10]). rewrite S'. reflexivity.
    + rewrite (miss_scan _ _ _ M). destruct (digit_in radix ch); [reflexivity|contradiction].
Qed.
End ScanNeg.

Section Aux3.
Context {c : Cfg}.
Hypothesis HV : Valid.
Lemma missed_eq : forall radix s rest w, miss (2 ^ (BITS - 1)) (2 ^ (BITS - W)) radix s rest w <-> missed radix s rest w.
Proof. intros. split; intros (p & ch & u & d & R); exists p, ch, u, d; tauto. Qed.
Lemma slack_room : 4 * 2 ^ (BITS - W) <= 2 ^ (BITS - 1) /\ 2 ^ 192 <= 2 ^ (BITS - W).
Proof.
  pose proof (W_cases HV). pose proof (BITS_ge HV). split.
  - replace (4 * 2 ^ (BITS - W)) with (2 ^ (2 + (BITS - W))) by (rewrite Z.pow_add_r by lia; reflexivity). apply pow2_le_mono. lia.
  - apply pow2_le_mono. lia.
Qed.
Lemma missed_bounds : forall radix s rest w, 2 <= radix <= 36 -> missed radix s rest w ->
  2 ^ (BITS - 1) < w < 2 ^ (BITS - 1) + 2 ^ (BITS - W) + 35.
Proof.
  intros radix s rest w Hr (p & ch & u & d & _ & Hp & Hd & -> & Hu & Hw). pose proof (digit_in_range _ _ _ Hd). lia.
Qed.
Lemma missed_fits : forall radix s rest w, 2 <= radix <= 36 -> missed radix s rest w -> 0 < 2 ^ BITS - w < 2 ^ (BITS - 1).
Proof.
  intros radix s rest w Hr M. pose proof (missed_bounds _ _ _ _ Hr M) as B. pose proof (pBhalf HV). destruct slack_room as (S1 & S2).
  assert (35 < 2 ^ 192) by reflexivity. lia.
Qed.
(** fewer than 39 decimal digits are never out of range *)
Lemma horner_lt : forall radix s acc v, 1 <= radix -> 0 <= acc -> horner radix acc s = Some v -> v < (acc + 1) * radix ^ Z.of_nat (length s).
Proof.
  intros radix s. induction s as [|ch t IH]; intros acc v Hr Ha E; cbn [horner] in E.
  - inversion E; subst. cbn. lia.
  - destruct (digit_in radix ch) as [d|] eqn:Ed; [|discriminate]. pose proof (digit_in_range _ _ _ Ed).
    apply IH in E; [|auto|nia]. cbn [length]. rewrite Nat2Z.inj_succ, Z.pow_succ_r by lia.
    assert (0 < radix ^ Z.of_nat (length t)) by (apply Z.pow_pos_nonneg; lia). nia.
Qed.
Lemma missed_long : forall s rest w, missed 10 s rest w -> (39 <= length s)%nat.
Proof.
  intros s rest w (p & ch & u & d & -> & Hp & Hd & -> & Hu & Hw). destruct (Nat.lt_ge_cases (length (p ++ ch :: rest)) 39) as [L|L]; auto. exfalso.
  rewrite app_length in L. cbn [length] in L. apply horner_lt in Hp; [|lia|lia].
  assert (10 ^ Z.of_nat (length p) <= 10 ^ 38) by (apply Z.pow_le_mono_r; lia).
  assert (2 ^ 255 <= 2 ^ (BITS - 1)) by (apply pow2_le_mono; pose proof (BITS_ge HV); lia).
  assert (10 ^ 38 * 10 < 2 ^ 255) by reflexivity. lia.
Qed.
End Aux3.

(** ** Strings with a minus sign, signed types *)

(** The value returned: a lone minus is zero, a numeral of a representable
    value is that value, and a numeral whose last digit is where the overflow
    is missed is a positive number. *)
Theorem C79_minus_value : forall (c : Cfg) t radix v, Valid -> bytes t -> 2 <= radix <= 36 ->
  (parses_s (from_str_radix true (45 :: t) radix) v <->
   (t = [] /\ v = 0) \/ (numeral true radix (45 :: t) v /\ fits_s BITS v) \/
   (exists w, missed radix t [] w /\ v = 2 ^ BITS - w)).
Proof.
  intros c t radix v HV Hb Hr. rewrite (from_str_radix_ok HV) by (auto using minus_bytes). rewrite parse_result_neg.
  pose proof (pBh HV) as P. pose proof (pBhalf HV) as PB.
  assert (SV : forall u, scan_neg (2 ^ (BITS - 1)) (2 ^ (BITS - W)) radix 0 t = Value u <->
    (numval radix t = Some (- u) /\ - u <= 2 ^ (BITS - 1)) \/ (exists w, missed radix t [] w /\ u = 2 ^ BITS - w)).
  { intros u. rewrite scan_neg_value by lia. rewrite <- PB. split; (intros [H|(w & H & E)]; [left; auto|right; exists w; split; auto; apply missed_eq; auto]). }
  assert (FT : forall u, scan_neg (2 ^ (BITS - 1)) (2 ^ (BITS - W)) radix 0 t = Value u -> fits_s BITS u).
  { intros u Hu. apply SV in Hu. destruct Hu as [(H1 & H2)|(w & M & ->)].
    - assert (0 <= - u) by (apply (horner_nonneg radix t); auto; lia). unfold fits_s. lia.
    - pose proof (missed_fits HV _ _ _ _ Hr M). unfold fits_s. lia. }
  transitivity (scan_neg (2 ^ (BITS - 1)) (2 ^ (BITS - W)) radix 0 t = Value v).
  - split.
    + intros H. destruct (scan_neg _ _ _ _ _) as [u| |] eqn:E; cbn [from_scan] in H.
      * apply (parses_ofZ HV true u v) in H; [congruence|]. apply FT. auto.
      * exfalso. exact (parses_err true _ _ H).
      * exfalso. exact (parses_err true _ _ H).
    + intros E. pose proof (FT _ E). rewrite E. cbn [from_scan]. apply (parses_ofZ HV true v v); auto.
  - rewrite SV, numeral_neg. split.
    + intros [(H1 & H2)|M]; [|auto]. destruct t as [|a t]; [left; split; auto; inversion H1; lia|]. right; left.
      split; [split; [discriminate|auto]|]. assert (0 <= - v) by (apply (horner_nonneg radix (a :: t)); auto; lia). unfold fits_s. lia.
    + intros [(-> & ->)|[((_ & H1) & H2)|M]]; [left; cbn; split; auto; lia|left; split; auto; unfold fits_s in H2; lia|right; auto].
Qed.
(** The errors. *)
Theorem C79_minus_invalid : forall (c : Cfg) t radix, Valid -> bytes t -> 2 <= radix <= 36 ->
  (from_str_radix true (45 :: t) radix = Ok (PErr EInvalidDigit) <->
   (exists p ch u, reaches radix t p ch u /\ fits_s BITS (- u) /\ digit_in radix ch = None) \/
   (exists ch rest w, missed radix t (ch :: rest) w /\ digit_in radix ch = None)).
Proof.
  intros c t radix HV Hb Hr. rewrite (from_str_radix_ok HV) by (auto using minus_bytes). rewrite parse_result_neg.
  pose proof (pBh HV) as P. rewrite from_scan_bad, scan_neg_bad by lia.
  split; (intros [(p & ch & u & (S & N) & H)|(ch & r & w & M & D)];
    [left; exists p, ch, u; split; [split; auto|]; assert (0 <= u) by (apply (horner_nonneg radix p); auto; lia); unfold fits_s in *; (split; [lia|tauto])
    |right; exists ch, r, w; split; auto; apply missed_eq; auto]).
Qed.
Theorem C79_minus_overflow : forall (c : Cfg) t radix, Valid -> bytes t -> 2 <= radix <= 36 ->
  (from_str_radix true (45 :: t) radix = Ok (PErr ENegOverflow) <->
   (exists p ch u d, reaches radix t p ch u /\ fits_s BITS (- u) /\ digit_in radix ch = Some d /\ ~ fits_s BITS (- (u * radix + d)) /\
      (fits_s BITS (- (u * radix)) \/ 2 ^ (BITS - 1) + 2 ^ (BITS - W) <= u * radix)) \/
   (exists ch rest w, missed radix t (ch :: rest) w /\ digit_in radix ch <> None)) /\
  from_str_radix true (45 :: t) radix <> Ok (PErr EPosOverflow) /\ from_str_radix true (45 :: t) radix <> Ok (PErr EEmpty).
Proof.
  intros c t radix HV Hb Hr. rewrite (from_str_radix_ok HV) by (auto using minus_bytes). rewrite parse_result_neg.
  pose proof (pBh HV) as P. split.
  - rewrite (from_scan_large true), scan_neg_large by lia.
    split; (intros [(p & ch & u & d & (S & N) & H1 & H2 & H3 & H4)|(ch & r & w & M & D)];
      [left; exists p, ch, u, d; split; [split; auto|]; assert (0 <= u) by (apply (horner_nonneg radix p); auto; lia); pose proof (digit_in_range _ _ _ H2);
        assert (0 <= u * radix) by nia; unfold fits_s in *; (split; [lia|]); (split; [auto|]); lia
      |right; exists ch, r, w; split; auto; apply missed_eq; auto]).
  - destruct (scan_neg _ _ _ _ _); cbn; split; discriminate.
Qed.
(** A string with a minus sign is read as a positive number exactly when the
    overflow is missed at its last digit, and the number is then close to the
    largest one. *)
Theorem C79_minus_positive : forall (c : Cfg) t radix, Valid -> bytes t -> 2 <= radix <= 36 ->
  ((exists v, parses_s (from_str_radix true (45 :: t) radix) v /\ 0 < v) <-> exists w, missed radix t [] w) /\
  (forall v, parses_s (from_str_radix true (45 :: t) radix) v -> 0 < v -> 2 ^ (BITS - 1) - 2 ^ (BITS - W) - 35 < v < 2 ^ (BITS - 1)).
Proof.
  intros c t radix HV Hb Hr.
  assert (K : forall v, parses_s (from_str_radix true (45 :: t) radix) v -> 0 < v -> exists w, missed radix t [] w /\ v = 2 ^ BITS - w).
  { intros v H Hv. apply (C79_minus_value c t radix v HV Hb Hr) in H. destruct H as [(_ & ->)|[(H & _)|H]]; [lia| |exact H].
    apply numeral_neg in H. destruct H as [_ H]. apply horner_nonneg in H; lia. }
  split.
  - split; [intros (v & H & Hv); destruct (K v H Hv) as (w & M & _); eauto|]. intros (w & M). exists (2 ^ BITS - w).
    split; [apply (C79_minus_value c t radix _ HV Hb Hr); eauto 6|]. pose proof (missed_fits HV _ _ _ _ Hr M). lia.
  - intros v H Hv. destruct (K v H Hv) as (w & M & ->). pose proof (missed_bounds _ _ _ _ Hr M). pose proof (pBhalf HV). lia.
Qed.
(** There are such strings in every radix. *)
Theorem C79_every_radix : forall (c : Cfg) radix, Valid -> 2 <= radix <= 36 ->
  exists t w v, bytes t /\ missed radix t [] w /\ numeral true radix (45 :: t) (- w) /\
    parses_s (from_str_radix true (45 :: t) radix) v /\ 0 < v.
Proof.
  intros c radix HV Hr. pose proof (pBh HV) as P. pose proof (pBhalf HV) as PB. destruct (slack_room HV) as (S1 & S2). assert (E36 : 36 < 2 ^ 192) by reflexivity.
  set (u := 2 ^ (BITS - 1) / radix + 1).
  assert (U : 2 ^ (BITS - 1) < u * radix <= 2 ^ (BITS - 1) + radix).
  { unfold u. pose proof (Z.div_mod (2 ^ (BITS - 1)) radix ltac:(lia)). pose proof (Z.mod_pos_bound (2 ^ (BITS - 1)) radix ltac:(lia)). nia. }
  assert (U1 : 0 < u <= 2 ^ (BITS - 1)).
  { assert (2 ^ (BITS - 1) / radix <= 2 ^ (BITS - 1) / 2) by (apply Z.div_le_compat_l; lia).
    assert (0 <= 2 ^ (BITS - 1) / radix) by (apply Z.div_pos; lia).
    assert (2 ^ (BITS - 1) / 2 < 2 ^ (BITS - 1)) by (apply Z.div_lt; lia). unfold u. lia. }
  clearbody u.
  destruct (C29_unsigned c (ofZ u) (repeat 0 (Z.to_nat BITS)) radix HV (wf_ofZ HV u) Hr) as (i & s & _ & _ & ((Hne & Hs & _) & Hup)).
  { rewrite repeat_length. pose proof (BITS_pos HV). lia. }
  assert (EU : uval (ofZ u) = u) by (apply (val_ofZ_small HV false); cbn; unfold fits_u; lia). rewrite EU in Hs.
  assert (BS : bytes (s ++ [48])).
  { apply Forall_app. split; [|repeat constructor; lia]. eapply Forall_impl; [|exact Hup]. intros a [Ha|Ha]; unfold fits_u; change (2 ^ 8) with 256; lia. }
  assert (D0 : digit_in radix 48 = Some 0) by (unfold digit_in; cbn; destruct (Z.ltb_spec 0 radix); [reflexivity|lia]).
  assert (M : missed radix (s ++ [48]) [] (u * radix + 0)) by (exists s, 48, u, 0; repeat (split; auto); lia).
  exists (s ++ [48]), (u * radix + 0), (2 ^ BITS - (u * radix + 0)). split; auto. split; auto. split; [|split].
  - apply numeral_neg. split; [destruct s; discriminate|]. unfold numval in *. rewrite horner_app, Hs. cbn [horner]. rewrite D0. f_equal. lia.
  - apply (C79_minus_value c _ radix _ HV BS Hr). right; right. eauto.
  - pose proof (missed_fits HV _ _ _ _ Hr M). lia.
Qed.

(** ** Strings without a minus sign, and unsigned types *)

Theorem C79_plain : forall (c : Cfg) (sg : bool) s radix v, Valid -> bytes s -> 2 <= radix <= 36 -> (sg = true -> hd 0 s <> 45) ->
  ((exists r, from_str_radix sg s radix = Ok (POk r) /\ wf r /\ (if sg then sval r else uval r) = v) <->
   (s = [43] /\ v = 0) \/ (numeral sg radix s v /\ (if sg then fits_s BITS v else fits_u BITS v))).
Proof.
  intros c sg s radix v HV Hb Hr Hs. destruct (list_eq_dec Z.eq_dec s [43]) as [->|Hn].
  - rewrite (from_str_radix_ok HV) by auto. cbn [parse_result]. cbv [Z.eqb Pos.eqb]. unfold scan_result. cbn [scan from_scan].
    split.
    + intros (r & E & _ & Hv). left. split; auto. inversion E; subst. destruct sg; [apply (val_ofZ_small HV true)|apply (val_ofZ_small HV false)]; apply (fits_small HV); lia.
    + intros [(_ & ->)|(H & _)].
      * exists (ofZ 0). split; auto. split; [apply (wf_ofZ HV)|]. destruct sg; [apply (val_ofZ_small HV true)|apply (val_ofZ_small HV false)]; apply (fits_small HV); lia.
      * exfalso. apply numeral_pos in H; [|cbn; lia]. destruct H; auto.
  - destruct sg.
    + split; [intros H; right|intros [(E & _)|H]; [contradiction|]]; apply (C27_signed_partial c s radix v HV Hb Hr); auto;
        try (intros ->; apply Hs; reflexivity); intros t ->; exfalso; apply Hs; reflexivity.
    + split; [intros H; right|intros [(E & _)|H]; [contradiction|]]; apply (C27_unsigned c s radix v HV Hb Hr Hn); exact H.
Qed.

(** ** FromStr *)

Theorem C79_from_str : forall (c : Cfg) small s v, Valid -> bytes s ->
  (parses_s (from_str small true s) v <->
   (numeral true 10 s v /\ fits_s BITS v) \/ (exists t w, s = 45 :: t /\ missed 10 t [] w /\ v = 2 ^ BITS - w)).
Proof.
  intros c small s v HV Hb. destruct (Nat.lt_ge_cases (length s) 39) as [L|L].
  - rewrite (short_value HV small true s v L). split; [auto|]. intros [H|(t & w & -> & M & _)]; [exact H|].
    apply (missed_long HV) in M. cbn [length] in L. lia.
  - rewrite from_str_long by auto. destruct (hd45 s) as [[t ->]|Hd].
    + assert (Ht : bytes t) by (inversion Hb; auto). rewrite (C79_minus_value c t 10 v HV Ht) by lia. split.
      * intros [(-> & _)|[H|(w & M & E)]]; [cbn [length] in L; lia|auto|right; exists t, w; auto].
      * intros [H|(t' & w & E & M & Ev)]; [auto|]. inversion E; subst. eauto 6.
    + assert (N : forall t, s = 45 :: t -> no_window 10 t) by (intros t ->; exfalso; apply Hd; reflexivity).
      rewrite (C27_signed_partial c s 10 v HV Hb) by (auto; try lia; intros ->; cbn [length] in L; lia).
      split; [auto|]. intros [H|(t & w & -> & _)]; [exact H|]. exfalso. apply Hd. reflexivity.
Qed.
(** "-578…970" again, and the same digits followed by a digit and by '!' *)
Example C79_ex1 : @missed c256_64 10 (dec (2 ^ 255 + 2)) [] (2 ^ 255 + 2)
  /\ from_str (c := c256_64) false true (45 :: dec (2 ^ 255 + 2)) = Ok (POk (E64 (2 ^ 255 - 2)))
  /\ from_str (c := c256_64) false true (45 :: dec (2 ^ 255 + 2) ++ [48]) = Ok (PErr ENegOverflow)
  /\ from_str (c := c256_64) false true (45 :: dec (2 ^ 255 + 2) ++ [33]) = Ok (PErr EInvalidDigit)
  /\ from_str (c := c256_64) false true (45 :: dec (2 ^ 255)) = Ok (POk (E64 (- 2 ^ 255)))
  /\ from_str (c := c256_64) false true (45 :: dec (2 ^ 255 + 1)) = Ok (PErr ENegOverflow).
Proof.
  split.
  - exists (dec ((2 ^ 255 + 2) / 10)), 48, ((2 ^ 255 + 2) / 10), 0. split; [vm_compute; reflexivity|]. split; [vm_compute; reflexivity|].
    split; [reflexivity|]. split; [vm_compute; reflexivity|]. split; [vm_compute; discriminate|split; vm_compute; reflexivity].
  - vm_compute. auto 10.
Qed.

(** ** Logarithms *)

(** The division inside panics: the base fills all limbs, is below the argument
    and the quotient estimate needs correcting. *)
Definition log_panics {c : Cfg} (x b : Z) : Prop := 2 ^ (BITS - W) <= b < x /\ has_correction W x b = true.
Definition is_log (x b k : Z) : Prop := 0 <= k /\ b ^ k <= x < b ^ (k + 1).

Section Aux4.
Context {c : Cfg}.
Hypothesis HV : Valid.
Lemma log_panics_iff : forall x b, ilog_panics x b = true <-> log_panics x b.
Proof.
  intros x b. unfold ilog_panics, log_panics. rewrite !andb_true_iff, Z.leb_le, Z.ltb_lt. tauto.
Qed.
Lemma is_log_unique : forall x b k j, 2 <= b -> is_log x b k -> is_log x b j -> k = j.
Proof.
  assert (K : forall x b k j, 2 <= b -> is_log x b k -> is_log x b j -> ~ k < j).
  { intros x b k j Hb (K0 & K1 & K2) (J0 & J1 & J2) L. pose proof (Z.pow_le_mono_r b (k + 1) j). lia. }
  intros x b k j Hb Hk Hj. pose proof (K x b k j Hb Hk Hj). pose proof (K x b j k Hb Hj Hk). lia.
Qed.
Lemma u_log_cases : forall x b, wf x -> wf b -> (uval b = 1 -> uval x = 0) ->
  ((uval x = 0 \/ uval x < uval b \/ uval b = 0) /\ u_checked_ilog x b = Ok None) \/
  (2 <= uval b <= uval x /\ log_panics (uval x) (uval b) /\ u_checked_ilog x b = Panic) \/
  (2 <= uval b <= uval x /\ ~ log_panics (uval x) (uval b) /\ exists k, u_checked_ilog x b = Ok (Some k) /\ k < BITS /\ is_log (uval x) (uval b) k).
Proof.
  intros x b Hx Hb H1. pose proof (uval_range HV x Hx). pose proof (uval_range HV b Hb).
  assert (D : (uval x = 0 \/ uval b = 0 \/ uval x < uval b) \/ 2 <= uval b <= uval x) by lia.
  destruct D as [D|D].
  - left. split; [tauto|]. apply (u_checked_ilog_none HV); auto.
  - right. pose proof (u_checked_ilog_ok HV x b Hx Hb D) as R. destruct (ilog_panics (uval x) (uval b)) eqn:E.
    + left. split; auto. split; auto. apply log_panics_iff. auto.
    + right. split; auto. split; [rewrite <- log_panics_iff; congruence|]. destruct R as (k & R1 & R2 & R3). exists k. split; auto. split; [lia|]. split; [lia|auto].
Qed.
Lemma pos_same : forall z, wf z -> 0 <= sval z -> uval z = sval z.
Proof.
  intros z Hz Hp. pose proof (sval_range HV z Hz). pose proof (pBhalf HV). rewrite <- (ofZ_sval HV z Hz) at 1.
  apply (val_ofZ_small HV false). cbn; unfold fits_u. lia.
Qed.
Lemma s_log_cases : forall x b, wf x -> wf b ->
  ((sval x <= 0 \/ sval b <= 1) /\ s_checked_ilog x b = Ok None) \/
  (0 < sval x /\ 2 <= sval b /\ (sval x < sval b \/ log_panics (sval x) (sval b)) /\ s_checked_ilog x b = Panic) \/
  (2 <= sval b <= sval x /\ ~ log_panics (sval x) (sval b) /\ exists k, s_checked_ilog x b = Ok (Some k) /\ k < BITS /\ is_log (sval x) (sval b) k).
Proof.
  intros x b Hx Hb. rewrite (s_checked_ilog_eq HV) by auto.
  destruct (Z.leb_spec (sval x) 0) as [L|L]; [left; split; auto|]. destruct (Z.leb_spec (sval b) 1) as [L'|L']; [left; split; auto|].
  right. cbn [orb]. assert (Ux : uval x = sval x) by (apply pos_same; auto; lia). assert (Ub : uval b = sval b) by (apply pos_same; auto; lia).
  assert (N1 : uval b = 1 -> uval x = 0) by lia.
  destruct (u_log_cases x b Hx Hb N1) as [(D & E)|[(D & P & E)|(D & P & k & E & R)]]; rewrite E; cbn [unwrap bind]; rewrite Ux, Ub in *.
  - left. split; [lia|]. split; [lia|]. split; [left; lia|auto].
  - left. split; [lia|]. split; [lia|]. auto.
  - right. split; auto. split; auto. exists k. auto.
Qed.
Lemma s_ilog_eq : forall x b, wf x -> wf b ->
  s_ilog x b = if 2 <=? sval b then unwrap (s_checked_ilog x b) else Panic.
Proof.
  intros x b Hx Hb. unfold s_ilog. rewrite (from_u8_ok HV) by (unfold fits_u; lia). cbn [bind].
  rewrite (ge_const_ok HV) by (auto; apply (wf_ofZ HV)). cbn [bind val]. rewrite (sval_lit HV 2) by lia.
  destruct (_ <=? _); reflexivity.
Qed.
Lemma one_loop : forall x b, wf x -> wf b -> uval b = 1 -> 1 <= uval x ->
  forall fuel n, 0 <= n < 2 ^ 32 ->
  ilog_loop fuel x b n (ofZ 1) = if chk && (2 ^ 32 - n <=? Z.of_nat fuel) then Panic else OutOfFuel.
Proof.
  intros x b Hx Hb H1 Hx1. pose proof (uval_range HV x Hx) as Rx. induction fuel as [|fuel IH]; intros n Hn.
  { destruct (Z.leb_spec (2 ^ 32 - n) (Z.of_nat 0)); [lia|]. rewrite andb_false_r. reflexivity. }
  cbn [ilog_loop]. rewrite (u_op_div_ok HV) by (auto; lia). unfold ilog_panics. rewrite H1.
  assert (T : (2 ^ (BITS - W) <=? 1) = false).
  { apply Z.leb_gt. pose proof (BITS_ge HV). apply Z.pow_gt_1; [lia|]. destruct (W_cases HV); lia. }
  rewrite T. cbn [andb bind]. rewrite Z.div_1_r. rewrite (le_const_ok HV) by (auto; apply (wf_ofZ HV)). cbn [bind].
  rewrite (val_ofZ_small HV false 1) by (apply (fits_small HV); lia). rewrite (val_ofZ_small HV false (uval x)) by exact Rx.
  destruct (Z.leb_spec 1 (uval x)); [|lia].
  assert (V1 : val false (ofZ 1) = 1) by (apply (val_ofZ_small HV false 1); apply (fits_small HV); lia).
  assert (FM : fits false (val false (ofZ 1) * val false b)) by (rewrite V1; cbn [val]; rewrite H1; apply (fits_small HV); lia).
  assert (OM : op_mul false (ofZ 1) b = Ok (ofZ 1)).
  { rewrite (op_mul_fits HV) by (auto; apply (wf_ofZ HV)). rewrite V1. cbn [val]. rewrite H1. reflexivity. }
  unfold uadd, uchk. assert (L32 : in_u 32 (n + 1) = (n + 1 <? 2 ^ 32)).
  { unfold in_u. destruct (Z.leb_spec 0 (n + 1)); [reflexivity|lia]. }
  rewrite L32. destruct (Z.ltb_spec (n + 1) (2 ^ 32)) as [L|L].
  - cbn [bind]. rewrite OM. cbn [bind]. rewrite IH by lia. replace (2 ^ 32 - (n + 1) <=? Z.of_nat fuel) with (2 ^ 32 - n <=? Z.of_nat (S fuel)); [reflexivity|].
    destruct (Z.leb_spec (2 ^ 32 - n) (Z.of_nat (S fuel))), (Z.leb_spec (2 ^ 32 - (n + 1)) (Z.of_nat fuel)); auto; lia.
  - assert (En : n + 1 = 2 ^ 32) by lia. destruct (Z.leb_spec (2 ^ 32 - n) (Z.of_nat (S fuel))); [|lia].
    destruct chk eqn:Ec; cbn [andb bind]; [reflexivity|]. rewrite En. change (ucast 32 (2 ^ 32)) with 0. rewrite OM. cbn [bind].
    rewrite IH by lia. reflexivity.
Qed.
End Aux4.

(** Unsigned, any base but one (or any base under zero). *)
Theorem C79_ilog_unsigned : forall (c : Cfg) x b, Valid -> wf x -> wf b -> (uval b = 1 -> uval x = 0) ->
  (u_checked_ilog x b = Ok None <-> uval x = 0 \/ uval x < uval b \/ uval b = 0) /\
  (forall k, u_checked_ilog x b = Ok (Some k) <-> 2 <= uval b <= uval x /\ is_log (uval x) (uval b) k /\ ~ log_panics (uval x) (uval b)) /\
  (u_checked_ilog x b = Panic <-> log_panics (uval x) (uval b)) /\
  u_checked_ilog x b <> OutOfFuel /\
  (forall k, u_ilog x b = Ok k <-> u_checked_ilog x b = Ok (Some k)).
Proof.
  intros c x b HV Hx Hb H1. assert (LP : log_panics (uval x) (uval b) -> 2 <= uval b <= uval x).
  { intros ((P & Q) & _). assert (2 ^ 192 <= 2 ^ (BITS - W)) by apply (slack_room HV). assert (2 < 2 ^ 192) by reflexivity. lia. }
  unfold u_ilog.
  destruct (u_log_cases HV x b Hx Hb H1) as [(D & E)|[(D & P & E)|(D & P & k & E & R & L)]]; rewrite E; cbn [unwrap].
  - split; [tauto|]. split; [intros k; split; [discriminate|intros (? & ? & ?); lia]|]. split; [split; [discriminate|intros P; apply LP in P; lia]|].
    split; [discriminate|]. intros k; split; discriminate.
  - split; [split; [discriminate|lia]|]. split; [intros k; split; [discriminate|tauto]|]. split; [tauto|]. split; [discriminate|]. intros k; split; discriminate.
  - split; [split; [discriminate|lia]|]. split.
    { intros j. split; [intros Ej; inversion Ej; subst; auto|]. intros (_ & Lj & _). rewrite (is_log_unique _ _ k j) with (2 := L); auto. lia. }
    split; [split; [discriminate|tauto]|]. split; [discriminate|]. intros j. split; intros Ej; inversion Ej; subst; auto.
Qed.
(** Signed, any base. *)
Theorem C79_ilog_signed : forall (c : Cfg) x b, Valid -> wf x -> wf b ->
  (s_checked_ilog x b = Ok None <-> sval x <= 0 \/ sval b <= 1) /\
  (forall k, s_checked_ilog x b = Ok (Some k) <-> 2 <= sval b <= sval x /\ is_log (sval x) (sval b) k /\ ~ log_panics (sval x) (sval b)) /\
  (s_checked_ilog x b = Panic <-> 0 < sval x < sval b \/ log_panics (sval x) (sval b)) /\
  s_checked_ilog x b <> OutOfFuel /\
  (forall k, s_ilog x b = Ok k <-> s_checked_ilog x b = Ok (Some k)).
Proof.
  intros c x b HV Hx Hb. assert (LP : log_panics (sval x) (sval b) -> 2 <= sval b <= sval x).
  { intros ((P & Q) & _). assert (2 ^ 192 <= 2 ^ (BITS - W)) by apply (slack_room HV). assert (2 < 2 ^ 192) by reflexivity. lia. }
  rewrite (s_ilog_eq HV) by auto.
  destruct (s_log_cases HV x b Hx Hb) as [(D & E)|[(D1 & D2 & P & E)|(D & P & k & E & R & L)]]; rewrite E; cbn [unwrap].
  - split; [tauto|]. split; [intros k; split; [discriminate|intros (? & ? & ?); lia]|]. split; [split; [discriminate|intros [P|P]; [lia|apply LP in P; lia]]|].
    split; [discriminate|]. intros k; destruct (2 <=? sval b); split; discriminate.
  - split; [split; [discriminate|lia]|]. split; [intros k; split; [discriminate|]|].
    { intros (Q1 & _ & Q2). destruct P; [lia|tauto]. }
    split; [split; auto; intros _; destruct P; [left; lia|auto]|]. split; [discriminate|]. intros k; destruct (2 <=? sval b); split; discriminate.
  - split; [split; [discriminate|lia]|]. split.
    { intros j. split; [intros Ej; inversion Ej; subst; auto|]. intros (_ & Lj & _). rewrite (is_log_unique _ _ k j) with (2 := L); auto. lia. }
    split; [split; [discriminate|intros [Q|Q]; [lia|tauto]]|]. split; [discriminate|]. destruct (Z.leb_spec 2 (sval b)); [|lia].
    intros j. split; intros Ej; inversion Ej; subst; auto.
Qed.
(** Unsigned base one: the loop does not end; with overflow checks its counter
    overflows after [2^32 - log2 x] rounds. *)
Theorem C79_ilog_one : forall (c : Cfg) x b fuel, Valid -> wf x -> wf b -> uval b = 1 -> 1 <= uval x ->
  u_checked_ilog_fuel fuel x b = if chk && (2 ^ 32 - Z.log2 (uval x) <=? Z.of_nat fuel) then Panic else OutOfFuel.
Proof.
  intros c x b fuel HV Hx Hb H1 Hx1. pose proof (uval_range HV x Hx) as Rx.
  assert (D1 : Z.log2 (uval x) / (Z.log2 1 + 1) = Z.log2 (uval x)) by (change (Z.log2 1 + 1) with 1; apply Z.div_1_r).
  assert (L0 : 0 <= Z.log2 (uval x)) by apply Z.log2_nonneg.
  rewrite (ilog_prefix HV) by (auto; rewrite ?H1, ?D1, ?Z.pow_1_l; auto; lia). cbv zeta. rewrite H1, D1, Z.pow_1_l by exact L0.
  assert (L1 : Z.log2 (uval x) < BITS) by (apply (log2_lt_BITS HV); auto). pose proof (BITS_lt31 HV).
  assert (LL : 0 <= Z.log2 (uval x) < 2 ^ 32) by (pose proof (pow2_le_mono 31 32); lia).
  rewrite (one_loop HV x b Hx Hb H1 Hx1 fuel _ LL). destruct (_ && _); reflexivity.
Qed.
(** a base of all limbs: one that needs no correction, and one that does *)
Example C79_ex2 : @u_checked_ilog c256_64 (E64 (2 ^ 200)) (E64 (2 ^ 192)) = Ok (Some 1)
  /\ @s_checked_ilog c256_64 (E64 (2 ^ 193 + 1)) (E64 (2 ^ 192 + 1)) = Panic /\ @log_panics c256_64 (2 ^ 193 + 1) (2 ^ 192 + 1)
  /\ ~ @log_panics c256_64 (2 ^ 200) (2 ^ 192)
  /\ @s_checked_ilog c256_64 (E64 5) (E64 10) = Panic /\ @s_ilog c256_64 (E64 125) (E64 5) = Ok 3 /\ is_log 125 5 3
  /\ @u_checked_ilog_fuel c256_64 1000 (E64 5) (E64 1) = OutOfFuel.
Proof.
  split; [vm_compute; reflexivity|]. split; [vm_compute; reflexivity|]. split; [vm_compute; intuition discriminate|].
  split; [intros (_ & H); vm_compute in H; discriminate|]. split; [vm_compute; reflexivity|]. split; [vm_compute; reflexivity|].
  split; [vm_compute; intuition discriminate|vm_compute; reflexivity].
Qed.

(** ** Assumptions (each must print "Closed under the global context") *)

Print Assumptions C79_minus_value.
Print Assumptions C79_minus_invalid.
Print Assumptions C79_minus_overflow.
Print Assumptions C79_minus_positive.
Print Assumptions C79_every_radix.
Print Assumptions C79_plain.
Print Assumptions C79_from_str.
Print Assumptions C79_ilog_unsigned.
Print Assumptions C79_ilog_signed.
Print Assumptions C79_ilog_one.
