(** * Properties: independence of the limb size, continued (C64)

    Scalar operands of fixed width, text, bytes and words: what two builds of
    one type width (vocabulary in PropsIndep.v) have in common. *)

Require Import ZArith List Bool Lia.
From Verif Require Import Prim Spec Facts MAdd MMul MShift MCore PCore PBits PWide MArith PArith PArith2 PPow PMisc PBits2 PRet
  MDiv DivSpec PDivExact MApi PropsDiv MScalar PScalar PScalarDiv PropsScalar TextSpec MApi MParse PParse PParse2 PropsParse MWrite PWrite PWrite2 PropsWrite
  MLayout PLayout PLayout2 PropsLayout PropsIndep.
Import ListNotations.
Local Open Scope Z_scope.

(** ** Vocabulary *)

(** The scalar kinds whose width does not depend on the build. *)
Definition fixed (k : skind) : Prop := k = K32 \/ k = K64 \/ k = K128.
Definition fbits (k : skind) : Z := match k with K32 => 32 | K64 => 64 | _ => 128 end.
Lemma fixed_bits : forall (c : Cfg) k, fixed k -> @kbits c k = fbits k.
Proof. intros c k [-> | [-> | ->]]; reflexivity. Qed.
(** Two results of parsing: the same integer or the same error. *)
Definition same_parsed (c1 c2 : Cfg) (a b : parsed) : Prop :=
  match a, b with POk u, POk v => big c1 c2 u v | PErr e, PErr e' => e = e' | _, _ => False end.

(** ** Scalar operands *)

Section S.
Variables c1 c2 : Cfg.
Hypothesis SB : same_build c1 c2.
Lemma oflag_same : forall o sg a b, sg = false \/ o <> SMul -> @oflag c1 o sg a b = @oflag c2 o sg a b.
Proof.
  intros o sg a b H. unfold oflag. rewrite (fitsb_same _ _ SB). destruct o; auto.
  destruct H as [-> |H]; [apply (mulf_same_u _ _ SB)|contradiction].
Qed.
End S.

(** The unsigned types: every scalar operation agrees. *)
Theorem C64_scalar_unsigned : forall c1 c2 o k n, same_build c1 c2 -> fixed k -> fits_u (fbits k) n ->
  same1 c1 c2 (big c1 c2) (fun c x => @wrapping_us c o k false x n) /\
  same1 c1 c2 (flagged c1 c2) (fun c x => @overflowing_us c o k false x n) /\
  same1 c1 c2 (opt_of (big c1 c2)) (fun c x => @checked_us c o k false x n) /\
  same1 c1 c2 (big c1 c2) (fun c x => @plain_us c o k false x n).
Proof.
  intros c1 c2 o k n SB Hk Hn. start SB.
  assert (F1 : fits_u (@kbits c1 k) n) by (rewrite fixed_bits; auto).
  assert (F2 : fits_u (@kbits c2 k) n) by (rewrite fixed_bits; auto).
  split; [|split; [|split]]; intros x1 x2 Hx; args SB.
  - rewrite (wrapping_us_ok V1), (wrapping_us_ok V2) by (auto; discriminate). evs. fin SB.
  - rewrite (overflowing_us_ok V1), (overflowing_us_ok V2) by (auto; discriminate). rewrite (oflag_same _ _ SB) by auto. evs. fin SB.
  - rewrite (checked_us_ok V1), (checked_us_ok V2) by (auto; discriminate). rewrite (oflag_same _ _ SB) by auto. evs. fin SB.
  - rewrite (plain_us_ok V1), (plain_us_ok V2) by (auto; discriminate). rewrite (oflag_same _ _ SB) by auto. evs. fin SB.
Qed.
(** The signed types, outside the exchanged 128-bit scalars of 32-bit limbs:
    values always agree, overflow is reported alike for addition and
    subtraction.  Missing: signed overflow flags of multiplication (refuted for
    full-width operands in [C47_checked_mul_refuted], for scalars below). *)
Theorem C64_scalar_signed_partial : forall c1 c2 o k n, same_build c1 c2 -> fixed k ->
  ~ @wide_scalar c1 k -> ~ @wide_scalar c2 k ->
  (fits_u (fbits k) n ->
   same1 c1 c2 (big c1 c2) (fun c x => @wrapping_us c o k true x n) /\
   (o <> SMul ->
    same1 c1 c2 (flagged c1 c2) (fun c x => @overflowing_us c o k true x n) /\
    same1 c1 c2 (opt_of (big c1 c2)) (fun c x => @checked_us c o k true x n) /\
    same1 c1 c2 (big c1 c2) (fun c x => @plain_us c o k true x n))) /\
  (fits_s (fbits k) n ->
   same1 c1 c2 (big c1 c2) (fun c x => @wrapping_is c o k x n) /\
   (o <> SMul ->
    same1 c1 c2 (flagged c1 c2) (fun c x => @overflowing_is c o k x n) /\
    same1 c1 c2 (opt_of (big c1 c2)) (fun c x => @checked_is c o k x n) /\
    same1 c1 c2 (big c1 c2) (fun c x => @plain_is c o k x n))).
Proof.
  intros c1 c2 o k n SB Hk S1 S2. start SB. change (~ @swapped c1 k) in S1. change (~ @swapped c2 k) in S2.
  split; intros Hn; rewrite <- (fixed_bits c1 k Hk) in Hn; assert (Hn' := Hn);
    rewrite (fixed_bits c1 k Hk), <- (fixed_bits c2 k Hk) in Hn';
    (split; [|intros Ho; split; [|split]]); intros x1 x2 Hx; args SB.
  - rewrite (wrapping_us_ok V1), (wrapping_us_ok V2) by auto. evs. fin SB.
  - rewrite (overflowing_us_ok V1), (overflowing_us_ok V2) by auto. rewrite (oflag_same _ _ SB) by auto. evs. fin SB.
  - rewrite (checked_us_ok V1), (checked_us_ok V2) by auto. rewrite (oflag_same _ _ SB) by auto. evs. fin SB.
  - rewrite (plain_us_ok V1), (plain_us_ok V2) by auto. rewrite (oflag_same _ _ SB) by auto. evs. fin SB.
  - rewrite (wrapping_is_ok V1), (wrapping_is_ok V2) by auto. evs. fin SB.
  - rewrite (overflowing_is_ok V1), (overflowing_is_ok V2) by auto. rewrite (oflag_same _ _ SB) by auto. evs. fin SB.
  - rewrite (checked_is_ok V1), (checked_is_ok V2) by auto. rewrite (oflag_same _ _ SB) by auto. evs. fin SB.
  - rewrite (plain_is_ok V1), (plain_is_ok V2) by auto. rewrite (oflag_same _ _ SB) by auto. evs. fin SB.
Qed.

(** Division by a scalar that fits one limb of both builds. *)
Section D.
Variables c1 c2 : Cfg.
Hypothesis SB : same_build c1 c2.
Lemma agree_withZ : forall v v' r r', v = v' -> r = r' ->
  agree (pair_of (big c1 c2) (@eq Z)) (Ok (@ofZ c1 v, r)) (Ok (@ofZ c2 v', r')).
Proof. intros v v' r r' <- <-. split; auto. apply (big_ofZ _ _ SB). Qed.
Lemma agree_owithZ : forall (b b' : bool) v v' r r', b = b' -> v = v' -> r = r' ->
  agree (opt_of (pair_of (big c1 c2) (@eq Z))) (Ok (if b then None else Some (@ofZ c1 v, r))) (Ok (if b' then None else Some (@ofZ c2 v', r'))).
Proof. intros b b' v v' r r' <- <- <-. destruct b; cbn; auto. split; auto. apply (big_ofZ _ _ SB). Qed.
End D.
Definition exact_in (c : Cfg) (k : skind) (a n : Z) : Prop := exact_scalar (@W c) (@N c) (fbits k) (Z.abs a) (Z.abs n).
(** Division by a scalar of fixed width.  Missing: the inexact cases, where
    remainders differ or one build panics ([C64_scalar_div_refuted]). *)
Theorem C64_scalar_div_partial : forall c1 c2 k n x1 x2, same_build c1 c2 -> fixed k -> n <> 0 -> big c1 c2 x1 x2 ->
  (forall sg, fits_u (fbits k) n -> exact_in c1 k (@val c1 sg x1) n -> exact_in c2 k (@val c1 sg x1) n ->
   agree (pair_of (big c1 c2) (@eq Z)) (@wrapping_div_rem_us c1 k sg x1 n) (@wrapping_div_rem_us c2 k sg x2 n) /\
   agree (opt_of (pair_of (big c1 c2) (@eq Z))) (@checked_div_rem_us c1 k sg x1 n) (@checked_div_rem_us c2 k sg x2 n) /\
   agree (pair_of (big c1 c2) (@eq Z)) (@div_rem_us c1 k sg x1 n) (@div_rem_us c2 k sg x2 n)) /\
  (fits_s (fbits k) n -> exact_in c1 k (@sval c1 x1) n -> exact_in c2 k (@sval c1 x1) n ->
   agree (pair_of (big c1 c2) (@eq Z)) (@wrapping_div_rem_is c1 k x1 n) (@wrapping_div_rem_is c2 k x2 n) /\
   agree (opt_of (pair_of (big c1 c2) (@eq Z))) (@checked_div_rem_is c1 k x1 n) (@checked_div_rem_is c2 k x2 n) /\
   agree (pair_of (big c1 c2) (@eq Z)) (@div_rem_is c1 k x1 n) (@div_rem_is c2 k x2 n)).
Proof.
  intros c1 c2 k n x1 x2 SB Hk H0 Hx. start SB. args SB. unfold exact_in.
  split; [intros sg|]; intros Hn X1 X2; rewrite <- (fixed_bits c1 k Hk) in Hn, X1; rewrite <- (fixed_bits c2 k Hk) in X2; assert (Hn' := Hn);
    rewrite (fixed_bits c1 k Hk), <- (fixed_bits c2 k Hk) in Hn'.
  - assert (0 < n) by (unfold fits_u in Hn; lia). rewrite (Z.abs_eq n) in X1, X2 by lia. rewrite (EV sg) in X2.
    split; [|split].
    + rewrite (wrapping_div_rem_us_ok V1), (wrapping_div_rem_us_ok V2) by auto. evs. apply (agree_withZ _ _ SB); auto.
    + rewrite (checked_div_rem_us_ok V1), (checked_div_rem_us_ok V2) by auto. evs. apply (agree_owithZ _ _ SB); auto.
    + rewrite (div_rem_us_ok V1), (div_rem_us_ok V2) by auto. evs. apply (agree_withZ _ _ SB); auto.
  - rewrite ES in X2. split; [|split].
    + rewrite (wrapping_div_rem_is_ok V1), (wrapping_div_rem_is_ok V2) by auto. evs. apply (agree_withZ _ _ SB); auto.
    + rewrite (checked_div_rem_is_ok V1), (checked_div_rem_is_ok V2) by auto. rewrite (fitsb_same _ _ SB). evs. apply (agree_owithZ _ _ SB); auto.
    + rewrite (div_rem_is_ok V1), (div_rem_is_ok V2) by auto. rewrite (fitsb_same _ _ SB). evs.
      apply agree_if; auto; [exact I|]. apply (agree_withZ _ _ SB); auto.
Qed.
(** Divisors of at most 32 bits fit one limb of either build: no exception. *)
Theorem C64_scalar_div_32 : forall c1 c2 n x1 x2, same_build c1 c2 -> n <> 0 -> big c1 c2 x1 x2 ->
  (forall sg, fits_u 32 n ->
   agree (pair_of (big c1 c2) (@eq Z)) (@wrapping_div_rem_us c1 K32 sg x1 n) (@wrapping_div_rem_us c2 K32 sg x2 n) /\
   agree (opt_of (pair_of (big c1 c2) (@eq Z))) (@checked_div_rem_us c1 K32 sg x1 n) (@checked_div_rem_us c2 K32 sg x2 n) /\
   agree (pair_of (big c1 c2) (@eq Z)) (@div_rem_us c1 K32 sg x1 n) (@div_rem_us c2 K32 sg x2 n)) /\
  (fits_s 32 n ->
   agree (pair_of (big c1 c2) (@eq Z)) (@wrapping_div_rem_is c1 K32 x1 n) (@wrapping_div_rem_is c2 K32 x2 n) /\
   agree (opt_of (pair_of (big c1 c2) (@eq Z))) (@checked_div_rem_is c1 K32 x1 n) (@checked_div_rem_is c2 K32 x2 n) /\
   agree (pair_of (big c1 c2) (@eq Z)) (@div_rem_is c1 K32 x1 n) (@div_rem_is c2 K32 x2 n)).
Proof.
  intros c1 c2 n x1 x2 SB H0 Hx. assert (Hk : fixed K32) by (left; auto).
  destruct (C64_scalar_div_partial c1 c2 K32 n x1 x2 SB Hk H0 Hx) as [A B]. start SB.
  assert (XE : forall c a, @Valid c -> exact_in c K32 a n).
  { intros c a V. left. cbn. destruct (W_cases V) as [-> | ->]; lia. }
  split; [intros sg Hf; apply A; auto|intros Hf; apply B; auto].
Qed.
(** Where the builds differ. *)
Lemma two_builds : same_build c256_32 c256_64.
Proof. split; [apply valid_c256_32|]. split; [apply valid_c256_64|]. split; reflexivity. Qed.
Theorem C64_scalar_wide_refuted : exists c1 c2 x1 x2 n r1 r2, same_build c1 c2 /\ big c1 c2 x1 x2 /\ fits_u (fbits K128) n /\
  @wrapping_us c1 SAdd K128 true x1 n = Panic /\ (exists r, @wrapping_us c2 SAdd K128 true x2 n = Ok r) /\
  @wrapping_us c1 SMul K128 true x1 n = Ok r1 /\ @wrapping_us c2 SMul K128 true x2 n = Ok r2 /\ @uval c1 r1 <> @uval c2 r2.
Proof.
  exists c256_32, c256_64, (E32 5), (E64 5), (2 ^ 32). eexists. eexists.
  split; [exact two_builds|]. split; [apply (big_ofZ _ _ two_builds)|]. split; [vm_compute; split; [discriminate|reflexivity]|].
  split; [vm_compute; reflexivity|]. split; [eexists; vm_compute; reflexivity|].
  split; [vm_compute; reflexivity|]. split; [vm_compute; reflexivity|]. vm_compute. discriminate.
Qed.
Theorem C64_scalar_mul_refuted : exists c1 c2 x1 x2 n r, same_build c1 c2 /\ big c1 c2 x1 x2 /\ fits_u (fbits K64) n /\
  @checked_us c1 SMul K64 true x1 n = Ok (Some r) /\ @checked_us c2 SMul K64 true x2 n = Ok None.
Proof.
  exists c256_32, c256_64, (E32 (- 2 ^ 200)), (E64 (- 2 ^ 200)), (2 ^ 55 + 1). eexists.
  split; [exact two_builds|]. split; [apply (big_ofZ _ _ two_builds)|]. split; [vm_compute; split; [discriminate|reflexivity]|].
  split; vm_compute; reflexivity.
Qed.
Theorem C64_scalar_div_refuted : exists c1 c2 x1 x2 n q1, same_build c1 c2 /\ big c1 c2 x1 x2 /\ fits_u (fbits K128) n /\
  @div_rem_us c1 K128 false x1 n = Ok (q1, 0) /\ @div_rem_us c2 K128 false x2 n = Panic.
Proof.
  set (y := 2 ^ 126 + 2 ^ 63 - 1). set (q := (2 ^ 64 - 2) * 2 ^ 64 + 100).
  exists c256_32, c256_64, (E32 (q * y)), (E64 (q * y)), y. eexists.
  split; [exact two_builds|]. split; [apply (big_ofZ _ _ two_builds)|]. split; [vm_compute; split; [discriminate|reflexivity]|].
  split; vm_compute; reflexivity.
Qed.
Theorem C64_scalar_rem_refuted : exists c1 c2 x1 x2 n q1 r1 q2 r2, same_build c1 c2 /\ big c1 c2 x1 x2 /\ fits_u (fbits K128) n /\
  @div_rem_us c1 K128 false x1 n = Ok (q1, r1) /\ @div_rem_us c2 K128 false x2 n = Ok (q2, r2) /\ big c1 c2 q1 q2 /\ r1 <> r2.
Proof.
  exists c256_32, c256_64, (E32 (2 ^ 95)), (E64 (2 ^ 95)), (2 ^ 63 + 2 ^ 32 - 1), (E32 4294967294), 18446744086594453502, (E64 4294967294).
  eexists. split; [exact two_builds|]. split; [apply (big_ofZ _ _ two_builds)|]. split; [vm_compute; split; [discriminate|reflexivity]|].
  split; [vm_compute; reflexivity|]. split; [vm_compute; reflexivity|]. split; [apply (big_ofZ _ _ two_builds)|discriminate].
Qed.
Example C64_ex1 : fixed K128 /\ ~ @wide_scalar c256_64 K128 /\ ~ @wide_scalar c256_32 K64 /\
  @overflowing_us c256_32 SMul K64 false (E32 (2 ^ 200 + 1)) (2 ^ 60) = Ok (E32 (2 ^ 60 + 2 ^ 260), true) /\
  @overflowing_us c256_64 SMul K64 false (E64 (2 ^ 200 + 1)) (2 ^ 60) = Ok (E64 (2 ^ 60 + 2 ^ 260), true) /\
  @div_rem_is c256_32 K32 (E32 (- 2 ^ 255)) (-7) = Ok (E32 ((2 ^ 255) / 7), - (2 ^ 255 mod 7)).
Proof.
  split; [right; right; auto|]. split; [intros [_ H]; discriminate|]. split; [intros [H _]; discriminate|].
  vm_compute. auto.
Qed.

(** ** Text *)

Lemma scan_neg_slack : forall h k radix s pre acc, 2 <= radix -> numval radix pre = Some acc -> acc <= h ->
  (forall p ch u, ~ in_window h k radix (pre ++ s) p ch u) -> scan_neg h k radix acc s = scan_neg h 0 radix acc s.
Proof.
  intros h k radix s. induction s as [|ch t IH]; intros pre acc Hr Hp Ha Hw; [reflexivity|]. cbn [scan_neg].
  destruct (digit_in radix ch) as [d|] eqn:Ed; [|reflexivity].
  destruct (Z.leb_spec (acc * radix + d) h) as [L|L].
  - apply (IH (pre ++ [ch])); auto.
    + unfold numval in *. rewrite horner_app, Hp. cbn [horner]. rewrite Ed. reflexivity.
    + intros p ch' u. rewrite <- app_assoc. apply Hw.
  - assert (X : (h <? acc * radix) && (acc * radix <? h + 0) = false).
    { destruct (Z.ltb_spec h (acc * radix)); cbn; auto. destruct (Z.ltb_spec (acc * radix) (h + 0)); auto. lia. }
    rewrite X. destruct (Z.ltb_spec h (acc * radix)) as [A|A]; cbn; auto.
    destruct (Z.ltb_spec (acc * radix) (h + k)) as [B|B]; auto. exfalso.
    apply (Hw pre ch acc). split; [split; [exists t; auto|auto]|]. split; auto. split; [congruence|lia].
Qed.
Section P.
Variables c1 c2 : Cfg.
Hypothesis SB : same_build c1 c2.
Lemma same_from_scan : forall neg r, same_parsed c1 c2 (@from_scan c1 neg r) (@from_scan c2 neg r).
Proof. intros neg [v| |]; cbn; auto. apply (big_ofZ _ _ SB). Qed.
Lemma hi_same : forall sg, @hi_of c1 sg = @hi_of c2 sg.
Proof. intros sg. unfold hi_of. rewrite (proj1 (proj2 (proj2 SB))). auto. Qed.
Lemma same_parse_result : forall sg radix s, 2 <= radix ->
  (forall t, sg = true -> s = 45 :: t -> @no_window c1 radix t /\ @no_window c2 radix t) ->
  same_parsed c1 c2 (@parse_result c1 sg radix s) (@parse_result c2 sg radix s).
Proof.
  intros sg radix s Hr Hw. pose proof (proj1 (proj2 (proj2 SB))) as HB. unfold parse_result, scan_result.
  destruct s as [|b t]; [reflexivity|].
  destruct (Z.eqb_spec b 43); [rewrite hi_same; apply same_from_scan|].
  destruct (Z.eqb_spec b 45); [|rewrite hi_same; apply same_from_scan].
  destruct sg; [|reflexivity]. subst b. destruct (Hw t eq_refl eq_refl) as [N1 N2]. unfold no_window in N1, N2.
  pose proof (pB (proj1 (proj2 SB))). assert (0 <= 2 ^ (@BITS c2 - 1)) by (apply Z.pow_nonneg; lia).
  rewrite HB in *. rewrite (scan_neg_slack _ _ _ _ [] 0 Hr eq_refl) by auto.
  rewrite (scan_neg_slack _ (2 ^ (@BITS c2 - @W c2)) _ _ [] 0 Hr eq_refl) by auto. apply same_from_scan.
Qed.
End P.
(** Parsing: the same integer or the same error, except for negative numerals
    that reach the window of unnoticed overflow of one of the builds. *)
Theorem C64_parse_unsigned : forall c1 c2 radix s, same_build c1 c2 -> bytes s ->
  agree (same_parsed c1 c2) (@from_str_radix c1 false s radix) (@from_str_radix c2 false s radix) /\
  (forall p1 p2, agree (same_parsed c1 c2) (@from_str c1 p1 false s) (@from_str c2 p2 false s)).
Proof.
  intros c1 c2 radix s SB Hb. start SB.
  assert (R : forall r, agree (same_parsed c1 c2) (@from_str_radix c1 false s r) (@from_str_radix c2 false s r)).
  { intros r. destruct (Z.ltb_spec r 2); [|destruct (Z.ltb_spec 36 r)].
    - unfold from_str_radix. replace (r <? 2) with true by (symmetry; apply Z.ltb_lt; auto). exact I.
    - unfold from_str_radix. replace (36 <? r) with true by (symmetry; apply Z.ltb_lt; auto). rewrite orb_true_r. exact I.
    - rewrite (from_str_radix_ok V1), (from_str_radix_ok V2) by (auto; lia). apply (same_parse_result _ _ SB); [lia|discriminate]. }
  split; [apply R|]. intros p1 p2. destruct (Nat.lt_ge_cases (length s) 39) as [L|L].
  - rewrite (from_str_short V1), (from_str_short V2) by auto. destruct (short_result false s); cbn; auto. apply (big_ofZ _ _ SB).
  - rewrite !from_str_long by auto. apply R.
Qed.
Theorem C64_parse_signed_partial : forall c1 c2 radix s, same_build c1 c2 -> bytes s -> 2 <= radix <= 36 ->
  ((forall t, s = 45 :: t -> @no_window c1 radix t /\ @no_window c2 radix t) ->
   agree (same_parsed c1 c2) (@from_str_radix c1 true s radix) (@from_str_radix c2 true s radix)) /\
  ((forall t, s = 45 :: t -> @no_window c1 10 t /\ @no_window c2 10 t) ->
   forall p1 p2, agree (same_parsed c1 c2) (@from_str c1 p1 true s) (@from_str c2 p2 true s)).
Proof.
  intros c1 c2 radix s SB Hb Hr. start SB.
  assert (R : forall r, 2 <= r <= 36 -> (forall t, s = 45 :: t -> @no_window c1 r t /\ @no_window c2 r t) ->
    agree (same_parsed c1 c2) (@from_str_radix c1 true s r) (@from_str_radix c2 true s r)).
  { intros r Hr' Hw. rewrite (from_str_radix_ok V1), (from_str_radix_ok V2) by auto. apply (same_parse_result _ _ SB); [lia|auto]. }
  split; [apply R; auto|]. intros Hw p1 p2. destruct (Nat.lt_ge_cases (length s) 39) as [L|L].
  - rewrite (from_str_short V1), (from_str_short V2) by auto. destruct (short_result true s); cbn; auto. apply (big_ofZ _ _ SB).
  - rewrite !from_str_long by auto. apply R; auto. lia.
Qed.
(** Negative numerals of representable numbers are read alike without exception. *)
Theorem C64_parse_in_range : forall c1 c2 radix s v, same_build c1 c2 -> bytes s -> 2 <= radix <= 36 ->
  numeral true radix s v -> fits_s (@BITS c1) v ->
  agree (same_parsed c1 c2) (@from_str_radix c1 true s radix) (@from_str_radix c2 true s radix).
Proof.
  intros c1 c2 radix s v SB Hb Hr Hn Hf. start SB.
  destruct (C27_complete_signed c1 s radix v V1 Hb Hr Hn Hf) as (r1 & -> & A1 & A2).
  rewrite HB in Hf. destruct (C27_complete_signed c2 s radix v V2 Hb Hr Hn Hf) as (r2 & -> & B1 & B2).
  cbn. split; auto. split; auto. rewrite <- (sval_mod V1 r1), <- (sval_mod V2 r2), A2, B2, HB by auto. auto.
Qed.
(** In the window of one build only, the same text is a (wrong) number in one
    build and an error in the other. *)
Theorem C64_parse_refuted : exists c1 c2 s r, same_build c1 c2 /\
  @from_str_radix c1 true s 16 = Ok (POk r) /\ @from_str_radix c2 true s 16 = Ok (PErr ENegOverflow).
Proof.
  exists c256_32, c256_64, ([45; 56] ++ repeat 48 10 ++ [49] ++ repeat 48 52). eexists.
  split; [exact two_builds|]. split; vm_compute; reflexivity.
Qed.

(** Formatting: the same text. *)
Lemma writes_unique : forall m1 m2 buffer radix v, 2 <= radix ->
  writes m1 buffer (upper_numeral radix v) -> writes m2 buffer (upper_numeral radix v) -> m1 = m2.
Proof.
  intros m1 m2 buffer radix v Hr (i & s & -> & Hi & Hs) (j & t & -> & Hj & Ht).
  assert (s = t) by (eapply C29_unique; eauto). subst t. assert (i = j) by lia. subst j. auto.
Qed.
Lemma lower_to_upper : forall ch, lower_digit ch -> upper_digit (to_upper ch) /\ to_lower (to_upper ch) = ch.
Proof.
  intros ch H. unfold lower_digit, upper_digit, to_upper, to_lower in *.
  destruct (Z.leb_spec 97 ch), (Z.leb_spec ch 122); cbn [andb]; try lia;
    (split; [lia|]); [destruct (Z.leb_spec 65 (ch - 32)), (Z.leb_spec (ch - 32) 90)|destruct (Z.leb_spec 65 ch)]; cbn [andb]; lia.
Qed.
Lemma lower_map : forall s, Forall lower_digit s -> Forall upper_digit (map to_upper s) /\ map to_lower (map to_upper s) = s.
Proof.
  intros s H. induction H as [|ch s H _ [I1 I2]]; [split; [constructor|reflexivity]|]. cbn [map].
  destruct (lower_to_upper ch H) as [A B]. split; [constructor; auto|]. rewrite B, I2. auto.
Qed.
(** the lower-case numeral is unique too *)
Theorem C64_lower_unique : forall radix v s t, 2 <= radix -> lower_numeral radix v s -> lower_numeral radix v t -> s = t.
Proof.
  assert (G : forall radix v s, lower_numeral radix v s -> upper_numeral radix v (map to_upper s) /\ map to_lower (map to_upper s) = s).
  { intros radix v s [(C1 & C2 & C3) L]. destruct (lower_map s L) as [A B]. split; auto. split; auto.
    split; [destruct s; [contradiction|discriminate]|]. split.
    - unfold numval in *. rewrite <- (horner_lower radix (map to_upper s)), B by auto. auto.
    - intros E. destruct s as [|ch s]; [contradiction|]. cbn [map hd] in E. rewrite C3; [reflexivity|]. cbn [hd].
      inversion L; subst. destruct (lower_to_upper ch H1) as [_ X]. rewrite E in X. rewrite <- X. reflexivity. }
  intros radix v s t Hr Hs Ht. destruct (G _ _ _ Hs) as [A <-], (G _ _ _ Ht) as [B <-]. f_equal. eapply C29_unique; eauto.
Qed.
Lemma layout_unique : forall f tag d s t, layout f tag d s -> layout f tag d t -> s = t.
Proof. intros f tag d s t -> ->. auto. Qed.
Section F.
Variables c1 c2 : Cfg.
Hypothesis SB : same_build c1 c2.
Lemma prints_same : forall m1 m2 p1 p2, prints m1 p1 -> prints m2 p2 -> (forall s t, p1 s -> p2 t -> s = t) -> m1 = m2.
Proof. intros m1 m2 p1 p2 (s & -> & Hs) (t & -> & Ht) H. rewrite (H s t); auto. Qed.
Lemma layout_same : forall (lower : bool) radix f tag v, 2 <= radix -> let num := if lower then lower_numeral else upper_numeral in
  forall s t, (exists d, num radix v d /\ layout f tag d s) -> (exists d, num radix v d /\ layout f tag d t) -> s = t.
Proof.
  intros lower radix f tag v Hr num s t (d & D & L) (d' & D' & L').
  assert (d = d') by (destruct lower; [eapply C64_lower_unique|eapply C29_unique]; eauto). subst. eapply layout_unique; eauto.
Qed.
End F.
Lemma to_str_bad : forall (c : Cfg) (sg : bool) x buffer radix,
  ~ (2 <= radix <= 36 /\ BITS + (if sg then 1 else 0) <= Z.of_nat (length buffer)) -> to_str_radix sg x buffer radix = Panic.
Proof.
  intros c sg x buffer radix H. unfold to_str_radix.
  destruct (Z.ltb_spec radix 2); [reflexivity|]. destruct (Z.ltb_spec 36 radix); [reflexivity|]. cbn [orb].
  destruct (Z.ltb_spec (Z.of_nat (length buffer)) (BITS + b2z sg)); [reflexivity|]. exfalso. apply H. split; [lia|]. destruct sg; cbn [b2z] in *; lia.
Qed.
Lemma writes_eq : forall m1 m2 buffer s, writes m1 buffer (eq s) -> writes m2 buffer (eq s) -> m1 = m2.
Proof.
  intros m1 m2 buffer s (i & u & -> & Hi & <-) (j & v & -> & Hj & <-). assert (i = j) by lia. subst. auto.
Qed.
Theorem C64_to_str : forall c1 c2 (sg : bool) buffer radix x1 x2, same_build c1 c2 -> big c1 c2 x1 x2 ->
  @to_str_radix c1 sg x1 buffer radix = @to_str_radix c2 sg x2 buffer radix.
Proof.
  intros c1 c2 sg buffer radix x1 x2 SB Hx. start SB. args SB.
  destruct (Z_le_dec 2 radix) as [R1|R1]; [|rewrite !to_str_bad by lia; auto].
  destruct (Z_le_dec radix 36) as [R2|R2]; [|rewrite !to_str_bad by lia; auto].
  destruct (Z_le_dec (@BITS c1 + (if sg then 1 else 0)) (Z.of_nat (length buffer))) as [R3|R3]; [|rewrite !to_str_bad by lia; auto].
  destruct sg.
  - destruct (Z_le_dec 0 (@sval c1 x1)) as [P|P].
    + apply (writes_unique _ _ buffer radix (@sval c1 x1)); [lia| |].
      * apply C29_signed_nonnegative; auto.
      * rewrite ES. apply C29_signed_nonnegative; auto; lia.
    + pose proof (C29_negative c1 x1 buffer radix V1 W1 ltac:(lia) ltac:(lia) R3) as A.
      pose proof (C29_negative c2 x2 buffer radix V2 W2 ltac:(lia) ltac:(lia) ltac:(lia)) as B. cbv zeta in A, B. rewrite ES, HC in A.
      destruct A as [(A1 & A2 & A3)|(A1 & A2)], B as [(B1 & B2 & B3)|(B1 & B2)].
      * congruence.
      * exfalso. destruct B1 as [B1|B1]; [congruence|]. apply (Z.lt_irrefl 256). eapply Z.le_lt_trans; eauto.
      * exfalso. destruct A1 as [A1|A1]; [congruence|]. apply (Z.lt_irrefl 256). eapply Z.le_lt_trans; eauto.
      * eapply writes_eq; eauto.
  - apply (writes_unique _ _ buffer radix (@uval c1 x1)); [lia| |].
    + apply C29_unsigned; auto; lia.
    + rewrite EU. apply C29_unsigned; auto; lia.
Qed.
Theorem C64_display : forall c1 c2 f x1 x2, same_build c1 c2 -> big c1 c2 x1 x2 ->
  @u_display c1 x1 = @u_display c2 x2 /\ @s_display c1 x1 f = @s_display c2 x2 f /\
  @u_binary c1 x1 f = @u_binary c2 x2 f /\ @s_binary c1 x1 f = @s_binary c2 x2 f /\
  @u_octal c1 x1 f = @u_octal c2 x2 f /\ @s_octal c1 x1 f = @s_octal c2 x2 f /\
  @u_lower_hex c1 x1 f = @u_lower_hex c2 x2 f /\ @s_lower_hex c1 x1 f = @s_lower_hex c2 x2 f /\
  @u_upper_hex c1 x1 f = @u_upper_hex c2 x2 f /\ @s_upper_hex c1 x1 f = @s_upper_hex c2 x2 f.
Proof.
  intros c1 c2 f x1 x2 SB Hx. start SB. args SB.
  split; [|split; [|split; [|split; [|split; [|split; [|split; [|split; [|split]]]]]]]].
  - apply (prints_same _ _ _ _ (C30_unsigned c1 x1 V1 W1) (C30_unsigned c2 x2 V2 W2)).
    rewrite EU. intros s t. apply C29_unique. lia.
  - apply (prints_same _ _ _ _ (C30_signed c1 x1 f V1 W1) (C30_signed c2 x2 f V2 W2)).
    rewrite ES. intros s t (d & D & ->) (d' & D' & ->). f_equal. eapply C29_unique; eauto. lia.
  - apply (prints_same _ _ _ _ (proj1 (C31_binary c1 x1 f V1 W1)) (proj1 (C31_binary c2 x2 f V2 W2))).
    rewrite EU. apply (layout_same false). lia.
  - apply (prints_same _ _ _ _ (proj2 (C31_binary c1 x1 f V1 W1)) (proj2 (C31_binary c2 x2 f V2 W2))).
    rewrite ES, HB. apply (layout_same false). lia.
  - apply (prints_same _ _ _ _ (proj1 (C31_octal c1 x1 f V1 W1)) (proj1 (C31_octal c2 x2 f V2 W2))).
    rewrite EU. apply (layout_same false). lia.
  - apply (prints_same _ _ _ _ (proj2 (C31_octal c1 x1 f V1 W1)) (proj2 (C31_octal c2 x2 f V2 W2))).
    rewrite ES, HB. apply (layout_same false). lia.
  - apply (prints_same _ _ _ _ (proj1 (C31_lower_hex c1 x1 f V1 W1)) (proj1 (C31_lower_hex c2 x2 f V2 W2))).
    rewrite EU. apply (layout_same true). lia.
  - apply (prints_same _ _ _ _ (proj2 (C31_lower_hex c1 x1 f V1 W1)) (proj2 (C31_lower_hex c2 x2 f V2 W2))).
    rewrite ES, HB. apply (layout_same true). lia.
  - apply (prints_same _ _ _ _ (proj1 (C31_upper_hex c1 x1 f V1 W1)) (proj1 (C31_upper_hex c2 x2 f V2 W2))).
    rewrite EU. apply (layout_same false). lia.
  - apply (prints_same _ _ _ _ (proj2 (C31_upper_hex c1 x1 f V1 W1)) (proj2 (C31_upper_hex c2 x2 f V2 W2))).
    rewrite ES, HB. apply (layout_same false). lia.
Qed.
Theorem C64_exp : forall c1 c2 f tag x1 x2, same_build c1 c2 -> big c1 c2 x1 x2 ->
  @u_exp c1 tag x1 = @u_exp c2 tag x2 /\ @s_exp c1 tag x1 f = @s_exp c2 tag x2 f.
Proof.
  intros c1 c2 f tag x1 x2 SB Hx. start SB.
  assert (G : forall y1 y2, big c1 c2 y1 y2 -> @u_exp c1 tag y1 = @u_exp c2 tag y2).
  { intros y1 y2 Hy. args SB. destruct (u_exp_ok V1 tag y1) as (d & t & e & -> & A1 & A2 & A3 & A4); auto.
    destruct (u_exp_ok V2 tag y2) as (d' & t' & e' & -> & B1 & B2 & B3 & B4); auto.
    rewrite EU in A1. assert (X : d :: t = d' :: t') by (eapply (canonical_unique 10); eauto; lia). inversion X; subst.
    assert (e = e') by (eapply (canonical_unique 10); eauto; lia). subst. auto. }
  split; [apply G; auto|]. unfold s_exp. assert (Hx' := Hx). args SB.
  rewrite (s_signed_ok V1), (s_signed_ok V2) by auto. rewrite ES.
  match goal with |- context [@u_exp c1 tag ?a] => match goal with |- context [@u_exp c2 tag ?b] => rewrite (G a b) end end; auto.
  all: try apply (big_ofZ _ _ SB).
Qed.
Lemma small_window : forall (c : Cfg) ch, Valid -> @no_window c 10 [ch].
Proof.
  intros c ch V p ch' u (((t & E) & Hu) & _ & _ & Hh & _). destruct p as [|a [|b p]]; try discriminate.
  inversion Hu; subst. pose proof (BITS_ge V). assert (0 <= 2 ^ (BITS - 1)) by (apply Z.pow_nonneg; lia). lia.
Qed.
Example C64_ex2 : bytes [45; 53] /\ (forall t, [45; 53] = 45 :: t -> @no_window c256_64 10 t /\ @no_window c256_32 10 t) /\
  @from_str_radix c256_32 true [45; 53] 10 = Ok (POk (E32 (-5))) /\
  @from_str c256_32 true true (45 :: dec (2 ^ 255)) = Ok (POk (E32 (- 2 ^ 255))) /\
  @from_str c256_64 false true (45 :: dec (2 ^ 255)) = Ok (POk (E64 (- 2 ^ 255))) /\
  @s_exp c256_32 101 (E32 (-1234)) plain = @s_exp c256_64 101 (E64 (-1234)) plain.
Proof.
  split; [repeat constructor; unfold fits_u; cbn; lia|].
  split; [intros t H; inversion H; subst; split; apply small_window; [apply valid_c256_64|apply valid_c256_32]|]. vm_compute. auto 6.
Qed.

(** ** Bytes and words *)

Lemma same_out : forall c1 c2 be1 be2 be' w f1 f2 m1 m2, same_build c1 c2 -> 0 < w ->
  @digits_out c1 be1 be' w f1 -> @digits_out c2 be2 be' w f2 -> big c1 c2 (ord be1 m1) (ord be2 m2) ->
  exists l, f1 m1 = Ok l /\ f2 m2 = Ok l.
Proof.
  intros c1 c2 be1 be2 be' w f1 f2 m1 m2 SB Hw D1 D2 (H1 & H2 & E). start SB.
  destruct (D1 m1 H1) as (l & A1 & A2 & A3 & A4). destruct (D2 m2 H2) as (l' & B1 & B2 & B3 & B4).
  assert (l = l'); [|subst; eauto]. rewrite <- (ord_ord be' l), <- (ord_ord be' l'). f_equal.
  apply (lval_inj w); auto using digits_ord; try lia; try congruence. rewrite !length_ord. nia.
Qed.
Lemma same_in : forall c1 c2 be1 be2 be' w f1 f2 l, same_build c1 c2 ->
  @digits_in c1 be1 be' w f1 -> @digits_in c2 be2 be' w f2 -> w * Z.of_nat (length l) = @BITS c1 -> digits w l ->
  exists m1 m2, f1 l = Ok m1 /\ f2 l = Ok m2 /\ big c1 c2 (ord be1 m1) (ord be2 m2).
Proof.
  intros c1 c2 be1 be2 be' w f1 f2 l SB D1 D2 HL D. start SB.
  destruct (D1 l HL D) as (m1 & A1 & A2 & A3). rewrite HB in HL. destruct (D2 l HL D) as (m2 & B1 & B2 & B3).
  exists m1, m2. split; auto. split; auto. split; auto. split; auto. congruence.
Qed.
(** Little- and big-endian forms do not depend on the limb size nor on the byte
    order of the machine, native forms do not depend on the limb size. *)
Theorem C64_to_bytes : forall c1 c2 be1 be2 m1 m2, same_build c1 c2 -> big c1 c2 (ord be1 m1) (ord be2 m2) ->
  (exists b, @to_le_bytes c1 be1 m1 = Ok b /\ @to_le_bytes c2 be2 m2 = Ok b) /\
  (exists b, @to_be_bytes c1 be1 m1 = Ok b /\ @to_be_bytes c2 be2 m2 = Ok b) /\
  (be1 = be2 -> exists b, @to_ne_bytes c1 be1 m1 = Ok b /\ @to_ne_bytes c2 be2 m2 = Ok b) /\
  (exists b, @to_le_u32 c1 be1 m1 = Ok b /\ @to_le_u32 c2 be2 m2 = Ok b) /\
  (exists b, @to_be_u32 c1 be1 m1 = Ok b /\ @to_be_u32 c2 be2 m2 = Ok b) /\
  (be1 = be2 -> exists b, @to_ne_u32 c1 be1 m1 = Ok b /\ @to_ne_u32 c2 be2 m2 = Ok b) /\
  (exists b, @to_le_u64 c1 be1 m1 = Ok b /\ @to_le_u64 c2 be2 m2 = Ok b) /\
  (exists b, @to_be_u64 c1 be1 m1 = Ok b /\ @to_be_u64 c2 be2 m2 = Ok b) /\
  (be1 = be2 -> exists b, @to_ne_u64 c1 be1 m1 = Ok b /\ @to_ne_u64 c2 be2 m2 = Ok b).
Proof.
  intros c1 c2 be1 be2 m1 m2 SB Hm. start SB.
  destruct (C22_to_bytes c1 be1 V1) as (A1 & A2 & A3), (C22_to_bytes c2 be2 V2) as (B1 & B2 & B3).
  destruct (C23_u32 c1 be1 V1) as ((A4 & A5 & A6) & _), (C23_u32 c2 be2 V2) as ((B4 & B5 & B6) & _).
  destruct (C23_u64 c1 be1 V1) as ((A7 & A8 & A9) & _), (C23_u64 c2 be2 V2) as ((B7 & B8 & B9) & _).
  split; [refine (same_out _ _ _ _ _ _ _ _ _ _ SB _ A1 B1 Hm); lia|].
  split; [refine (same_out _ _ _ _ _ _ _ _ _ _ SB _ A2 B2 Hm); lia|].
  split; [intros ->; refine (same_out _ _ _ _ _ _ _ _ _ _ SB _ A3 B3 Hm); lia|].
  split; [refine (same_out _ _ _ _ _ _ _ _ _ _ SB _ A4 B4 Hm); lia|].
  split; [refine (same_out _ _ _ _ _ _ _ _ _ _ SB _ A5 B5 Hm); lia|].
  split; [intros ->; refine (same_out _ _ _ _ _ _ _ _ _ _ SB _ A6 B6 Hm); lia|].
  split; [refine (same_out _ _ _ _ _ _ _ _ _ _ SB _ A7 B7 Hm); lia|].
  split; [refine (same_out _ _ _ _ _ _ _ _ _ _ SB _ A8 B8 Hm); lia|].
  intros ->; refine (same_out _ _ _ _ _ _ _ _ _ _ SB _ A9 B9 Hm); lia.
Qed.
Definition same_stored (c1 c2 : Cfg) (be1 be2 : bool) (m1 m2 : list Z) : Prop := big c1 c2 (ord be1 m1) (ord be2 m2).
Lemma same_in' : forall c1 c2 be1 be2 be' w f1 f2 l, same_build c1 c2 ->
  @digits_in c1 be1 be' w f1 -> @digits_in c2 be2 be' w f2 -> w * Z.of_nat (length l) = @BITS c1 -> digits w l ->
  agree (same_stored c1 c2 be1 be2) (f1 l) (f2 l).
Proof.
  intros c1 c2 be1 be2 be' w f1 f2 l SB D1 D2 HL D.
  destruct (same_in c1 c2 be1 be2 be' w f1 f2 l SB D1 D2 HL D) as (m1 & m2 & -> & -> & H). exact H.
Qed.
Theorem C64_from_bytes : forall c1 c2 be1 be2 l, same_build c1 c2 ->
  (8 * Z.of_nat (length l) = @BITS c1 -> digits 8 l ->
   agree (same_stored c1 c2 be1 be2) (@from_le_bytes c1 be1 l) (@from_le_bytes c2 be2 l) /\
   agree (same_stored c1 c2 be1 be2) (@from_be_bytes c1 be1 l) (@from_be_bytes c2 be2 l) /\
   (be1 = be2 -> agree (same_stored c1 c2 be1 be2) (@from_ne_bytes c1 be1 l) (@from_ne_bytes c2 be2 l))) /\
  (32 * Z.of_nat (length l) = @BITS c1 -> digits 32 l ->
   agree (same_stored c1 c2 be1 be2) (@from_le_u32 c1 be1 l) (@from_le_u32 c2 be2 l) /\
   agree (same_stored c1 c2 be1 be2) (@from_be_u32 c1 be1 l) (@from_be_u32 c2 be2 l) /\
   (be1 = be2 -> agree (same_stored c1 c2 be1 be2) (@from_ne_u32 c1 be1 l) (@from_ne_u32 c2 be2 l))) /\
  (64 * Z.of_nat (length l) = @BITS c1 -> digits 64 l ->
   agree (same_stored c1 c2 be1 be2) (@from_le_u64 c1 be1 l) (@from_le_u64 c2 be2 l) /\
   agree (same_stored c1 c2 be1 be2) (@from_be_u64 c1 be1 l) (@from_be_u64 c2 be2 l) /\
   (be1 = be2 -> agree (same_stored c1 c2 be1 be2) (@from_ne_u64 c1 be1 l) (@from_ne_u64 c2 be2 l))).
Proof.
  intros c1 c2 be1 be2 l SB. start SB.
  destruct (C22_from_bytes c1 be1 V1) as (A1 & A2 & A3), (C22_from_bytes c2 be2 V2) as (B1 & B2 & B3).
  destruct (C23_u32 c1 be1 V1) as (_ & A4 & A5 & A6), (C23_u32 c2 be2 V2) as (_ & B4 & B5 & B6).
  destruct (C23_u64 c1 be1 V1) as (_ & A7 & A8 & A9), (C23_u64 c2 be2 V2) as (_ & B7 & B8 & B9).
  split; [|split]; intros HL D; (split; [eapply same_in'; eauto|]; split; [eapply same_in'; eauto|intros ->; eapply same_in'; eauto]).
Qed.
(** A big-endian machine with 32-bit limbs and a little-endian one with 64-bit limbs. *)
Example C64_ex3 : big c256_32 c256_64 (ord true (ord true (E32 (2 ^ 200 + 3)))) (ord false (E64 (2 ^ 200 + 3))) /\
  @to_le_bytes c256_32 true (ord true (E32 (2 ^ 200 + 3))) = @to_le_bytes c256_64 false (E64 (2 ^ 200 + 3)) /\
  @to_ne_bytes c256_32 true (ord true (E32 (2 ^ 200 + 3))) <> @to_ne_bytes c256_64 false (E64 (2 ^ 200 + 3)).
Proof.
  rewrite ord_ord. split; [apply (big_ofZ _ _ two_builds)|]. split; [vm_compute; reflexivity|]. vm_compute. discriminate.
Qed.

(** ** Division: the other forms *)

Section R.
Variables c1 c2 : Cfg.
Hypothesis SB : same_build c1 c2.
Lemma big_s : forall a b, @wf c1 a -> @wf c2 b -> @sval c1 a = @sval c2 b -> big c1 c2 a b.
Proof.
  intros a b H1 H2 E. destruct SB as (V1 & V2 & HB & _). split; auto. split; auto.
  rewrite <- (sval_mod V1 a), <- (sval_mod V2 b), E, HB by auto. auto.
Qed.
Lemma ret_u : forall m1 m2 v, @returns_u c1 m1 v -> @returns_u c2 m2 v -> agree (big c1 c2) m1 m2.
Proof. intros m1 m2 v (a & -> & A1 & A2) (b & -> & B1 & B2). split; auto. split; auto. congruence. Qed.
Lemma ret_s : forall m1 m2 v, @returns_s c1 m1 v -> @returns_s c2 m2 v -> agree (big c1 c2) m1 m2.
Proof. intros m1 m2 v (a & -> & A1 & A2) (b & -> & B1 & B2). apply big_s; auto. congruence. Qed.
Lemma ret_u2 : forall m1 m2 v w, @returns_u2 c1 m1 v w -> @returns_u2 c2 m2 v w -> agree (pair_of (big c1 c2) (big c1 c2)) m1 m2.
Proof.
  intros m1 m2 v w (a & a' & -> & A1 & A2 & A3 & A4) (b & b' & -> & B1 & B2 & B3 & B4).
  split; cbn; (split; [|split]); auto; congruence.
Qed.
Lemma ret_s2 : forall m1 m2 v w, @returns_s2 c1 m1 v w -> @returns_s2 c2 m2 v w -> agree (pair_of (big c1 c2) (big c1 c2)) m1 m2.
Proof.
  intros m1 m2 v w (a & a' & -> & A1 & A2 & A3 & A4) (b & b' & -> & B1 & B2 & B3 & B4).
  split; apply big_s; auto; cbn; congruence.
Qed.
Lemma bool_iff : forall (f g : bool) (p : Prop), (f = true <-> p) -> (g = true <-> p) -> f = g.
Proof. intros [] [] p H G; auto; [symmetry|]; tauto. Qed.
Lemma ret_uf : forall m1 m2 v p, @returns_u_flag c1 m1 v p -> @returns_u_flag c2 m2 v p -> agree (flagged c1 c2) m1 m2.
Proof.
  intros m1 m2 v p (a & f & -> & A1 & A2 & A3) (b & g & -> & B1 & B2 & B3). split; cbn.
  - split; auto. split; auto. congruence.
  - eapply bool_iff; eauto.
Qed.
Lemma ret_sf : forall m1 m2 v p, @returns_s_flag c1 m1 v p -> @returns_s_flag c2 m2 v p -> agree (flagged c1 c2) m1 m2.
Proof.
  intros m1 m2 v p (a & f & -> & A1 & A2 & A3) (b & g & -> & B1 & B2 & B3). split; cbn.
  - apply big_s; auto. congruence.
  - eapply bool_iff; eauto.
Qed.
Lemma ret_uo : forall m1 m2 v p, @returns_u_opt c1 m1 p v -> @returns_u_opt c2 m2 p v -> agree (opt_of (big c1 c2)) m1 m2.
Proof.
  intros m1 m2 v p [(P & a & -> & A1 & A2)|(P & ->)] [(Q & b & -> & B1 & B2)|(Q & ->)]; try contradiction; cbn; auto.
  split; auto. split; auto. congruence.
Qed.
Lemma ret_so : forall m1 m2 v p, @returns_s_opt c1 m1 p v -> @returns_s_opt c2 m2 p v -> agree (opt_of (big c1 c2)) m1 m2.
Proof.
  intros m1 m2 v p [(P & a & -> & A1 & A2)|(P & ->)] [(Q & b & -> & B1 & B2)|(Q & ->)]; try contradiction; cbn; auto.
  apply big_s; auto. congruence.
Qed.
End R.
(** Exact in both builds. *)
Definition exact_both (c1 c2 : Cfg) (a b : Z) : Prop :=
  exact_division (@W c1) (@N c1) (Z.abs a) (Z.abs b) /\ exact_division (@W c2) (@N c2) (Z.abs a) (Z.abs b).
Theorem C64_division_u_partial : forall c1 c2 x1 x2 y1 y2, same_build c1 c2 -> big c1 c2 x1 x2 -> big c1 c2 y1 y2 ->
  @uval c1 y1 <> 0 -> exact_both c1 c2 (@uval c1 x1) (@uval c1 y1) ->
  agree (pair_of (big c1 c2) (big c1 c2)) (@div_rem c1 false x1 y1) (@div_rem c2 false x2 y2) /\
  agree (big c1 c2) (@op_div c1 false x1 y1) (@op_div c2 false x2 y2) /\
  agree (big c1 c2) (@op_rem c1 false x1 y1) (@op_rem c2 false x2 y2) /\
  agree (opt_of (big c1 c2)) (@checked_div c1 false x1 y1) (@checked_div c2 false x2 y2) /\
  agree (opt_of (big c1 c2)) (@checked_rem c1 false x1 y1) (@checked_rem c2 false x2 y2) /\
  agree (flagged c1 c2) (@overflowing_div c1 false x1 y1) (@overflowing_div c2 false x2 y2) /\
  agree (flagged c1 c2) (@overflowing_rem c1 false x1 y1) (@overflowing_rem c2 false x2 y2) /\
  agree (big c1 c2) (@strict_div c1 false x1 y1) (@strict_div c2 false x2 y2) /\
  agree (big c1 c2) (@strict_rem c1 false x1 y1) (@strict_rem c2 false x2 y2) /\
  agree (big c1 c2) (@saturating_div c1 false x1 y1) (@saturating_div c2 false x2 y2) /\
  agree (big c1 c2) (@div_euclid c1 false x1 y1) (@div_euclid c2 false x2 y2) /\
  agree (big c1 c2) (@rem_euclid c1 false x1 y1) (@rem_euclid c2 false x2 y2) /\
  agree (big c1 c2) (@u_div_floor c1 x1 y1) (@u_div_floor c2 x2 y2) /\
  agree (big c1 c2) (@u_div_ceil c1 x1 y1) (@u_div_ceil c2 x2 y2).
Proof.
  intros c1 c2 x1 x2 y1 y2 SB Hx Hy H0 [X1 X2]. start SB.
  pose proof (uval_range V1 x1 (proj1 Hx)). pose proof (uval_range V1 y1 (proj1 Hy)). rewrite !Z.abs_eq in X1, X2 by lia.
  destruct Hx as (Wx1 & Wx2 & Ex), Hy as (Wy1 & Wy2 & Ey).
  assert (H0' : @uval c2 y2 <> 0) by congruence.
  assert (X2' : exact_division (@W c2) (@N c2) (@uval c2 x2) (@uval c2 y2)) by (rewrite <- Ex, <- Ey; auto).
  destruct (C08_forms_u c1 x1 y1 V1 Wx1 Wy1 H0 X1) as (A1 & A2 & A3 & A4 & A5 & A6 & A7 & A8 & A9 & A10).
  destruct (C08_forms_u c2 x2 y2 V2 Wx2 Wy2 H0' X2') as (B1 & B2 & B3 & B4 & B5 & B6 & B7 & B8 & B9 & B10).
  destruct (C12_euclid_u c1 x1 y1 V1 Wx1 Wy1 H0 X1) as (_ & _ & A11 & A12).
  destruct (C12_euclid_u c2 x2 y2 V2 Wx2 Wy2 H0' X2') as (_ & _ & B11 & B12).
  destruct (C13_floor_ceil_u c1 x1 y1 V1 Wx1 Wy1 H0 X1) as (A13 & A14).
  destruct (C13_floor_ceil_u c2 x2 y2 V2 Wx2 Wy2 H0' X2') as (B13 & B14).
  rewrite <- Ex, <- Ey in *.
  split; [eapply ret_u2; eauto|]. split; [eapply ret_u; eauto|]. split; [eapply ret_u; eauto|].
  split; [eapply ret_uo; eauto|]. split; [eapply ret_uo; eauto|]. split; [eapply ret_uf; eauto|]. split; [eapply ret_uf; eauto|].
  split; [eapply ret_u; eauto|]. split; [eapply ret_u; eauto|]. split; [eapply ret_u; eauto|]. split; [eapply ret_u; eauto|].
  split; [eapply ret_u; eauto|]. split; eapply ret_u; eauto.
Qed.
Theorem C64_division_s_partial : forall c1 c2 x1 x2 y1 y2, same_build c1 c2 -> big c1 c2 x1 x2 -> big c1 c2 y1 y2 ->
  @sval c1 y1 <> 0 -> ~ @min_over_m1 c1 x1 y1 -> exact_both c1 c2 (@sval c1 x1) (@sval c1 y1) ->
  agree (big c1 c2) (@wrapping_div c1 true x1 y1) (@wrapping_div c2 true x2 y2) /\
  agree (pair_of (big c1 c2) (big c1 c2)) (@div_rem c1 true x1 y1) (@div_rem c2 true x2 y2) /\
  agree (big c1 c2) (@op_div c1 true x1 y1) (@op_div c2 true x2 y2) /\
  agree (big c1 c2) (@op_rem c1 true x1 y1) (@op_rem c2 true x2 y2) /\
  agree (opt_of (big c1 c2)) (@checked_div c1 true x1 y1) (@checked_div c2 true x2 y2) /\
  agree (opt_of (big c1 c2)) (@checked_rem c1 true x1 y1) (@checked_rem c2 true x2 y2) /\
  agree (flagged c1 c2) (@overflowing_div c1 true x1 y1) (@overflowing_div c2 true x2 y2) /\
  agree (flagged c1 c2) (@overflowing_rem c1 true x1 y1) (@overflowing_rem c2 true x2 y2) /\
  agree (big c1 c2) (@strict_div c1 true x1 y1) (@strict_div c2 true x2 y2) /\
  agree (big c1 c2) (@strict_rem c1 true x1 y1) (@strict_rem c2 true x2 y2) /\
  agree (big c1 c2) (@saturating_div c1 true x1 y1) (@saturating_div c2 true x2 y2) /\
  agree (big c1 c2) (@div_euclid c1 true x1 y1) (@div_euclid c2 true x2 y2) /\
  agree (big c1 c2) (@rem_euclid c1 true x1 y1) (@rem_euclid c2 true x2 y2) /\
  agree (big c1 c2) (@s_div_floor c1 x1 y1) (@s_div_floor c2 x2 y2) /\
  agree (big c1 c2) (@s_div_ceil c1 x1 y1) (@s_div_ceil c2 x2 y2).
Proof.
  intros c1 c2 x1 x2 y1 y2 SB Hx Hy H0 HM [X1 X2]. start SB.
  pose proof (big_val _ _ SB _ _ Hx true) as Ex. pose proof (big_val _ _ SB _ _ Hy true) as Ey. cbn [val] in Ex, Ey.
  destruct Hx as (Wx1 & Wx2 & _), Hy as (Wy1 & Wy2 & _).
  assert (H0' : @sval c2 y2 <> 0) by congruence.
  assert (HM' : ~ @min_over_m1 c2 x2 y2) by (unfold min_over_m1 in *; rewrite <- Ex, <- Ey, <- HB; auto).
  assert (X2' : exact_division (@W c2) (@N c2) (Z.abs (@sval c2 x2)) (Z.abs (@sval c2 y2))) by (rewrite <- Ex, <- Ey; auto).
  destruct (C11_forms_s c1 x1 y1 V1 Wx1 Wy1 H0 HM X1) as (A1 & A2 & A3 & A4 & A5 & A6 & A7 & A8 & A9 & A10 & A11).
  destruct (C11_forms_s c2 x2 y2 V2 Wx2 Wy2 H0' HM' X2') as (B1 & B2 & B3 & B4 & B5 & B6 & B7 & B8 & B9 & B10 & B11).
  destruct (C12_euclid_s c1 x1 y1 V1 Wx1 Wy1 H0 X1) as (q & r & Q1 & Q2 & _ & _ & Q3). destruct (Q3 HM) as (_ & A12 & A13 & _).
  destruct (C12_euclid_s c2 x2 y2 V2 Wx2 Wy2 H0' X2') as (q' & r' & R1 & R2 & _ & _ & R3). destruct (R3 HM') as (_ & B12 & B13 & _).
  destruct (C13_floor_ceil_s c1 x1 y1 V1 Wx1 Wy1 H0 X1) as (_ & _ & F). destruct (F HM) as (A14 & A15).
  destruct (C13_floor_ceil_s c2 x2 y2 V2 Wx2 Wy2 H0' X2') as (_ & _ & G). destruct (G HM') as (B14 & B15).
  rewrite <- Ex, <- Ey in *.
  assert (q = q' /\ r = r') as [<- <-].
  { assert ((q - q') * @sval c1 y1 = r' - r) as E by (rewrite Z.mul_sub_distr_r; lia). clear - E Q2 R2 H0 Q1 R1.
    assert (q - q' = 0) by nia. split; nia. }
  split; [eapply ret_s; eauto|]. split; [eapply ret_s2; eauto|]. split; [eapply ret_s; eauto|]. split; [eapply ret_s; eauto|].
  split; [eapply ret_so; eauto|]. split; [eapply ret_so; eauto|]. split; [eapply ret_sf; eauto|]. split; [eapply ret_sf; eauto|].
  split; [eapply ret_s; eauto|]. split; [eapply ret_s; eauto|]. split; [eapply ret_s; eauto|]. split; [eapply ret_s; eauto|].
  split; [eapply ret_s; eauto|]. split; eapply ret_s; eauto.
Qed.
Example C64_ex4 : exact_both c256_32 c256_64 (2 ^ 250 + 12345) (3 * 2 ^ 90) /\ ~ @min_over_m1 c256_32 (E32 (- 2 ^ 250)) (E32 (- 7 * 2 ^ 31)).
Proof.
  split; [split; change (Z.abs (3 * 2 ^ 90)) with (3 * 2 ^ 90); apply scaled_exact; try lia; try (split; [lia|]); vm_compute; reflexivity|].
  intros [H _]. vm_compute in H. discriminate.
Qed.

(** ** Assumptions (each must print "Closed under the global context") *)

Print Assumptions C64_scalar_unsigned.
Print Assumptions C64_scalar_signed_partial.
Print Assumptions C64_scalar_div_partial.
Print Assumptions C64_scalar_div_32.
Print Assumptions C64_scalar_wide_refuted.
Print Assumptions C64_scalar_mul_refuted.
Print Assumptions C64_scalar_div_refuted.
Print Assumptions C64_scalar_rem_refuted.
Print Assumptions C64_parse_unsigned.
Print Assumptions C64_parse_signed_partial.
Print Assumptions C64_parse_in_range.
Print Assumptions C64_parse_refuted.
Print Assumptions C64_lower_unique.
Print Assumptions C64_to_str.
Print Assumptions C64_display.
Print Assumptions C64_exp.
Print Assumptions C64_to_bytes.
Print Assumptions C64_from_bytes.
Print Assumptions C64_division_u_partial.
Print Assumptions C64_division_s_partial.
