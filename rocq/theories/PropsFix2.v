(** * The code with its defects corrected: products, scalars, parsing (C85)

    Signed multiplication takes some products below the smallest value for
    representable (C06, C77), and with it exponentiation, the multiplications by
    a scalar, [mul_add] and the reading of negative numerals (C27, C28, C51).
    The signed methods with a 128-bit scalar panic or use another scalar on
    32-bit limbs (C43).  A sign alone reads as zero (C27).  MFix2.v corrects the
    three places: the test of the sign in [math::mul], two helpers of util.rs
    with the routine called on their results, and one line of parse.rs.  These
    theorems are about the corrected code: every caller is then right, for all
    inputs.  They say nothing of the code as published. *)

Require Import ZArith List Bool Lia.
From Verif Require Import Prim Spec Facts MAdd MMul MShift MCore PCore PBits PWide MArith PArith PArith2 PPow PMisc PBits2 PRet
  MScalar PScalar TextSpec MApi MTraits MParse PParse PParse2 PropsParse PropsDiv MFix MFix2 PFixMul PFixPow PFixScalar2.
Import ListNotations.
Local Open Scope Z_scope.

(** ** Vocabulary *)
Section Vocabulary.
Context {c : Cfg}.
Definition number (sg : bool) (x : list Z) : Z := if sg then sval x else uval x.
Definition in_range (sg : bool) (p : Z) : Prop := if sg then fits_s BITS p else fits_u BITS p.
Definition wrapped (sg : bool) (p : Z) : Z := if sg then swrap BITS p else p mod 2 ^ BITS.
Definition nearest (sg : bool) (p : Z) : Z :=
  if sg then Z.max (- 2 ^ (BITS - 1)) (Z.min (2 ^ (BITS - 1) - 1) p) else Z.max 0 (Z.min (2 ^ BITS - 1) p).
Definition gives (sg : bool) (m : res (list Z)) (v : Z) : Prop := exists r, m = Ok r /\ wf r /\ number sg r = v.
(** The forms of one operation with exact result [p]: with a flag, optional,
    and the one that panics when overflow checks are on. *)
Definition flagged (sg : bool) (p : Z) (m : res (list Z * bool)) : Prop :=
  exists r f, m = Ok (r, f) /\ wf r /\ number sg r = wrapped sg p /\ (f = true <-> ~ in_range sg p).
Definition optional (sg : bool) (p : Z) (m : res (option (list Z))) : Prop :=
  (in_range sg p /\ exists r, m = Ok (Some r) /\ wf r /\ number sg r = p) \/ (~ in_range sg p /\ m = Ok None).
Definition strictly (sg : bool) (p : Z) (m : res (list Z)) : Prop :=
  (in_range sg p /\ gives sg m p) \/ (~ in_range sg p /\ m = Panic).
Definition operator (sg : bool) (p : Z) (m : res (list Z)) : Prop :=
  (chk = true -> strictly sg p m) /\ (chk = false -> gives sg m (wrapped sg p)).
Definition reads (sg : bool) (m : res parsed) (v : Z) : Prop := exists r, m = Ok (POk r) /\ wf r /\ number sg r = v.
End Vocabulary.

Section P.
Context {c : Cfg}.
Hypothesis HV : Valid.

Lemma nof_range : forall sg p, {in_range sg p /\ nof sg p = false} + {~ in_range sg p /\ nof sg p = true}.
Proof.
  intros sg p. unfold nof. destruct (fitsb sg p) eqn:E; [left|right]; (split; [|reflexivity]).
  - apply fitsb_spec in E. exact E.
  - intros F. assert (F' : fits sg p) by exact F. apply fitsb_spec in F'. congruence.
Qed.
Lemma give : forall sg v, gives sg (Ok (ofZ v)) (wrapped sg v).
Proof. intros sg v. exists (ofZ v). split; auto. split; [apply (wf_ofZ HV)|]. exact (val_ofZ HV sg v). Qed.
Lemma give_small : forall sg v, in_range sg v -> gives sg (Ok (ofZ v)) v.
Proof. intros sg v F. exists (ofZ v). split; auto. split; [apply (wf_ofZ HV)|]. exact (val_ofZ_small HV sg v F). Qed.
Lemma flagged_ok : forall sg p m, m = Ok (ofZ p, nof sg p) -> flagged sg p m.
Proof.
  intros sg p m ->. exists (ofZ p), (nof sg p). split; auto. split; [apply (wf_ofZ HV)|]. split; [exact (val_ofZ HV sg p)|].
  destruct (nof_range sg p) as [(A & ->)|(A & ->)]; intuition congruence.
Qed.
Lemma optional_ok : forall sg p m, m = Ok (some_if (negb (nof sg p)) p) -> optional sg p m.
Proof.
  intros sg p m ->. destruct (nof_range sg p) as [(A & ->)|(A & ->)]; [left|right]; split; auto.
  exists (ofZ p). split; [reflexivity|]. split; [apply (wf_ofZ HV)|]. exact (val_ofZ_small HV sg p A).
Qed.
Lemma strictly_ok : forall sg p m, m = ok_if (negb (nof sg p)) p -> strictly sg p m.
Proof. intros sg p m ->. destruct (nof_range sg p) as [(A & ->)|(A & ->)]; [left|right]; split; auto. apply give_small; auto. Qed.
Lemma operator_ok : forall sg p m, m = (if chk && nof sg p then Panic else Ok (ofZ p)) -> operator sg p m.
Proof.
  intros sg p m ->. split; intros ->; cbn [andb]; [|apply give].
  destruct (nof_range sg p) as [(A & ->)|(A & ->)]; [left|right]; split; auto. apply give_small; auto.
Qed.
Lemma nearest_ok : forall sg p m, m = Ok (ofZ (clamp sg p)) -> gives sg m (nearest sg p).
Proof.
  intros sg p m ->. assert (E : clamp sg p = nearest sg p) by (destruct sg; reflexivity). rewrite E. apply give_small.
  pose proof (pBh HV). pose proof (pB HV). destruct sg; cbn; unfold fits_s, fits_u; lia.
Qed.

Lemma reads_of : forall sg w v, in_range sg w -> (reads sg (Ok (POk (ofZ w))) v <-> w = v).
Proof. exact (parses_ofZ HV). Qed.
Lemma reads_err : forall sg e v, ~ reads sg (Ok (PErr e)) v.
Proof. intros sg e v (r & E & _). discriminate. Qed.
Lemma mag_range : forall sg neg v, (neg = true -> sg = true) -> 0 <= v -> (in_range sg (signz neg v) <-> v <= mag sg neg).
Proof.
  intros sg neg v H Hv. pose proof (pBh HV). pose proof (pB HV).
  destruct neg; [rewrite H by auto|destruct sg]; cbn; unfold fits_s, fits_u; lia.
Qed.
Lemma mag_nonneg : forall sg neg, 0 <= mag sg neg.
Proof. intros. pose proof (pBh HV). pose proof (pB HV). destruct sg, neg; cbn [mag hi_of]; lia. Qed.
Lemma scan_reads : forall sg neg radix s v, 2 <= radix <= 36 -> (neg = true -> sg = true) ->
  (reads sg (Ok (from_scan_abs neg (scan (mag sg neg) radix 0 s))) v <-> numval radix s = Some (signz neg v) /\ in_range sg v).
Proof.
  intros sg neg radix s v Hr Hn. pose proof (mag_nonneg sg neg).
  assert (SS : forall u, signz neg (signz neg u) = u) by (intros; destruct neg; cbn; lia).
  assert (K : numval radix s = Some (signz neg v) -> in_range sg v -> scan (mag sg neg) radix 0 s = Value (signz neg v)).
  { intros H1 H2. apply scan_value; [lia|lia|]. split; auto. apply mag_range; auto; [apply (horner_nonneg radix s); auto; lia|]. rewrite SS. auto. }
  destruct (scan (mag sg neg) radix 0 s) as [w| |] eqn:E; cbn [from_scan_abs].
  - apply scan_value in E; [|lia|lia]. destruct E as [E1 E2].
    assert (0 <= w) by (apply (horner_nonneg radix s); auto; lia).
    rewrite reads_of by (apply mag_range; auto). unfold numval. rewrite E1. split.
    + intros <-. rewrite SS. split; auto. apply mag_range; auto.
    + intros (H2 & _). inversion H2. apply SS.
  - split; [intros H'; exfalso; exact (reads_err _ _ _ H')|]. intros (H1 & H2). specialize (K H1 H2). congruence.
  - split; [intros H'; exfalso; exact (reads_err _ _ _ H')|]. intros (H1 & H2). specialize (K H1 H2). congruence.
Qed.
(** the part of a text that [m_result] reads *)
Lemma result_reads : forall sg radix s v, 2 <= radix <= 36 -> (reads sg (Ok (m_result sg radix s)) v <-> numeral sg radix s v /\ in_range sg v).
Proof.
  intros sg radix s v Hr. unfold m_result.
  assert (R : forall neg t, (neg = true -> sg = true) ->
    (reads sg (Ok match t with [] => PErr EInvalidDigit | _ => from_scan_abs neg (scan (mag sg neg) radix 0 t) end) v
     <-> (t <> [] /\ numval radix t = Some (signz neg v)) /\ in_range sg v)).
  { intros neg t Hn. destruct t as [|a t]; [split; [intros H; exfalso; exact (reads_err _ _ _ H)|intros ((H & _) & _); contradiction]|].
    rewrite scan_reads by auto. split; [intros (A & B); repeat split; auto; discriminate|intros ((_ & A) & B); auto]. }
  destruct (hd45 s) as [[t ->]|Hd].
  - change (45 =? 43) with false. change (45 =? 45) with true. cbv iota. destruct sg.
    + rewrite R by auto. rewrite numeral_neg. reflexivity.
    + split; [intros H; exfalso; exact (reads_err _ _ _ H)|intros (H & _); exfalso; exact (numeral_neg_u _ _ _ H)].
  - rewrite numeral_pos by auto. destruct s as [|b t].
    + split; [intros H; exfalso; exact (reads_err _ _ _ H)|intros ((H & _) & _); cbn in H; contradiction].
    + cbn [hd strip_plus] in *. destruct (b =? 43); [apply R; discriminate|].
      destruct (Z.eqb_spec b 45); [contradiction|]. apply (R false (b :: t)). discriminate.
Qed.
Lemma m_from_str_split : forall lone small sg s, m_from_str fix_smul_overflowing_full lone small sg s =
  if Z.of_nat (length s) <? 39 then from_str small sg s else m_from_str_radix fix_smul_overflowing_full lone sg s 10.
Proof.
  intros lone small sg s. unfold m_from_str, from_str. cbv zeta.
  destruct (Z.ltb_spec (Z.of_nat (length s)) 39); [reflexivity|].
  replace (Z.of_nat (length s) <? (if sg then 19 else 20)) with false by (symmetry; apply Z.ltb_ge; destruct sg; lia).
  rewrite andb_false_r. reflexivity.
Qed.
End P.

(** ** C85 *)

(** With the published functions in the holes, the definitions are the code's. *)
Lemma same_pow_loop {c : Cfg} : forall sg fuel e b a f,
  m_overflowing_pow_loop smul_overflowing_full sg fuel e b a f = overflowing_pow_loop sg fuel e b a f.
Proof.
  intros sg. induction fuel as [|k IH]; intros e b a f; [reflexivity|].
  assert (NX : forall a f, (let* (b0, f0) := overflowing_mul sg b b in let* _ := dassert (negb (e / 2 =? 0)) in
    m_overflowing_pow_loop smul_overflowing_full sg k (e / 2) b0 a (f || f0)) =
    (let* (b0, f0) := overflowing_mul sg b b in let* _ := dassert (negb (e / 2 =? 0)) in overflowing_pow_loop sg k (e / 2) b0 a (f || f0))).
  { intros a' f'. destruct (overflowing_mul sg b b) as [[b0 f0]| |]; [|reflexivity|reflexivity]. cbn [bind].
    destruct (dassert (negb (e / 2 =? 0))); [|reflexivity|reflexivity]. cbn [bind]. apply IH. }
  cbn [m_overflowing_pow_loop overflowing_pow_loop]. cbv zeta.
  change (m_overflowing_mul smul_overflowing_full sg b b) with (overflowing_mul sg b b).
  change (m_overflowing_mul smul_overflowing_full sg a b) with (overflowing_mul sg a b).
  destruct (Z.land e 1 =? 1); [|apply NX].
  destruct (overflowing_mul sg a b) as [[r g]| |]; [|reflexivity|reflexivity]. cbn [bind]. destruct (e =? 1); [reflexivity|apply NX].
Qed.
Theorem C85_same_code : forall (c : Cfg) sg x y b e,
  let sm := smul_overflowing_full in
  m_overflowing_mul sm sg x y = overflowing_mul sg x y /\ m_checked_mul sm sg x y = checked_mul sg x y /\
  m_strict_mul sm sg x y = strict_mul sg x y /\ m_op_mul sm sg x y = op_mul sg x y /\
  m_saturating_mul sm sg x y = (if sg then s_saturating_mul x y else u_saturating_mul x y) /\
  m_overflowing_pow sm sg x e = overflowing_pow sg x e /\ m_checked_pow sm sg x e = checked_pow sg x e /\
  m_strict_pow sm sg x e = strict_pow sg x e /\ m_pow sm sg x e = pow sg x e /\
  m_saturating_pow sm sg x e = (if sg then s_saturating_pow x e else u_saturating_pow x e) /\
  m_nt_mul_add sm sg x y b = nt_mul_add sg x y b.
Proof.
  intros c sg x y b e sm.
  assert (P : forall sg, m_overflowing_pow sm sg x e = overflowing_pow sg x e).
  { intros s. unfold m_overflowing_pow, overflowing_pow. destruct (e =? 0); [reflexivity|].
    generalize pow_fuel; intros k. destruct (from_u8 1); cbn [bind]; [apply same_pow_loop|reflexivity|reflexivity]. }
  do 4 (split; [reflexivity|]). split; [destruct sg; reflexivity|]. split; [apply P|].
  unfold m_pow, pow, m_saturating_pow, s_saturating_pow, u_saturating_pow, m_strict_pow, strict_pow, m_checked_pow, checked_pow. rewrite !P.
  do 3 (split; [reflexivity|]). split; [destruct sg; reflexivity|reflexivity].
Qed.
Theorem C85_same_code_scalar : forall (c : Cfg) o k sg x n,
  m_wrapping_us u128_to_limb_n code_w128 o k sg x n = wrapping_us o k sg x n /\
  m_wrapping_is i128_to_limb_n code_w128 o k x n = wrapping_is o k x n /\
  m_overflowing_us smul_overflowing_full u128_to_limb_n code_o128 o k sg x n = overflowing_us o k sg x n /\
  m_overflowing_is smul_overflowing_full i128_to_limb_n code_o128 o k x n = overflowing_is o k x n /\
  m_checked_us smul_overflowing_full u128_to_limb_n code_o128 o k sg x n = checked_us o k sg x n /\
  m_checked_is smul_overflowing_full i128_to_limb_n code_o128 o k x n = checked_is o k x n /\
  m_plain_us smul_overflowing_full u128_to_limb_n code_w128 code_o128 o k sg x n = plain_us o k sg x n /\
  m_plain_is smul_overflowing_full i128_to_limb_n code_w128 code_o128 o k x n = plain_is o k x n.
Proof. intros c o k sg x n. destruct k; destruct sg; destruct o; repeat split; reflexivity. Qed.
Theorem C85_same_code_text : forall (c : Cfg),
  (forall sg s radix, m_from_str_radix smul_overflowing_full code_lone sg s radix = from_str_radix sg s radix) /\
  (forall small sg s, m_from_str smul_overflowing_full code_lone small sg s = from_str small sg s).
Proof. intros c. split; reflexivity. Qed.

(** *** Products and powers: every form reports exactly the results out of range. *)
Theorem C85_mul : forall (c : Cfg) sg x y, Valid -> wf x -> wf y ->
  let sm := fix_smul_overflowing_full in let p := number sg x * number sg y in
  flagged sg p (m_overflowing_mul sm sg x y) /\ optional sg p (m_checked_mul sm sg x y) /\ strictly sg p (m_strict_mul sm sg x y) /\
  operator sg p (m_op_mul sm sg x y) /\ gives sg (m_saturating_mul sm sg x y) (nearest sg p).
Proof.
  intros c sg x y HV Hx Hy sm p. split; [|split; [|split; [|split]]].
  - apply (flagged_ok HV). apply (m_overflowing_mul_ok HV); auto.
  - apply (optional_ok HV). apply (m_checked_mul_ok HV); auto.
  - apply (strictly_ok HV). apply (m_strict_mul_ok HV); auto.
  - apply (operator_ok HV). apply (m_op_mul_ok HV); auto.
  - apply (nearest_ok HV). apply (m_saturating_mul_ok HV); auto.
Qed.
Theorem C85_pow : forall (c : Cfg) sg x e, Valid -> wf x -> 0 <= e < 2 ^ 32 ->
  let sm := fix_smul_overflowing_full in let p := number sg x ^ e in
  flagged sg p (m_overflowing_pow sm sg x e) /\ optional sg p (m_checked_pow sm sg x e) /\ strictly sg p (m_strict_pow sm sg x e) /\
  operator sg p (m_pow sm sg x e) /\ gives sg (m_saturating_pow sm sg x e) (nearest sg p).
Proof.
  intros c sg x e HV Hx He sm p. split; [|split; [|split; [|split]]].
  - apply (flagged_ok HV). apply (m_overflowing_pow_ok HV); auto.
  - apply (optional_ok HV). apply (m_checked_pow_ok HV); auto.
  - apply (strictly_ok HV). apply (m_strict_pow_ok HV); auto.
  - apply (operator_ok HV). apply (m_pow_ok HV); auto.
  - apply (nearest_ok HV). apply (m_saturating_pow_ok HV); auto.
Qed.
(** [x * a + b] panics when the product or the sum leaves the range, and only then. *)
Theorem C85_mul_add : forall (c : Cfg) sg x a b, Valid -> wf x -> wf a -> wf b ->
  let m := m_nt_mul_add fix_smul_overflowing_full sg x a b in
  let p := number sg x * number sg a in let s := p + number sg b in
  (chk = true -> (in_range sg p /\ in_range sg s /\ gives sg m s) \/ (~ (in_range sg p /\ in_range sg s) /\ m = Panic)) /\
  (chk = false -> gives sg m (wrapped sg s)).
Proof.
  intros c sg x a b HV Hx Ha Hb m p s. unfold m. rewrite (m_nt_mul_add_ok HV) by auto.
  change (val sg x * val sg a) with p. change (p + val sg b) with s. split; intros ->; cbn [andb]; [|apply (give HV)].
  destruct (nof_range sg p) as [(A & ->)|(A & ->)]; cbn [orb]; [|right; split; [tauto|reflexivity]].
  destruct (nof_range sg s) as [(B & ->)|(B & ->)]; [left|right; split; [tauto|reflexivity]].
  split; auto. split; auto. apply (give_small HV); auto.
Qed.

(** *** Scalars of every kind, on every platform. *)
Theorem C85_scalar_u : forall (c : Cfg) o k sg x n, Valid -> wf x -> fits_u (kbits k) n ->
  let sm := fix_smul_overflowing_full in let un := fix_u128_to_limb_n in let p := sopz o (number sg x) n in
  gives sg (m_wrapping_us un fix_w128 o k sg x n) (wrapped sg p) /\ flagged sg p (m_overflowing_us sm un fix_o128 o k sg x n) /\
  optional sg p (m_checked_us sm un fix_o128 o k sg x n) /\ operator sg p (m_plain_us sm un fix_w128 fix_o128 o k sg x n).
Proof.
  intros c o k sg x n HV Hx Hn sm un p. split; [|split; [|split]].
  - unfold un. rewrite (m_wrapping_us_ok HV) by auto. apply (give HV).
  - apply (flagged_ok HV). apply (m_overflowing_us_ok HV); auto.
  - apply (optional_ok HV). apply (m_checked_us_ok HV); auto.
  - apply (operator_ok HV). apply (m_plain_us_ok HV); auto.
Qed.
Theorem C85_scalar_i : forall (c : Cfg) o k x n, Valid -> wf x -> fits_s (kbits k) n ->
  let sm := fix_smul_overflowing_full in let un := fix_i128_to_limb_n in let p := sopz o (sval x) n in
  gives true (m_wrapping_is un fix_w128 o k x n) (wrapped true p) /\ flagged true p (m_overflowing_is sm un fix_o128 o k x n) /\
  optional true p (m_checked_is sm un fix_o128 o k x n) /\ operator true p (m_plain_is sm un fix_w128 fix_o128 o k x n).
Proof.
  intros c o k x n HV Hx Hn sm un p. split; [|split; [|split]].
  - unfold un. rewrite (m_wrapping_is_ok HV) by auto. apply (give HV).
  - apply (flagged_ok HV). apply (m_overflowing_is_ok HV); auto.
  - apply (optional_ok HV). apply (m_checked_is_ok HV); auto.
  - apply (operator_ok HV). apply (m_plain_is_ok HV); auto.
Qed.

(** *** Parsing: the texts read are the numerals in range, and they are read right. *)
Theorem C85_parse : forall (c : Cfg) sg s radix v, Valid -> bytes s -> 2 <= radix <= 36 ->
  (reads sg (m_from_str_radix fix_smul_overflowing_full fix_lone sg s radix) v <-> numeral sg radix s v /\ in_range sg v).
Proof. intros c sg s radix v HV Hb Hr. rewrite (m_from_str_radix_ok HV) by auto. apply (result_reads HV); auto. Qed.
Theorem C85_from_str : forall (c : Cfg) small sg s v, Valid -> bytes s ->
  (reads sg (m_from_str fix_smul_overflowing_full fix_lone small sg s) v <-> numeral sg 10 s v /\ in_range sg v).
Proof.
  intros c small sg s v HV Hb. rewrite m_from_str_split. destruct (Z.ltb_spec (Z.of_nat (length s)) 39).
  - apply (short_value HV). lia.
  - apply C85_parse; auto. lia.
Qed.
(** What is not read is reported, and a numeral out of range by its sign. *)
Theorem C85_parse_errors : forall (c : Cfg) sg s radix, Valid -> bytes s -> 2 <= radix <= 36 ->
  let m := m_from_str_radix fix_smul_overflowing_full fix_lone sg s radix in
  (m = Ok (PErr EEmpty) <-> s = []) /\
  (forall v, numeral sg radix s v -> ~ in_range sg v -> m = Ok (PErr (if v <? 0 then ENegOverflow else EPosOverflow))) /\
  ((forall v, numeral sg radix s v -> ~ in_range sg v) -> exists e, m = Ok (PErr e)).
Proof.
  intros c sg s radix HV Hb Hr m. pose proof (m_from_str_radix_ok HV sg s radix Hr Hb) as E. fold m in E.
  assert (TL : forall neg t v, (neg = true -> sg = true) -> numval radix t = Some (signz neg v) -> ~ in_range sg v ->
     scan (mag sg neg) radix 0 t = TooLarge).
  { intros neg t v Hn Hv Hf. pose proof (mag_nonneg HV sg neg).
    destruct (scan (mag sg neg) radix 0 t) as [w| |] eqn:S; auto; exfalso.
    - apply scan_value in S; [|lia|lia]. destruct S as (S1 & S2). unfold numval in Hv. rewrite S1 in Hv. inversion Hv; subst.
      apply Hf. assert (0 <= signz neg v) by (apply (horner_nonneg radix t); auto; lia).
      replace v with (signz neg (signz neg v)) by (destruct neg; cbn; lia). apply (mag_range HV); auto.
    - apply scan_bad in S; [|lia|lia]. destruct S as (p & ch & u & ((t' & ->) & Hp) & _ & Hd). unfold numval in Hv.
      rewrite horner_app, Hp in Hv. cbn [horner] in Hv. rewrite Hd in Hv. discriminate. }
  split; [|split].
  - rewrite E. unfold m_result. destruct s as [|b t]; [split; reflexivity|]. split; [|discriminate]. intros H. exfalso. revert H.
    assert (G : forall neg u, Ok (from_scan_abs neg (scan (mag sg neg) radix 0 u)) <> Ok (PErr EEmpty)).
    { intros neg u. destruct (scan _ _ _ _); cbn; try discriminate. destruct neg; discriminate. }
    destruct (b =? 43); [destruct t; [discriminate|apply G]|]. destruct (b =? 45); [|apply G].
    destruct sg; [destruct t; [discriminate|apply G]|discriminate].
  - intros v Hn Hf. rewrite E. f_equal. unfold m_result. destruct (hd45 s) as [[t ->]|Hd].
    + change (45 =? 43) with false. change (45 =? 45) with true. cbv iota. destruct sg; [|exfalso; exact (numeral_neg_u _ _ _ Hn)].
      apply numeral_neg in Hn. destruct Hn as (Ht & Hv). pose proof (TL true t v (fun H => H) Hv Hf) as S. rewrite S.
      destruct t as [|a t]; [contradiction|]. cbn [from_scan_abs perr_of].
      destruct (Z.ltb_spec v 0); [reflexivity|]. exfalso. apply Hf. apply horner_nonneg in Hv; [|lia]. replace v with 0 by lia.
      pose proof (pBh HV). cbn. unfold fits_s. lia.
    + apply numeral_pos in Hn; auto. destruct Hn as (Ht & Hv).
      assert (V0 : 0 <= v) by (apply (horner_nonneg radix (strip_plus s)); auto; lia). destruct (Z.ltb_spec v 0); [lia|].
      assert (S : scan (mag sg false) radix 0 (strip_plus s) = TooLarge) by (apply TL with v; auto; discriminate).
      destruct s as [|b t]; [cbn in Ht; contradiction|]. cbn [hd strip_plus] in *. destruct (b =? 43).
      * destruct t; [contradiction|]. rewrite S. reflexivity.
      * destruct (Z.eqb_spec b 45); [contradiction|]. rewrite S. reflexivity.
  - intros H. rewrite E. destruct (m_result sg radix s) as [r|e] eqn:R; [|exists e; reflexivity]. exfalso.
    assert (exists v, r = ofZ v /\ in_range sg v).
    { unfold m_result in R.
      assert (G : forall neg t, (neg = true -> sg = true) -> from_scan_abs neg (scan (mag sg neg) radix 0 t) = POk r -> exists v, r = ofZ v /\ in_range sg v).
      { intros neg t Hn HS. pose proof (mag_nonneg HV sg neg). destruct (scan (mag sg neg) radix 0 t) as [w| |] eqn:S; try discriminate.
        apply scan_value in S; [|lia|lia]. destruct S as (S1 & S2). cbn in HS. inversion HS. exists (signz neg w). split; auto.
        apply (mag_range HV); auto. apply (horner_nonneg radix t); auto. lia. }
      destruct s as [|b t]; [discriminate|]. destruct (b =? 43); [destruct t; [discriminate|apply (G false _ ltac:(discriminate) R)]|].
      destruct (b =? 45); [|apply (G false _ ltac:(discriminate) R)]. destruct sg; [|discriminate]. destruct t; [discriminate|apply (G true _ ltac:(auto) R)]. }
    destruct H0 as (v & -> & F). assert (N : reads sg (Ok (m_result sg radix s)) v) by (rewrite R; apply (reads_of HV); auto).
    apply (result_reads HV) in N; auto. destruct N as (N & _). exact (H v N F).
Qed.
(** [from_str] and [from_str_radix] agree on every text but a minus before an
    unsigned number, where both fail with different errors. *)
Theorem C85_agree : forall (c : Cfg) small sg s, Valid -> bytes s -> (hd 0 s = 45 -> sg = true) ->
  m_from_str fix_smul_overflowing_full fix_lone small sg s = m_from_str_radix fix_smul_overflowing_full fix_lone sg s 10.
Proof.
  intros c small sg s HV Hb Hd. rewrite m_from_str_split. destruct (Z.ltb_spec (Z.of_nat (length s)) 39); [|reflexivity].
  rewrite (m_from_str_radix_ok HV) by (auto; lia). rewrite (from_str_short HV) by lia. f_equal.
  assert (HP : 10 ^ 38 <= 2 ^ (BITS - 1)).
  { apply Z.le_trans with (2 ^ 255); [vm_compute; discriminate|]. apply pow2_le_mono. pose proof (BITS_ge HV). lia. }
  pose proof (pBhalf HV). pose proof (pBh HV).
  assert (HQ : forall neg (u : list Z), (length u <= length s)%nat -> (0 + 1) * 10 ^ Z.of_nat (length u) <= mag sg neg + 1).
  { intros neg u Hu. assert (10 ^ Z.of_nat (length u) <= 10 ^ 38) by (apply Z.pow_le_mono_r; lia). destruct neg, sg; cbn [mag hi_of]; lia. }
  destruct s as [|b t]; [reflexivity|]. unfold short_result, m_result. cbn [hd] in Hd.
  assert (R : forall neg u, (length u <= length (b :: t))%nat ->
    match match u with [] => inr EInvalidDigit | _ => match numval 10 u with Some v => inl (signz neg v) | None => inr EInvalidDigit end end with
    | inl v => POk (ofZ v) | inr e => PErr e end =
    match u with [] => PErr EInvalidDigit | _ => from_scan_abs neg (scan (mag sg neg) 10 0 u) end).
  { intros neg u Hu. destruct u as [|a u]; [reflexivity|]. rewrite scan_nolimit by (try lia; apply HQ; auto).
    unfold numval. destruct (horner 10 0 (a :: u)); reflexivity. }
  destruct (Z.eqb_spec b 43) as [->|].
  - cbn [orb]. rewrite andb_false_r. apply (R false t). cbn. lia.
  - cbn [orb]. destruct (Z.eqb_spec b 45) as [->|].
    + rewrite (Hd eq_refl). cbn [andb]. rewrite (Hd eq_refl) in R. apply (R true t). cbn. lia.
    + rewrite andb_false_r. apply (R false (b :: t)). lia.
Qed.

(** *** The inputs on which the code goes wrong *)
(** (2^254 + 1) * (-2): C06 *)
Example C85_ex1 : let x := E64 (2 ^ 254 + 1) in let y := E64 (-2) in
  overflowing_mul (c := c256_64) true x y = Ok (E64 (- 2 ^ 255 - 2), false) /\
  m_overflowing_mul (c := c256_64) (fix_smul_overflowing_full (c := c256_64)) true x y = Ok (E64 (- 2 ^ 255 - 2), true) /\
  m_checked_mul (c := c256_64) (fix_smul_overflowing_full (c := c256_64)) true x y = Ok None /\
  m_saturating_mul (c := c256_64) (fix_smul_overflowing_full (c := c256_64)) true x y = Ok (E64 (- 2 ^ 255)) /\
  m_overflowing_mul (c := c256_64) (fix_smul_overflowing_full (c := c256_64)) true (E64 (2 ^ 254)) y = Ok (E64 (- 2 ^ 255), false).
Proof. vm_compute. repeat split. Qed.
Example C85_ex2 :
  m_checked_pow (c := c256_32) (fix_smul_overflowing_full (c := c256_32)) true (E32 (-2)) 255 = Ok (Some (E32 (- 2 ^ 255))) /\
  m_checked_pow (c := c256_32) (fix_smul_overflowing_full (c := c256_32)) true (E32 (-3)) 161 = Ok None /\
  m_checked_pow (c := c256_32) (fix_smul_overflowing_full (c := c256_32)) true (E32 (-2)) 257 = Ok None /\
  m_checked_pow (c := c256_32) (fix_smul_overflowing_full (c := c256_32)) false (E32 2) 255 = Ok (Some (E32 (2 ^ 255))).
Proof. vm_compute. repeat split. Qed.
(** a 128-bit scalar on 32-bit limbs: C43 *)
Example C85_ex3 : let n := 2 ^ 96 * 7 + 2 ^ 64 * 5 + 2 ^ 32 * 3 + 1 in
  wrapping_us (c := c256_32) SAdd K128 true (E32 (-9)) n = Panic /\
  m_wrapping_us (c := c256_32) (fix_u128_to_limb_n (c := c256_32)) (fix_w128 (c := c256_32)) SAdd K128 true (E32 (-9)) n = Ok (E32 (n - 9)) /\
  m_checked_is (c := c256_32) (fix_smul_overflowing_full (c := c256_32)) (fix_i128_to_limb_n (c := c256_32)) (fix_o128 (c := c256_32)) SMul K128 (E32 (-9)) (- n) = Ok (Some (E32 (9 * n))).
Proof. vm_compute. repeat split. Qed.
(** a lone sign, and a negative numeral below the range: C27 *)
Example C85_ex4 :
  from_str_radix (c := c256_64) true [45] 10 = Ok (POk (E64 0)) /\
  m_from_str_radix (c := c256_64) (fix_smul_overflowing_full (c := c256_64)) fix_lone true [45] 10 = Ok (PErr EInvalidDigit) /\
  m_from_str_radix (c := c256_64) (fix_smul_overflowing_full (c := c256_64)) fix_lone true [45; 49; 50] 10 = Ok (POk (E64 (-12))).
Proof. vm_compute. repeat split. Qed.

(** ** Assumptions (each must print "Closed under the global context") *)

Print Assumptions C85_same_code.
Print Assumptions C85_same_code_scalar.
Print Assumptions C85_same_code_text.
Print Assumptions C85_mul.
Print Assumptions C85_pow.
Print Assumptions C85_mul_add.
Print Assumptions C85_scalar_u.
Print Assumptions C85_scalar_i.
Print Assumptions C85_parse.
Print Assumptions C85_from_str.
Print Assumptions C85_parse_errors.
Print Assumptions C85_agree.
