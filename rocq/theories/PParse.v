(** * Proofs: parsing (MParse.v) *)

Require Import ZArith List Bool Lia.
From Verif Require Import Prim Spec Facts MAdd MMul MCore PCore PBits PWide MArith PArith PArith2 PPow MDiv MScalar PScalar TextSpec MApi MParse.
Import ListNotations.
Local Open Scope Z_scope.

(** ** Digits *)

Lemma digit_in_range : forall radix ch d, digit_in radix ch = Some d -> 0 <= d < radix.
Proof.
  intros radix ch d. unfold digit_in, digit_of.
  destruct (Z.leb_spec 48 ch), (Z.leb_spec ch 57), (Z.leb_spec 65 ch), (Z.leb_spec ch 90), (Z.leb_spec 97 ch), (Z.leb_spec ch 122);
    cbn [andb]; try discriminate; try lia;
    match goal with |- context [?a <? radix] => destruct (Z.ltb_spec a radix) end; intros E; inversion E; lia.
Qed.

Lemma digit_in_radix_le : forall radix ch, radix <= 10 ->
  digit_in radix ch = if (48 <=? ch) && (ch <? 48 + radix) then Some (ch - 48) else None.
Proof.
  intros radix ch Hr. unfold digit_in, digit_of.
  destruct (Z.leb_spec 48 ch), (Z.leb_spec ch 57), (Z.leb_spec 65 ch), (Z.leb_spec ch 90), (Z.leb_spec 97 ch), (Z.leb_spec ch 122), (Z.ltb_spec ch (48 + radix));
    cbn [andb]; try lia; auto;
    match goal with |- context [?a <? radix] => destruct (Z.ltb_spec a radix) end; auto; lia.
Qed.

Section P.
Context {c : Cfg}.
Hypothesis HV : Valid.

Lemma char_to_digit_ok : forall ch radix, fits_u 8 ch -> 2 <= radix <= 36 ->
  char_to_digit ch radix = Ok (digit_in radix ch).
Proof.
  intros ch radix Hc Hr. unfold fits_u in Hc. change (2 ^ 8) with 256 in Hc. unfold char_to_digit.
  destruct (Z.leb_spec radix 10).
  - cbn [bind]. rewrite digit_in_radix_le by auto. f_equal. unfold p_wrapping_sub, ucast. change (2 ^ 8) with 256.
    destruct (Z.leb_spec 48 ch).
    + rewrite Z.mod_small by lia. destruct (Z.ltb_spec (ch - 48) radix), (Z.ltb_spec ch (48 + radix)); auto; lia.
    + cbn [andb]. rewrite <- (Z.mod_add (ch - 48) 1) by lia. rewrite Z.mod_small by lia.
      destruct (Z.ltb_spec (ch - 48 + 1 * 256) radix); auto; lia.
  - unfold digit_in, digit_of, usub, uadd.
    destruct ((48 <=? ch) && (ch <=? 57)) eqn:E1.
    { apply andb_prop in E1. destruct E1 as [A B]. apply Z.leb_le in A, B. rewrite uchk_ok by lia. reflexivity. }
    destruct ((65 <=? ch) && (ch <=? 90)) eqn:E2.
    { apply andb_prop in E2. destruct E2 as [A B]. apply Z.leb_le in A, B. rewrite uchk_ok by lia. cbn [bind].
      rewrite uchk_ok by lia. cbn [bind]. replace (ch - 65 + 10) with (ch - 55) by lia. reflexivity. }
    destruct ((97 <=? ch) && (ch <=? 122)) eqn:E3.
    { apply andb_prop in E3. destruct E3 as [A B]. apply Z.leb_le in A, B. rewrite uchk_ok by lia. cbn [bind].
      rewrite uchk_ok by lia. cbn [bind]. replace (ch - 97 + 10) with (ch - 87) by lia. reflexivity. }
    cbn [bind]. destruct (Z.ltb_spec 255 radix); [lia|reflexivity].
Qed.

Lemma small_limb : forall v, 0 <= v <= 36 -> fits_u W v.
Proof. intros v H. unfold fits_u. destruct (W_cases HV) as [-> | ->]; lia. Qed.
Lemma ucast_limb : forall v, 0 <= v <= 36 -> ucast W v = v.
Proof. intros v H. apply ucast_fits. apply small_limb; auto. Qed.

(** ** Loops *)

Definition bytes (s : list Z) : Prop := Forall (fits_u 8) s.
Definition perr_of (neg : bool) : perr := if neg then ENegOverflow else EPosOverflow.
Definition from_scan (neg : bool) (r : scanned) : parsed :=
  match r with Value v => POk (ofZ v) | BadDigit => PErr EInvalidDigit | TooLarge => PErr (perr_of neg) end.
Definition signz (neg : bool) (v : Z) : Z := if neg then - v else v.
Definition from_scan_abs (neg : bool) (r : scanned) : parsed :=
  match r with Value v => POk (ofZ (signz neg v)) | BadDigit => PErr EInvalidDigit | TooLarge => PErr (perr_of neg) end.

Lemma scan_nolimit : forall lim radix s acc, 2 <= radix -> 0 <= acc ->
  (acc + 1) * radix ^ Z.of_nat (length s) <= lim + 1 ->
  scan lim radix acc s = match horner radix acc s with Some v => Value v | None => BadDigit end.
Proof.
  intros lim radix s. induction s as [|ch t IH]; intros acc Hr Ha Hl; [reflexivity|]. cbn [scan horner].
  destruct (digit_in radix ch) as [d|] eqn:E; [|reflexivity]. pose proof (digit_in_range _ _ _ E).
  cbn [length] in Hl. rewrite Nat2Z.inj_succ, Z.pow_succ_r in Hl by lia.
  assert (P : 1 <= radix ^ Z.of_nat (length t)) by (apply Z.pow_le_mono_r with (b := 0) (c := Z.of_nat (length t)) (a := radix) ; lia).
  assert (Hstep : (acc * radix + d + 1) * radix ^ Z.of_nat (length t) <= lim + 1).
  { apply Z.le_trans with ((acc + 1) * (radix * radix ^ Z.of_nat (length t))); auto. nia. }
  destruct (Z.leb_spec (acc * radix + d) lim); [apply IH; auto; nia|nia].
Qed.

Lemma unchecked_loop_ok : forall sg neg radix s acc, 2 <= radix <= 36 -> bytes s ->
  unchecked_loop sg neg radix s (ofZ (signz neg acc)) =
  Ok (match horner radix acc s with Some v => POk (ofZ (signz neg v)) | None => PErr EInvalidDigit end).
Proof.
  intros sg neg radix s. induction s as [|ch t IH]; intros acc Hr Hb; [reflexivity|].
  inversion Hb as [|? ? Hc Ht]; subst. cbn [unchecked_loop horner].
  rewrite char_to_digit_ok by auto. cbn [bind]. destruct (digit_in radix ch) as [d|] eqn:E; [|reflexivity].
  pose proof (digit_in_range _ _ _ E). rewrite !ucast_limb by lia.
  rewrite (wrapping_ulimb_ok HV) by (try apply (wf_ofZ HV); apply small_limb; lia). cbn [bind sopz].
  rewrite (val_ofZ HV), (ofZ_mul_l HV).
  rewrite (wrapping_ulimb_ok HV) by (try apply (wf_ofZ HV); apply small_limb; lia). cbn [bind].
  rewrite <- IH by auto. f_equal. rewrite (val_ofZ HV).
  destruct neg; cbn [sopz signz]; [rewrite (ofZ_sub_l HV)|rewrite (ofZ_add_l HV)]; f_equal; ring.
Qed.

(** positive, or unsigned *)
Lemma checked_loop_pos : forall sg radix s acc, 2 <= radix <= 36 -> bytes s -> 0 <= acc <= hi_of sg ->
  checked_loop sg false radix s (ofZ acc) = Ok (from_scan false (scan (hi_of sg) radix acc s)).
Proof.
  intros sg radix s. induction s as [|ch t IH]; intros acc Hr Hb Ha; [reflexivity|].
  inversion Hb as [|? ? Hc Ht]; subst. cbn [checked_loop scan].
  rewrite char_to_digit_ok by auto. cbn [bind]. destruct (digit_in radix ch) as [d|] eqn:E; [|reflexivity].
  pose proof (digit_in_range _ _ _ E) as Hd. rewrite !ucast_limb by lia.
  assert (FP : forall v, 0 <= v <= hi_of sg -> fits sg v).
  { intros v Hv. pose proof (pBh HV). pose proof (pB HV). destruct sg; cbn in *; unfold fits_s, fits_u; lia. }
  assert (FN : forall v, hi_of sg < v -> ~ fits sg v).
  { intros v Hv. destruct sg; cbn in *; unfold fits_s, fits_u; lia. }
  assert (NS : forall k', k' = KLimb -> sg = true -> ~ swapped k') by (intros ? -> _ [? _]; discriminate).
  rewrite (checked_us_ok HV) by (try apply (wf_ofZ HV); auto; apply small_limb; lia). cbn [bind sopz oflag].
  rewrite (val_ofZ_small HV) by auto.
  destruct (Z.le_gt_cases (acc * radix) (hi_of sg)) as [Hm|Hm].
  - rewrite (mulf_fits HV) by (apply FP; nia). cbn [negb some_if].
    rewrite (checked_us_ok HV) by (try apply (wf_ofZ HV); auto; apply small_limb; lia). cbn [bind sopz oflag].
    rewrite (val_ofZ_small HV) by (apply FP; nia). rewrite negb_involutive.
    destruct (Z.leb_spec (acc * radix + d) (hi_of sg)) as [Hs|Hs].
    + replace (fitsb sg (acc * radix + d)) with true by (symmetry; apply fitsb_spec; apply FP; nia).
      cbn [some_if]. apply IH; auto. nia.
    + destruct (fitsb_reflect sg (acc * radix + d)) as [F|F]; [exfalso; apply (FN _ Hs F)|]. reflexivity.
  - assert (M : mulf sg acc radix = true).
    { rewrite (mulf_ovf HV). unfold ovf. destruct sg; cbn in Hm.
      - destruct (Z.leb_spec (2 ^ (BITS - 1)) (acc * radix)); [reflexivity|lia].
      - destruct (fitsb_reflect false (acc * radix)) as [F|F]; [exfalso; apply (FN _ Hm F)|reflexivity]. }
    rewrite M. cbn [negb some_if]. destruct (Z.leb_spec (acc * radix + d) (hi_of sg)); [lia|]. reflexivity.
Qed.

(** negative *)
Lemma checked_loop_neg : forall radix s acc, 2 <= radix <= 36 -> bytes s -> 0 <= acc <= 2 ^ (BITS - 1) ->
  checked_loop true true radix s (ofZ (- acc)) =
  Ok (from_scan true (scan_neg (2 ^ (BITS - 1)) (2 ^ (BITS - W)) radix acc s)).
Proof.
  intros radix s. pose proof (pBh HV) as PH. pose proof (slack2 HV) as SL. pose proof (pBhalf HV) as PB.
  assert (S72 : 72 <= 2 ^ (BITS - W)).
  { pose proof (BITS_ge HV). apply Z.le_trans with (2 ^ 7); [lia|]. apply pow2_le_mono. destruct (W_cases HV); lia. }
  assert (SH : 4 * 2 ^ (BITS - W) <= 2 ^ (BITS - 1)).
  { pose proof (BITS_ge HV). replace (4 * 2 ^ (BITS - W)) with (2 ^ (BITS - W + 2)) by (rewrite Z.pow_add_r by (destruct (W_cases HV); lia); ring).
    apply pow2_le_mono. destruct (W_cases HV); lia. }
  assert (NS : true = true -> ~ swapped KLimb) by (intros _ [? _]; discriminate).
  induction s as [|ch t IH]; intros acc Hr Hb Ha; [reflexivity|].
  inversion Hb as [|? ? Hc Ht]; subst. cbn [checked_loop scan_neg].
  rewrite char_to_digit_ok by auto. cbn [bind]. destruct (digit_in radix ch) as [d|] eqn:E; [|reflexivity].
  pose proof (digit_in_range _ _ _ E) as Hd. rewrite !ucast_limb by lia.
  set (h := 2 ^ (BITS - 1)) in *. set (k := 2 ^ (BITS - W)) in *.
  assert (F : forall v, - h <= v < h -> fits true v) by (intros v Hv; exact Hv).
  rewrite (checked_us_ok HV) by (try apply (wf_ofZ HV); auto; apply small_limb; lia). cbn [bind sopz oflag].
  rewrite (val_ofZ_small HV) by (apply F; lia).
  assert (M : mulf true (- acc) radix = (h + k <=? acc * radix)).
  { rewrite (mulf_ovf HV). unfold ovf. fold h k.
    destruct (Z.leb_spec h (- acc * radix)); [nia|]. cbn [orb].
    destruct (Z.leb_spec (- acc * radix) (- (h + k))), (Z.leb_spec (h + k) (acc * radix)); auto; lia. }
  rewrite M. replace (- acc * radix) with (- (acc * radix)) by ring. set (m := acc * radix) in *.
  assert (Hm : 0 <= m) by (unfold m; nia).
  destruct (Z.leb_spec (h + k) m) as [Big|Small]; cbn [negb some_if].
  { destruct (Z.leb_spec (m + d) h); [lia|]. destruct (Z.ltb_spec m (h + k)); [lia|]. rewrite andb_false_r. reflexivity. }
  rewrite (checked_us_ok HV) by (try apply (wf_ofZ HV); auto; apply small_limb; lia). cbn [bind sopz oflag].
  rewrite negb_involutive. cbn [val].
  destruct (Z.le_gt_cases m h) as [Hin|Hout].
  - (* product in range *)
    change (sval (ofZ (- m))) with (val true (ofZ (- m))). rewrite (val_ofZ_small HV true (- m)) by (apply F; lia).
    destruct (Z.leb_spec (m + d) h) as [Hs|Hs].
    + replace (fitsb true (- m - d)) with true by (symmetry; apply fitsb_spec; apply F; lia).
      cbn [some_if]. replace (- m - d) with (- (m + d)) by ring. apply IH; auto. lia.
    + destruct (fitsb_reflect true (- m - d)) as [Hf|Hf]; [exfalso; cbn in Hf; unfold fits_s in Hf; fold h in Hf; lia|].
      destruct (Z.ltb_spec h m); [lia|]. reflexivity.
  - (* unnoticed wrap *)
    destruct (Z.leb_spec (m + d) h); [lia|]. destruct (Z.ltb_spec h m); [|lia]. destruct (Z.ltb_spec m (h + k)); [|lia]. cbn [andb].
    assert (EV : sval (ofZ (- m)) = 2 * h - m).
    { rewrite (ofZ_cong HV (- m) (2 * h - m) (-1)) by lia. apply (val_ofZ_small HV true). apply F. lia. }
    rewrite EV. replace (fitsb true (2 * h - m - d)) with true by (symmetry; apply fitsb_spec; apply F; lia).
    cbn [some_if]. replace (2 * h - m - d) with (2 * h - (m + d)) by ring. set (r := 2 * h - (m + d)).
    destruct t as [|ch' t']; [reflexivity|]. cbn [checked_loop].
    inversion Ht; subst. rewrite char_to_digit_ok by auto. cbn [bind]. destruct (digit_in radix ch') as [d'|]; [|reflexivity].
    rewrite !ucast_limb by lia.
    rewrite (checked_us_ok HV) by (try apply (wf_ofZ HV); auto; apply small_limb; lia). cbn [bind sopz oflag].
    rewrite (val_ofZ_small HV) by (apply F; unfold r; lia).
    assert (Mr : mulf true r radix = true).
    { rewrite (mulf_ovf HV). unfold ovf. fold h k. destruct (Z.leb_spec h (r * radix)); [reflexivity|]. unfold r in *. nia. }
    rewrite Mr. reflexivity.
Qed.

(** ** from_str_radix *)

Lemma bytes_BITS : BITS = 8 * (BITS / 8) /\ 32 <= BITS / 8.
Proof.
  destruct HV as (_ & (k & Hk & E) & _). rewrite E. replace (128 * k) with (16 * k * 8) by ring. rewrite Z.div_mul by lia. lia.
Qed.
Lemma overflow_digits_ok : forall sg radix n, 2 <= radix <= 36 -> 0 <= n <= overflow_digits radix sg ->
  radix ^ n <= hi_of sg + 1.
Proof.
  intros sg radix n Hr Hn. destruct bytes_BITS as [EB EG]. set (y := BITS / 8) in *. unfold overflow_digits in Hn. fold y in Hn.
  assert (L : radix ^ n <= 2 ^ (BITS - 1) \/ (sg = false /\ radix ^ n <= 2 ^ BITS)).
  { destruct (Z.leb_spec radix 16).
    - assert (P : radix ^ n <= 2 ^ (4 * n)).
      { rewrite Z.pow_mul_r by lia. apply Z.pow_le_mono_l. lia. }
      destruct sg; cbn [b2z] in Hn.
      + left. apply Z.le_trans with (1 := P). apply pow2_le_mono. lia.
      + right. split; auto. apply Z.le_trans with (1 := P). apply pow2_le_mono. lia.
    - left. apply Z.le_trans with (2 ^ (6 * n)).
      + rewrite Z.pow_mul_r by lia. apply Z.pow_le_mono_l. lia.
      + apply pow2_le_mono. lia. }
  pose proof (pow2_le_mono (BITS - 1) BITS). destruct sg; cbn [hi_of]; destruct L as [L|[? L]]; try discriminate; lia.
Qed.
Lemma scan_neg_nolimit : forall h k radix s acc, 2 <= radix -> 0 <= acc ->
  (acc + 1) * radix ^ Z.of_nat (length s) <= h ->
  scan_neg h k radix acc s = match horner radix acc s with Some v => Value (- v) | None => BadDigit end.
Proof.
  intros h k radix s. induction s as [|ch t IH]; intros acc Hr Ha Hl; [reflexivity|]. cbn [scan_neg horner].
  destruct (digit_in radix ch) as [d|] eqn:E; [|reflexivity]. pose proof (digit_in_range _ _ _ E).
  cbn [length] in Hl. rewrite Nat2Z.inj_succ, Z.pow_succ_r in Hl by lia.
  assert (P : 1 <= radix ^ Z.of_nat (length t)) by (apply Z.pow_le_mono_r with (b := 0) (c := Z.of_nat (length t)) (a := radix) ; lia).
  assert (Hstep : (acc * radix + d + 1) * radix ^ Z.of_nat (length t) <= h).
  { apply Z.le_trans with ((acc + 1) * (radix * radix ^ Z.of_nat (length t))); auto. nia. }
  destruct (Z.leb_spec (acc * radix + d) h); [apply IH; auto; nia|nia].
Qed.

Definition scan_result (sg neg : bool) (radix : Z) (s : list Z) : parsed :=
  if neg then from_scan true (scan_neg (2 ^ (BITS - 1)) (2 ^ (BITS - W)) radix 0 s)
  else from_scan false (scan (hi_of sg) radix 0 s).
Lemma parse_digits_ok : forall sg neg radix s, 2 <= radix <= 36 -> bytes s -> (neg = true -> sg = true) ->
  parse_digits sg neg radix s = Ok (scan_result sg neg radix s).
Proof.
  intros sg neg radix s Hr Hb Hs. unfold parse_digits, scan_result. rewrite (from_u8_ok HV) by (unfold fits_u; lia). cbn [bind].
  pose proof (pBh HV). pose proof (pB HV).
  destruct (Z.leb_spec (Z.of_nat (length s)) (overflow_digits radix sg)) as [L|L].
  - pose proof (overflow_digits_ok sg radix (Z.of_nat (length s)) Hr ltac:(lia)) as O.
    replace (ofZ 0) with (ofZ (signz neg 0)) by (destruct neg; reflexivity). rewrite unchecked_loop_ok by auto.
    destruct neg.
    + rewrite Hs in * by auto. cbn [hi_of] in O. rewrite scan_neg_nolimit by lia. destruct (horner _ _ _); reflexivity.
    + rewrite scan_nolimit by lia. destruct (horner _ _ _); reflexivity.
  - destruct neg.
    + rewrite Hs in * by auto. change (ofZ 0) with (ofZ (- 0)). rewrite checked_loop_neg by (auto; lia). reflexivity.
    + rewrite checked_loop_pos; auto. destruct sg; cbn [hi_of]; lia.
Qed.

(** what the parser returns *)
Definition parse_result (sg : bool) (radix : Z) (s : list Z) : parsed :=
  match s with
  | [] => PErr EEmpty
  | b :: t => if b =? 43 then scan_result sg false radix t
              else if b =? 45 then if sg then scan_result sg true radix t else PErr ENegOverflow
              else scan_result sg false radix s
  end.
Lemma from_str_radix_ok : forall sg s radix, 2 <= radix <= 36 -> bytes s ->
  from_str_radix sg s radix = Ok (parse_result sg radix s).
Proof.
  intros sg s radix Hr Hb. unfold from_str_radix, parse_result.
  destruct (Z.ltb_spec radix 2); [lia|]. destruct (Z.ltb_spec 36 radix); [lia|]. cbn [orb].
  destruct s as [|b t]; [reflexivity|]. assert (Ht : bytes t) by (inversion Hb; auto).
  destruct (b =? 43); [apply parse_digits_ok; auto; discriminate|].
  destruct (b =? 45); [destruct sg; [apply parse_digits_ok; auto|reflexivity]|].
  apply parse_digits_ok; auto. discriminate.
Qed.
Lemma from_str_radix_panic : forall sg s radix, ~ 2 <= radix <= 36 -> from_str_radix sg s radix = Panic.
Proof.
  intros sg s radix Hr. unfold from_str_radix. destruct (Z.ltb_spec radix 2); [reflexivity|].
  destruct (Z.ltb_spec 36 radix); [reflexivity|lia].
Qed.
End P.
