(** * Properties: what a spelling can change, and how numerals are ordered (C82) *)

Require Import ZArith List Bool Lia.
From Verif Require Import Prim Spec Facts MCore PCore MArith PArith PArith2 PRet MScalar TextSpec MApi MParse PParse PParse2
  PropsParse MWrite PWrite PWrite2 PropsWrite PropsBitLaws PropsOrder.
Import ListNotations.
Local Open Scope Z_scope.

(** ** Spelling *)

(** Two bytes that are the same digit, or the same byte. *)
Definition same_digit (radix a b : Z) : Prop := digit_in radix a = digit_in radix b /\ (digit_in radix a = None -> a = b).
Lemma scan_same : forall radix lim s t, Forall2 (same_digit radix) s t -> forall acc, scan lim radix acc s = scan lim radix acc t.
Proof.
  intros radix lim s t H. induction H as [|a b s t (H1 & _) H IH]; intro acc; [reflexivity|]. cbn [scan]. rewrite H1.
  destruct (digit_in radix b); [|reflexivity]. destruct (_ <=? lim); auto.
Qed.
Lemma scan_neg_same : forall radix half slack s t, Forall2 (same_digit radix) s t -> forall acc, scan_neg half slack radix acc s = scan_neg half slack radix acc t.
Proof.
  intros radix half slack s t H. induction H as [|a b s t (H1 & _) H IH]; intro acc; [reflexivity|]. cbn [scan_neg]. rewrite H1.
  destruct (digit_in radix b); [|reflexivity]. destruct (_ <=? half); auto. destruct (_ && _); auto.
  destruct H as [|a' b' s t (H2 & _) H]; auto. rewrite H2. reflexivity.
Qed.
Lemma same_refl : forall radix a, same_digit radix a a.
Proof. intros. split; auto. Qed.
Lemma sign_no_digit : forall radix, digit_in radix 43 = None /\ digit_in radix 45 = None.
Proof. intro. split; reflexivity. Qed.
(** Only the digits matter, errors included. *)
Theorem C82_same_digits : forall (c : Cfg) sg radix s t, Valid -> bytes s -> bytes t -> Forall2 (same_digit radix) s t ->
  from_str_radix sg s radix = from_str_radix sg t radix.
Proof.
  intros c sg radix s t HV Hs Ht H. destruct (Z.le_gt_cases 2 radix) as [R1|R1]; [destruct (Z.le_gt_cases radix 36) as [R2|R2]|].
  2, 3: rewrite !from_str_radix_panic by lia; reflexivity.
  rewrite !(from_str_radix_ok HV) by auto. f_equal. destruct H as [|a b s t (H1 & H2) H]; [reflexivity|]. cbn [parse_result].
  destruct (sign_no_digit radix) as (D1 & D2).
  assert (E43 : (a =? 43) = (b =? 43)).
  { destruct (Z.eqb_spec a 43) as [e|n], (Z.eqb_spec b 43) as [e'|m]; try reflexivity; exfalso.
    - apply m. rewrite <- e. symmetry. apply H2. rewrite e. exact D1.
    - apply n. rewrite <- e'. apply H2. rewrite H1, e'. exact D1. }
  assert (E45 : (a =? 45) = (b =? 45)).
  { destruct (Z.eqb_spec a 45) as [e|n], (Z.eqb_spec b 45) as [e'|m]; try reflexivity; exfalso.
    - apply m. rewrite <- e. symmetry. apply H2. rewrite e. exact D2.
    - apply n. rewrite <- e'. apply H2. rewrite H1, e'. exact D2. }
  rewrite E43, E45. unfold scan_result. rewrite (scan_same radix _ s t H), (scan_neg_same radix _ _ s t H), (scan_same radix _ (a :: s) (b :: t)); [reflexivity|].
  constructor; [split; auto|auto].
Qed.
(** Letters are read regardless of case. *)
Definition lower (b : Z) : Z := if (65 <=? b) && (b <=? 90) then b + 32 else b.
Definition upper (b : Z) : Z := if (97 <=? b) && (b <=? 122) then b - 32 else b.
Lemma digit_of_lower : forall b, digit_of (lower b) = digit_of b.
Proof.
  intro b. unfold lower, digit_of.
  destruct (Z.leb_spec 65 b), (Z.leb_spec b 90); cbn [andb];
  repeat match goal with |- context [?u <=? ?v] => destruct (Z.leb_spec u v); cbn [andb] end; try lia; try reflexivity; f_equal; lia.
Qed.
Lemma digit_of_upper : forall b, digit_of (upper b) = digit_of b.
Proof.
  intro b. unfold upper, digit_of.
  destruct (Z.leb_spec 97 b), (Z.leb_spec b 122); cbn [andb];
  repeat match goal with |- context [?u <=? ?v] => destruct (Z.leb_spec u v); cbn [andb] end; try lia; try reflexivity; f_equal; lia.
Qed.
Lemma scan_dig : forall radix lim f, (forall b, digit_of (f b) = digit_of b) -> forall s acc, scan lim radix acc (map f s) = scan lim radix acc s.
Proof.
  intros radix lim f F s. induction s as [|a s IH]; intro acc; [reflexivity|]. cbn [map scan]. unfold digit_in. rewrite F.
  destruct (digit_of a) as [d|]; auto. destruct (d <? radix); auto. destruct (_ <=? lim); auto.
Qed.
Lemma scan_neg_dig : forall radix half slack f, (forall b, digit_of (f b) = digit_of b) -> forall s acc, scan_neg half slack radix acc (map f s) = scan_neg half slack radix acc s.
Proof.
  intros radix half slack f F s. induction s as [|a s IH]; intro acc; [reflexivity|]. cbn [map scan_neg]. unfold digit_in. rewrite F.
  destruct (digit_of a) as [d|]; auto. destruct (d <? radix); auto. destruct (_ <=? half); auto. destruct (_ && _); auto.
  destruct s as [|b s]; auto. cbn [map]. rewrite F. reflexivity.
Qed.
Theorem C82_case : forall (c : Cfg) sg radix s, Valid -> bytes s ->
  from_str_radix sg (map lower s) radix = from_str_radix sg s radix /\ from_str_radix sg (map upper s) radix = from_str_radix sg s radix.
Proof.
  intros c sg radix s HV Hs. destruct (Z.le_gt_cases 2 radix) as [R1|R1]; [destruct (Z.le_gt_cases radix 36) as [R2|R2]|].
  2, 3: rewrite !from_str_radix_panic by lia; auto.
  assert (G : forall f, (forall b, digit_of (f b) = digit_of b) -> (forall b, fits_u 8 b -> fits_u 8 (f b)) -> (forall b k, (k = 43 \/ k = 45) -> (f b =? k) = (b =? k)) ->
     from_str_radix sg (map f s) radix = from_str_radix sg s radix).
  { intros f F B K. assert (bytes (map f s)) by (apply Forall_map; eapply Forall_impl; [|exact Hs]; auto).
    rewrite !(from_str_radix_ok HV) by auto. f_equal. destruct s as [|b t]; [reflexivity|]. cbn [map parse_result]. rewrite !K by auto.
    unfold scan_result. rewrite (scan_dig radix _ f F), (scan_neg_dig radix _ _ f F). change (f b :: map f t) with (map f (b :: t)). rewrite (scan_dig radix _ f F). reflexivity. }
  split; apply G; auto using digit_of_lower, digit_of_upper.
  - intros b. unfold lower, fits_u. change (2 ^ 8) with 256. destruct (Z.leb_spec 65 b), (Z.leb_spec b 90); cbn; lia.
  - intros b k Hk. unfold lower. destruct (Z.leb_spec 65 b), (Z.leb_spec b 90), (Z.eqb_spec b k); cbn; try (destruct (Z.eqb_spec (b + 32) k); lia); try (destruct (Z.eqb_spec b k); lia); auto.
  - intros b. unfold upper, fits_u. change (2 ^ 8) with 256. destruct (Z.leb_spec 97 b), (Z.leb_spec b 122); cbn; lia.
  - intros b k Hk. unfold upper. destruct (Z.leb_spec 97 b), (Z.leb_spec b 122), (Z.eqb_spec b k); cbn; try (destruct (Z.eqb_spec (b - 32) k); lia); try (destruct (Z.eqb_spec b k); lia); auto.
Qed.
(** Zeros after the sign, and a plus sign, change nothing, errors included; the length-dependent choice
    between the two loops is invisible. *)
Lemma digit_zero : forall radix, 2 <= radix -> digit_in radix 48 = Some 0.
Proof. intros radix H. unfold digit_in. cbn. destruct (Z.ltb_spec 0 radix); auto; lia. Qed.
Lemma scan_zeros : forall radix lim n s, 2 <= radix -> 0 <= lim -> scan lim radix 0 (repeat 48 n ++ s) = scan lim radix 0 s.
Proof.
  intros radix lim n s Hr Hl. induction n as [|n IH]; [reflexivity|]. cbn [repeat app scan]. rewrite digit_zero by auto. cbn.
  destruct (Z.leb_spec 0 lim); [exact IH|lia].
Qed.
Lemma scan_neg_zeros : forall radix half slack n s, 2 <= radix -> 0 <= half -> scan_neg half slack radix 0 (repeat 48 n ++ s) = scan_neg half slack radix 0 s.
Proof.
  intros radix half slack n s Hr Hl. induction n as [|n IH]; [reflexivity|]. cbn [repeat app scan_neg]. rewrite digit_zero by auto. cbn.
  destruct (Z.leb_spec 0 half); [exact IH|lia].
Qed.
Lemma zeros_bytes : forall n, bytes (repeat 48 n).
Proof. intro n. apply Forall_forall. intros x H. apply repeat_spec in H. subst. split; reflexivity || lia. Qed.
Theorem C82_zeros : forall (c : Cfg) sg radix n t, Valid -> bytes t -> 2 <= radix <= 36 ->
  from_str_radix sg (43 :: repeat 48 n ++ t) radix = from_str_radix sg (43 :: t) radix /\
  from_str_radix sg (45 :: repeat 48 n ++ t) radix = from_str_radix sg (45 :: t) radix /\
  (t <> [] -> hd 0 t <> 43 -> hd 0 t <> 45 ->
   from_str_radix sg (repeat 48 n ++ t) radix = from_str_radix sg t radix /\ from_str_radix sg (43 :: t) radix = from_str_radix sg t radix).
Proof.
  intros c sg radix n t HV Ht Hr. pose proof (hi_nonneg HV sg) as Hh. pose proof (pBh HV) as Hb.
  assert (Hz : bytes (repeat 48 n ++ t)) by (apply Forall_app; split; [apply zeros_bytes|auto]).
  assert (B43 : fits_u 8 43) by (split; reflexivity || lia). assert (B45 : fits_u 8 45) by (split; reflexivity || lia).
  rewrite !(from_str_radix_ok HV) by (auto; constructor; auto). cbn [parse_result Z.eqb Pos.eqb]. unfold scan_result.
  rewrite !scan_zeros, !scan_neg_zeros by lia. split; auto. split; auto.
  intros N0 N1 N2. destruct t as [|b t]; [contradiction|]. cbn [hd] in N1, N2.
  assert (P : parse_result sg radix (b :: t) = from_scan false (scan (hi_of sg) radix 0 (b :: t))).
  { cbn [parse_result]. destruct (Z.eqb_spec b 43); [contradiction|]. destruct (Z.eqb_spec b 45); [contradiction|]. reflexivity. }
  rewrite P. split; auto. destruct n as [|n]; [exact (f_equal Ok P)|]. cbn [repeat app parse_result Z.eqb Pos.eqb]. unfold scan_result.
  change (48 :: repeat 48 n ++ b :: t) with (repeat 48 (S n) ++ b :: t). rewrite scan_zeros by lia. reflexivity.
Qed.
(** A minus sign before a numeral that is read as [x] gives the negation of [x]. *)
Theorem C82_minus : forall (c : Cfg) radix t x, Valid -> bytes t -> 2 <= radix <= 36 -> t <> [] -> hd 0 t <> 43 -> hd 0 t <> 45 -> wf x ->
  from_str_radix true t radix = Ok (POk x) -> from_str_radix true (45 :: t) radix = (let* r := s_wrapping_neg x in Ok (POk r)).
Proof.
  intros c radix t x HV Ht Hr N0 N1 N2 Hx E. rewrite (s_wrapping_neg_ok HV) by auto. cbn [bind].
  destruct (proj1 (C27_signed_partial c t radix (sval x) HV Ht Hr ltac:(intros ->; cbn in N1; lia) ltac:(intros ->; cbn in N2; lia) ltac:(intros u ->; cbn in N2; lia))) as (Hn & Hf).
  { exists x. auto. }
  apply numeral_pos in Hn; auto. destruct Hn as (_ & Hn). replace (strip_plus t) with t in Hn by (destruct t as [|b t]; cbn in *; auto; destruct (Z.eqb_spec b 43); auto; contradiction).
  assert (0 <= sval x) by (apply (horner_nonneg radix t); auto; lia).
  assert (F : fits_s BITS (- sval x)) by (unfold fits_s in *; lia).
  assert (Hm : numeral true radix (45 :: t) (- sval x)) by (apply numeral_neg; rewrite Z.opp_involutive; auto).
  destruct (C27_complete_signed c (45 :: t) radix (- sval x) HV ltac:(apply minus_bytes; auto) Hr Hm F) as (r & -> & Hwr & Hv).
  do 2 f_equal. rewrite <- Hv. symmetry. exact (ofZ_val HV true r Hwr).
Qed.
(** [FromStr] agrees, except that its error for a minus sign before an unsigned numeral depends on the length. *)
Theorem C82_from_str_zeros : forall (c : Cfg) small sg n t, Valid -> bytes t -> t <> [] -> hd 0 t <> 43 -> hd 0 t <> 45 ->
  from_str small sg (repeat 48 n ++ t) = from_str small sg t /\ from_str small sg (43 :: repeat 48 n ++ t) = from_str small sg t /\
  from_str small true (45 :: repeat 48 n ++ t) = from_str small true (45 :: t).
Proof.
  intros c small sg n t HV Ht N0 N1 N2.
  assert (Hz : bytes (repeat 48 n ++ t)) by (apply Forall_app; split; [apply zeros_bytes|auto]).
  assert (B43 : fits_u 8 43) by (split; reflexivity || lia). assert (B45 : fits_u 8 45) by (split; reflexivity || lia).
  assert (Z1 : hd 0 (repeat 48 n ++ t) <> 43 /\ hd 0 (repeat 48 n ++ t) <> 45) by (destruct n; cbn; [auto|lia]).
  assert (Z2 : repeat 48 n ++ t <> []) by (destruct n, t; cbn; congruence).
  destruct (C82_zeros c sg 10 n t HV Ht ltac:(lia)) as (A1 & A2 & A3). destruct (C82_zeros c true 10 n t HV Ht ltac:(lia)) as (_ & A4 & _).
  specialize (A3 N0 N1 N2). destruct A3 as (A3 & A3').
  assert (G : forall s, bytes s -> s <> [] -> hd 0 s <> 43 -> hd 0 s <> 45 -> from_str small sg s = from_str_radix sg s 10).
  { intros s Hs S0 S1 S2. apply (C51_radix c small sg s HV Hs); [intros ->; cbn in S1; lia|intros ->; cbn in S2; lia|intro E; contradiction]. }
  split; [|split].
  - rewrite !G by (auto; tauto). exact A3.
  - rewrite (G t) by auto. rewrite (C51_radix c small sg (43 :: repeat 48 n ++ t) HV); [congruence|constructor; auto|congruence|discriminate|discriminate].
  - rewrite !(C51_radix c small true) by (auto; try (constructor; auto); try discriminate; congruence). exact A4.
Qed.
Theorem C82_from_str_length_refuted : exists (c : Cfg) t n, Valid /\ bytes t /\ n = 40%nat /\
  from_str false false (45 :: t) = Ok (PErr EInvalidDigit) /\ from_str false false (45 :: repeat 48 n ++ t) = Ok (PErr ENegOverflow).
Proof.
  exists c256_64, [53], 40%nat. split; [exact valid_c256_64|]. split; [repeat constructor; reflexivity || (cbv; discriminate)|].
  split; [reflexivity|]. split; vm_compute; reflexivity.
Qed.

(** ** Printed numerals *)

(** A printed numeral of a non-zero value has the least possible number of digits. *)
Theorem C82_digit_count : forall (c : Cfg) x buffer radix, Valid -> wf x -> 2 <= radix <= 36 -> BITS <= Z.of_nat (length buffer) ->
  exists i s, to_str_radix false x buffer radix = Ok (firstn i buffer ++ s, i) /\
    (uval x = 0 -> s = [48]) /\ (0 < uval x -> radix ^ (Z.of_nat (length s) - 1) <= uval x < radix ^ Z.of_nat (length s)).
Proof.
  intros c x buffer radix HV Hx Hr HL. destruct (C29_unsigned c x buffer radix HV Hx Hr HL) as (i & s & E & L & C & U). exists i, s. split; auto.
  destruct (canonical_low radix (uval x) s) as [->|Lo]; auto; [lia| |].
  - split; auto. intro P. exfalso. destruct C as (_ & V & _). unfold numval in V. cbn [horner] in V. rewrite digit_zero in V by lia. injection V as V. lia.
  - pose proof C as (N0 & V & H0). pose proof (numval_bound radix s (uval x) ltac:(lia) V) as B. split; [|lia]. intro Z0. rewrite Z0 in Lo.
    assert (0 < radix ^ (Z.of_nat (length s) - 1)); [|lia]. apply Z.pow_pos_nonneg; [lia|]. destruct s; [contradiction|cbn [length]; lia].
Qed.
Lemma upper_lt : forall radix a b d e, upper_digit a -> upper_digit b -> digit_in radix a = Some d -> digit_in radix b = Some e -> (a ?= b) = (d ?= e).
Proof.
  intros radix a b d e Ha Hb. unfold digit_in, digit_of, upper_digit in *. intros Da Db.
  destruct (Z.compare_spec d e), (Z.compare_spec a b); auto; exfalso; revert Da Db;
  repeat match goal with |- context [?u <=? ?v] => destruct (Z.leb_spec u v); cbn [andb] end; try lia; try discriminate;
  repeat match goal with |- context [?u <? ?v] => destruct (Z.ltb_spec u v) end; try discriminate; intros A B; injection A; injection B; lia.
Qed.
Lemma lex_numval : forall radix s t u v, 2 <= radix -> length s = length t -> Forall upper_digit s -> Forall upper_digit t ->
  numval radix s = Some u -> numval radix t = Some v -> lex s t = (u ?= v).
Proof.
  intros radix s. induction s as [|a s IH]; intros [|b t] u v Hr HL Us Ut Nu Nv; try discriminate HL.
  - injection Nu as <-. injection Nv as <-. reflexivity.
  - injection HL as HL. inversion Us as [|? ? Ua Us']; subst. inversion Ut as [|? ? Ub Ut']; subst.
    unfold numval in Nu, Nv. cbn [horner] in Nu, Nv. destruct (digit_in radix a) as [d|] eqn:Da; [|discriminate]. destruct (digit_in radix b) as [e|] eqn:Db; [|discriminate].
    rewrite horner_lin in Nu, Nv. destruct (numval radix s) as [u'|] eqn:Eu; [|discriminate]. destruct (numval radix t) as [v'|] eqn:Ev; [|discriminate].
    cbn in Nu, Nv. injection Nu as <-. injection Nv as <-. cbn [lex]. rewrite (upper_lt radix a b d e Ua Ub Da Db), (IH t u' v' Hr HL Us' Ut' eq_refl Ev).
    pose proof (numval_bound radix s u' Hr Eu) as Bu. pose proof (numval_bound radix t v' Hr Ev) as Bv. rewrite <- HL in *.
    set (p := radix ^ Z.of_nat (length s)) in *. clearbody p. rewrite !Z.add_0_l || idtac.
    destruct (Z.compare_spec d e); [subst; destruct (Z.compare_spec u' v')| |]; symmetry;
      [apply Z.compare_eq_iff; nia|apply Z.compare_lt_iff; nia|apply Z.compare_gt_iff; nia|apply Z.compare_lt_iff; nia|apply Z.compare_gt_iff; nia].
Qed.
(** Numerals printed in the same radix order by length first and then by their bytes, exactly as the values do. *)
Theorem C82_numeral_order : forall (c : Cfg) x y buffer radix, Valid -> wf x -> wf y -> 2 <= radix <= 36 -> BITS <= Z.of_nat (length buffer) ->
  exists i s j t, to_str_radix false x buffer radix = Ok (firstn i buffer ++ s, i) /\ to_str_radix false y buffer radix = Ok (firstn j buffer ++ t, j) /\
    cmp_const false x y = Ok (match (length s ?= length t)%nat with Eq => lex s t | o => o end).
Proof.
  intros c x y buffer radix HV Hx Hy Hr HL.
  destruct (C29_unsigned c x buffer radix HV Hx Hr HL) as (i & s & Es & Ls & Cs & Us). destruct (C29_unsigned c y buffer radix HV Hy Hr HL) as (j & t & Et & Lt & Ct & Ut).
  exists i, s, j, t. split; auto. split; auto. rewrite (PropsBits.C21_cmp_unsigned c x y HV Hx Hy). f_equal.
  assert (G : forall x y s t, canonical radix x s -> canonical radix y t -> Forall upper_digit s -> Forall upper_digit t -> (length s < length t)%nat -> x < y).
  { clear - Hr. intros x y s t Cs Ct Us Ut L. destruct (canonical_low radix y t) as [->|Lo]; auto; [lia| |].
    - destruct Cs as (N0 & _). destruct s; [contradiction|cbn in L; lia].
    - destruct Cs as (_ & V & _). pose proof (numval_bound radix s x ltac:(lia) V) as B.
      assert (radix ^ Z.of_nat (length s) <= radix ^ (Z.of_nat (length t) - 1)) by (apply Z.pow_le_mono_r; lia). lia. }
  destruct (Nat.compare_spec (length s) (length t)) as [L|L|L].
  - destruct Cs as (_ & Vs & _), Ct as (_ & Vt & _). symmetry. apply (lex_numval radix); auto; lia.
  - apply Z.compare_lt_iff. eapply G; eauto.
  - apply Z.compare_gt_iff. eapply G; eauto.
Qed.

Example C82_ex1 : from_str_radix (c := c256_64) true [45; 48; 48; 55; 70; 102] 16 = Ok (POk (@ofZ c256_64 (-2047))) /\
  from_str_radix (c := c256_64) true [45; 55; 102; 70] 16 = Ok (POk (@ofZ c256_64 (-2047))) /\
  Forall2 (same_digit 16) [55; 70; 102] [55; 102; 70] /\ map lower [55; 70; 102; 33] = [55; 102; 102; 33].
Proof. split; [vm_compute; reflexivity|]. split; [vm_compute; reflexivity|]. split; [repeat constructor; vm_compute; auto; discriminate|reflexivity]. Qed.
Example C82_ex2 : to_str_radix (c := c256_64) false (@ofZ c256_64 (2 ^ 100)) (repeat 0 256) 36 <> Panic /\
  (match to_str_radix (c := c256_64) false (@ofZ c256_64 1000) (repeat 0 256) 10 with Ok (b, i) => skipn i b | _ => [] end) = [49; 48; 48; 48].
Proof. split; [vm_compute; discriminate|vm_compute; reflexivity]. Qed.

(** ** Assumptions (each must print "Closed under the global context") *)

Print Assumptions C82_same_digits.
Print Assumptions C82_case.
Print Assumptions C82_zeros.
Print Assumptions C82_minus.
Print Assumptions C82_from_str_zeros.
Print Assumptions C82_from_str_length_refuted.
Print Assumptions C82_digit_count.
Print Assumptions C82_numeral_order.
