(** * Properties: printing with flags, compared with Rust's own integers (C101)

    FlagSpec.v says what Rust's integer types print for every combination of width, fill,
    alignment, [+], [#] and [0].  Here: exactly when the code prints the same, and a
    correction that always does. *)

Require Import ZArith List Bool Lia.
From Verif Require Import Prim Spec Facts MCore PCore PWide PRet MArith PArith PArith2 MScalar TextSpec PParse2
  MWrite PWrite PWrite2 PropsWrite PBits PropsFix2 Lang LangText PLangText FlagSpec MFix4 PFlags.
Import ListNotations.
Local Open Scope Z_scope.
Local Notation E64 := (@ofZ c256_64).

(** ** The specification *)

(** The exponent form denotes the number with the fewest digits: [m] is not divisible by
    ten, and the point stands after the first of its digits. *)
Theorem C101_shortest : forall tag v, 0 <= v -> exists m k d t,
  v = m * 10 ^ Z.of_nat k /\ (m mod 10 <> 0 \/ v = 0 /\ k = 0%nat) /\ upper_numeral 10 m (d :: t) /\
  shortest tag v = d :: match t with [] => [] | _ => 46 :: t end ++ tag :: number_text 10 (Z.of_nat (length t + k)).
Proof.
  intros tag v Hv. destruct (Z.eq_dec v 0) as [->|Hn].
  - exists 0, 0%nat, 48, []. split; [reflexivity|]. split; [auto|]. split; [|reflexivity]. apply (number_text_ok 10 0); lia.
  - destruct (tens_spec (Z.to_nat (Z.log2 v)) v) as (m & M1 & M2 & M3 & M4).
    { rewrite Nat2Z.inj_succ, Z2Nat.id by apply Z.log2_nonneg. pose proof (Z.log2_spec v). lia. }
    destruct (number_text_ok 10 m ltac:(lia) ltac:(lia)) as (C & U). unfold shortest. rewrite M3. cbv zeta.
    destruct (number_text 10 m) as [|d t] eqn:E; [destruct C; contradiction|]. exists m, (tens (Z.to_nat (Z.log2 v)) v), d, t.
    split; auto. split; auto. split; [split; auto|reflexivity].
Qed.
(** A field is as wide as asked for and never narrower than its contents (for a fill
    character of one byte). *)
Theorem C101_width : forall g sign prefix digits b, fill (base g) = [b] ->
  Z.of_nat (length (laid_out g sign prefix digits)) =
  Z.max (Z.of_nat (length sign + length prefix + length digits)) (match width (base g) with Some w => w | None => 0 end).
Proof.
  intros g sign prefix digits b Hb. unfold laid_out. set (k := missing _ _).
  assert (K : Z.of_nat (length sign + length prefix + length digits + k) = Z.max (Z.of_nat (length sign + length prefix + length digits)) (match width (base g) with Some w => w | None => 0 end)).
  { unfold k, missing. destruct (width (base g)); lia. }
  rewrite <- K. f_equal. cbv zeta. destruct (zero g); [rewrite !app_length, repeat_length; lia|].
  set (a := match align g with Some ALeft => 0%nat | Some ACenter => (k / 2)%nat | _ => k end).
  assert (a <= k)%nat by (unfold a; destruct (align g) as [[]|]; try lia; apply Nat.div_le_upper_bound; lia).
  rewrite !app_length, !fills_length, Hb. cbn [length]. lia.
Qed.

(** ** The code *)

(** No plus sign for unsigned numbers and in the radix forms, no field around decimal and
    exponent forms, a field around the digits only in the radix forms, filled on the
    left; one-digit numbers and multiples of ten in exponent form. *)
Definition agrees (bits : Z) (sg : bool) (o : form) (v : Z) (g : flags) : bool :=
  let plus := sign_plus (base g) in
  let radix r := negb plus && (fits_in g (length (number_text r (v mod 2 ^ bits))) || negb (alternate (base g)) && right g) in
  let exponent := (sg || negb plus) && ((10 <=? Z.abs v) && negb (Z.abs v mod 10 =? 0)) &&
                  fits_in g (length (sign_text g v) + length (shortest 101 (Z.abs v))) in
  match o with
  | FDecimal => (sg || negb plus) && fits_in g (length (sign_text g v) + length (number_text 10 (Z.abs v)))
  | FBinary => radix 2
  | FOctal => radix 8
  | FLowerHex | FUpperHex => radix 16
  | FLowerExp | FUpperExp => exponent
  end.
(** The code prints what a primitive type would exactly when [agrees] says so.  For the
    radix forms the fill must not be a digit, a letter or a plus sign (by chance they can
    hide the difference, see C101_chance). *)
Section P.
Context {c : Cfg}.
Hypothesis HV : Valid.

Lemma ok_iff : forall (s t : list Z), Ok (Some s) = Ok (Some t) <-> t = s.
Proof. intros s t. split; [intros H; inversion H; auto|intros ->; auto]. Qed.
Lemma digit_bytes : forall radix v, 2 <= radix <= 36 -> 0 <= v -> let d := number_text radix v in
  d <> [] /\ Forall (fun b => 48 <= b <= 57 \/ 65 <= b <= 90 \/ 97 <= b <= 122) d /\
  map lower_case d <> [] /\ Forall (fun b => 48 <= b <= 57 \/ 65 <= b <= 90 \/ 97 <= b <= 122) (map lower_case d).
Proof.
  intros radix v Hr Hv d. destruct (number_text_ok radix v Hr Hv) as ((N & _) & U). fold d in N, U. split; auto.
  split; [eapply Forall_impl; [|exact U]; unfold upper_digit; cbn; lia|]. split; [destruct d; [contradiction|discriminate]|].
  apply Forall_map. eapply Forall_impl; [|exact U]. intros b Hb. unfold upper_digit, lower_case in *.
  destruct (Z.leb_spec 65 b), (Z.leb_spec b 90); cbn [andb]; lia.
Qed.
Lemma length_shortest : forall v, length (shortest 69 v) = length (shortest 101 v).
Proof.
  intros v. unfold shortest. cbv zeta. destruct (number_text 10 _) as [|d t]; [reflexivity|]. cbn [length]. rewrite !app_length. reflexivity.
Qed.
Lemma exp_agrees : forall g sg tag x, wf x -> is_char (fill (base g)) -> tag = 101 \/ tag = 69 ->
  let v := number sg x in
  ((if sg then s_exp tag x (base g) else u_exp tag x) = Ok (Some (laid_out g (sign_text g v) [] (shortest tag (Z.abs v)))) <->
   agrees BITS sg FLowerExp v g = true).
Proof.
  intros g sg tag x Hx HC Ht v.
  assert (CORE : forall y sign, wf y -> Forall (fun b => b <> 46) sign -> exists s, u_exp tag y = Ok (Some s) /\ Forall (fun b => b <> 43) s /\
    (laid_out g sign [] (shortest tag (uval y)) = sign ++ s <->
     (10 <=? uval y) && negb (uval y mod 10 =? 0) && fits_in g (length sign + length (shortest 101 (uval y))) = true)).
  { intros y sign Hy HS. destruct (code_exp HV tag y Hy) as (d0 & t0 & e & E1 & E2 & E3). eexists. split; [exact E3|].
    pose proof (u_pos HV y Hy) as Y0. destruct (exp_parts (uval y) Y0) as (d & t & k & F1 & F2 & F3 & _ & F5).
    assert (DT : d0 = d /\ t0 = t ++ repeat 48 k) by (rewrite F1 in E1; inversion E1; auto). destruct DT as (-> & ->).
    assert (DD : forall w, 0 <= w -> Forall (fun b => b <> 43) (number_text 10 w)).
    { intros w Hw. eapply Forall_impl; [|exact (C30_decimal 10 w _ ltac:(lia) (number_text_ok 10 w ltac:(lia) Hw))]. cbn. lia. }
    split.
    - pose proof (DD (uval y) Y0) as D1. rewrite F1 in D1. inversion D1; subst. constructor; auto. constructor; [lia|]. apply Forall_app. split; auto.
      constructor; [lia|]. apply DD. lia.
    - assert (L : length (shortest tag (uval y)) = length (shortest 101 (uval y))) by (destruct Ht as [-> | ->]; [reflexivity|apply length_shortest]).
      rewrite <- L. rewrite <- E2. rewrite (F2 tag). rewrite app_length, repeat_length.
      rewrite (exponent_iff g sign d t k (number_text 10 (Z.of_nat (length t + k))) tag HC HS) by (auto; lia).
      rewrite F3. rewrite !andb_true_iff, negb_true_iff, Z.leb_le, Z.eqb_neq. tauto. }
  assert (SG : Forall (fun b => b <> 46) (sign_text g v)) by (unfold sign_text; destruct (v <? 0); [|destruct (sign_plus (base g))]; repeat constructor; lia).
  destruct sg; cbn [number] in v; cbn [agrees orb andb].
  - destruct (signed_digits HV x Hx) as (Wa & Ea). destruct (CORE _ (sign_text g v) Wa SG) as (s & E & _ & H). rewrite Ea in H. fold v in E, H.
    unfold s_exp. rewrite (s_signed_ok HV) by auto. fold v. rewrite E. cbn [bind option_map]. rewrite ok_iff. rewrite <- H. reflexivity.
  - destruct (CORE x (sign_text g v) Hx SG) as (s & E & N & H). fold v in H. rewrite E, ok_iff. assert (V0 : 0 <= v) by (apply (u_pos HV); auto).
    rewrite (Z.abs_eq v) by auto. unfold sign_text in *. destruct (Z.ltb_spec v 0); [lia|]. destruct (sign_plus (base g)); cbn [negb orb andb].
    + split; [|discriminate]. intros X. exfalso. pose proof (sign_in g 43 [] (shortest tag v)) as I. rewrite X in I. revert I. apply (not_in _ _ _ N). auto.
    + cbn [app] in H. rewrite H. tauto.
Qed.
Lemma all_agrees : forall g sg o x, wf x -> is_char (fill (base g)) -> (in_radix o = true -> no_digit (fill (base g))) ->
  let v := number sg x in
  (code_fmt sg o x g = Ok (Some (primitive BITS o v g)) <-> agrees BITS sg o v g = true).
Proof.
  intros g sg o x Hx HC HN v. pose proof (u_pos HV x Hx) as U0.
  assert (NM : v mod 2 ^ BITS = uval x) by (apply (number_mod HV); auto).
  assert (RX : forall radix tag d s, in_radix o = true -> 97 <= tag <= 122 -> d <> [] -> Forall (fun b => 48 <= b <= 57 \/ 65 <= b <= 90 \/ 97 <= b <= 122) d ->
    length d = length (number_text radix (uval x)) -> s = Ok (Some ((if alternate (base g) then [48; tag] else []) ++ fills g (missing g (length d)) ++ d)) ->
    (s = Ok (Some (laid_out g (if sign_plus (base g) then [43] else []) (if alternate (base g) then [48; tag] else []) d)) <->
     negb (sign_plus (base g)) && (fits_in g (length (number_text radix (v mod 2 ^ BITS))) || negb (alternate (base g)) && right g) = true)).
  { intros radix tag d s HR HT H0 HD HL ->. rewrite ok_iff, NM, <- HL. apply radix_iff; auto. }
  destruct o; cbn [code_fmt primitive].
  - unfold agrees. destruct sg; cbn [number orb andb] in *.
    + destruct (signed_digits HV x Hx) as (Wa & Ea). unfold s_display. rewrite (s_signed_ok HV) by auto. rewrite (code_decimal HV) by auto. rewrite Ea. cbn [bind option_map].
      rewrite ok_iff. fold v. change (sign_str (base g) v) with (sign_text g v). apply decimal_iff; auto.
    + rewrite (code_decimal HV) by auto. rewrite ok_iff. fold v. rewrite (Z.abs_eq v) by auto. unfold sign_text. destruct (Z.ltb_spec v 0); [lia|].
      destruct (sign_plus (base g)); cbn [negb andb].
      * split; [|discriminate]. intros X. exfalso. pose proof (sign_in g 43 [] (number_text 10 v)) as I. rewrite X in I. revert I. apply (not_in (fun b => 48 <= b <= 57)); [|lia].
        apply (C30_decimal 10 v); [lia|]. apply number_text_ok; lia.
      * apply (decimal_iff g [] (number_text 10 v)); auto.
  - destruct (digit_bytes 2 (uval x) ltac:(lia) U0) as (A & B & _). apply (RX 2); rewrite ?NM; auto; [lia|].
    unfold s_binary, u_binary. rewrite (s_wrapping_ok HV), (code_radix HV) by (auto; lia). destruct sg; reflexivity.
  - destruct (digit_bytes 8 (uval x) ltac:(lia) U0) as (A & B & _). apply (RX 8); rewrite ?NM; auto; [lia|].
    unfold s_octal, u_octal. rewrite (s_wrapping_ok HV), (code_radix HV) by (auto; lia). destruct sg; reflexivity.
  - destruct (digit_bytes 16 (uval x) ltac:(lia) U0) as (_ & _ & A & B). apply (RX 16); rewrite ?NM; auto; [lia|apply map_length|].
    unfold s_lower_hex. rewrite (s_wrapping_ok HV) by auto. rewrite map_length. destruct sg; apply (code_hex HV g x Hx).
  - destruct (digit_bytes 16 (uval x) ltac:(lia) U0) as (A & B & _). apply (RX 16); rewrite ?NM; auto; [lia|].
    unfold s_upper_hex. rewrite (s_wrapping_ok HV) by auto. destruct sg; apply (code_hex HV g x Hx).
  - apply (exp_agrees g sg 101 x Hx HC). auto.
  - apply (exp_agrees g sg 69 x Hx HC). auto.
Qed.
End P.
Theorem C101_agrees : forall (c : Cfg) g sg o x, Valid -> wf x -> is_char (fill (base g)) -> (in_radix o = true -> no_digit (fill (base g))) ->
  (code_fmt sg o x g = Ok (Some (primitive BITS o (number sg x) g)) <-> agrees BITS sg o (number sg x) g = true).
Proof. intros c g sg o x HV Hx HC HN. apply (all_agrees HV); auto. Qed.
(** Without flags, everything but the exponent form agrees. *)
Theorem C101_plain : forall (c : Cfg) g sg o x, Valid -> wf x -> is_char (fill (base g)) -> (in_radix o = true -> no_digit (fill (base g))) ->
  width (base g) = None -> sign_plus (base g) = false -> o <> FLowerExp -> o <> FUpperExp ->
  code_fmt sg o x g = Ok (Some (primitive BITS o (number sg x) g)).
Proof.
  intros c g sg o x HV Hx HC HN Hw Hp H1 H2. apply (C101_agrees c); auto.
  unfold agrees, fits_in. rewrite Hw, Hp. destruct o; try contradiction; cbn [negb andb orb]; rewrite ?orb_true_r; reflexivity.
Qed.
(** In hexadecimal, a width with [0] is honoured exactly when it is not needed. *)
Theorem C101_zero_hex : forall (c : Cfg) g sg x w, Valid -> wf x -> is_char (fill (base g)) -> no_digit (fill (base g)) ->
  sign_plus (base g) = false -> zero g = true -> width (base g) = Some w ->
  (code_fmt sg FLowerHex x g = Ok (Some (primitive BITS FLowerHex (number sg x) g)) <-> w <= 1 \/ 16 ^ (w - 1) <= uval x).
Proof.
  intros c g sg x w HV Hx HC HN Hp Hz Hw. rewrite C101_agrees by auto. unfold agrees, right, fits_in. rewrite Hp, Hz, Hw. cbn [negb andb].
  rewrite andb_false_r, orb_false_r, Z.leb_le. rewrite (number_mod HV) by auto. pose proof (u_pos HV x Hx) as U0.
  destruct (number_text_ok 16 (uval x) ltac:(lia) U0) as (C & U). pose proof (canonical_low 16 (uval x) _ ltac:(lia) U C) as L.
  destruct C as (C1 & C2 & _). apply numval_bound in C2; [|lia]. set (n := length (number_text 16 (uval x))) in *.
  assert (1 <= Z.of_nat n) by (unfold n; destruct (number_text 16 (uval x)); [contradiction|cbn [length]; lia]).
  split.
  - intros Hn. destruct (Z_le_gt_dec w 1); [auto|]. right. destruct L as [L|L].
    + assert (n = 1%nat) by (unfold n; rewrite L; reflexivity). lia.
    + eapply Z.le_trans; [|exact L]. apply Z.pow_le_mono_r; lia.
  - intros [H0|H0]; [lia|]. destruct (Z_le_gt_dec w (Z.of_nat n)); [auto|]. exfalso.
    assert (16 ^ Z.of_nat n <= 16 ^ (w - 1)) by (apply Z.pow_le_mono_r; lia). lia.
Qed.

(** ** The correction *)
Theorem C101_corrected : forall (c : Cfg) g sg o x, Valid -> wf x ->
  flag_fmt sg o x g = Ok (Some (primitive BITS o (number sg x) g)).
Proof.
  intros c g sg o x HV Hx. set (v := number sg x). assert (NM : v mod 2 ^ BITS = uval x) by (apply (number_mod HV); auto).
  assert (AU : (if sg then as_unsigned x else Ok x) = Ok x).
  { destruct sg; [|reflexivity]. unfold as_unsigned. rewrite <- (ofZ_uval HV x Hx), (mk_ok HV). reflexivity. }
  assert (WS : forall inner text, (forall nonneg y, wf y -> inner nonneg y = Ok (Some (laid_out g (if nonneg : bool then if sign_plus (base g) then [43] else [] else [45]) [] (text (uval y))))) ->
    with_sign sg inner x = Ok (Some (laid_out g (sign_text g v) [] (text (Z.abs v))))).
  { intros inner text H. unfold with_sign, sign_text. destruct sg; cbn [number] in v.
    - rewrite (is_negative_ok HV), (unsigned_abs_ok HV) by auto. cbn [bind]. destruct (signed_digits HV x Hx) as (Wa & Ea). rewrite H, Ea by auto. fold v. destruct (v <? 0); reflexivity.
    - rewrite H by auto. assert (V0 : 0 <= v) by (apply (u_pos HV); auto). rewrite (Z.abs_eq v) by auto. destruct (Z.ltb_spec v 0); [lia|]. reflexivity. }
  destruct o; cbn [flag_fmt primitive]; rewrite ?AU, ?NM; cbn [bind].
  - apply WS. intros nonneg y Hy. unfold flag_decimal. destruct (digits_of_ok HV y 10 Hy ltac:(lia)) as (E & U). rewrite E. cbn [bind]. rewrite upper_ascii by auto.
    cbn [option_map]. rewrite pad_integral_ok. destruct (alternate (base g)); reflexivity.
  - apply (flag_radix_ok HV); auto; lia.
  - apply (flag_radix_ok HV); auto; lia.
  - apply (flag_hex_ok HV g x Hx).
  - apply (flag_hex_ok HV g x Hx).
  - apply (WS _ (shortest 101)). intros nonneg y Hy. apply (flag_exp_ok HV); auto.
  - apply (WS _ (shortest 69)). intros nonneg y Hy. apply (flag_exp_ok HV); auto.
Qed.

(** ** Where they differ, and examples *)
Definition flags_of (w : option Z) (plus alt z : bool) (a : option alignment) (ch : Z) : flags :=
  {| base := {| alternate := alt; sign_plus := plus; width := w; fill := [ch] |}; align := a; zero := z |}.
(** [{:08x}] of 42: spaces instead of zeros *)
Theorem C101_zero_refuted : exists (c : Cfg) x g, Valid /\ wf x /\ zero g = true /\
  code_fmt false FLowerHex x g = Ok (Some (repeat 32 6 ++ [50; 97])) /\ primitive BITS FLowerHex (uval x) g = repeat 48 6 ++ [50; 97].
Proof.
  exists c256_64, (E64 42), (flags_of (Some 8) false false true None 32). split; [exact valid_c256_64|]. split; [apply (wf_ofZ valid_c256_64)|].
  split; [reflexivity|]. split; vm_compute; reflexivity.
Qed.
(** [{:<6b}] of 5: on the right *)
Theorem C101_left_refuted : exists (c : Cfg) x g, Valid /\ wf x /\ align g = Some ALeft /\
  code_fmt false FBinary x g = Ok (Some [32; 32; 32; 49; 48; 49]) /\ primitive BITS FBinary (uval x) g = [49; 48; 49; 32; 32; 32].
Proof.
  exists c256_64, (E64 5), (flags_of (Some 6) false false false (Some ALeft) 32). split; [exact valid_c256_64|]. split; [apply (wf_ofZ valid_c256_64)|].
  split; [reflexivity|]. split; vm_compute; reflexivity.
Qed.
(** [{:+}] of the unsigned 7: no plus sign *)
Theorem C101_plus_refuted : exists (c : Cfg) x g, Valid /\ wf x /\ sign_plus (base g) = true /\
  code_fmt false FDecimal x g = Ok (Some [55]) /\ primitive BITS FDecimal (uval x) g = [43; 55].
Proof.
  exists c256_64, (E64 7), (flags_of None true false false None 32). split; [exact valid_c256_64|]. split; [apply (wf_ofZ valid_c256_64)|].
  split; [reflexivity|]. split; vm_compute; reflexivity.
Qed.
(** [{:e}] of -210: zeros at the end *)
Theorem C101_trailing_refuted : exists (c : Cfg) x g, Valid /\ wf x /\
  code_fmt true FLowerExp x g = Ok (Some [45; 50; 46; 49; 48; 101; 50]) /\ primitive BITS FLowerExp (sval x) g = [45; 50; 46; 49; 101; 50].
Proof.
  exists c256_64, (E64 (-210)), (flags_of None false false false None 32). split; [exact valid_c256_64|]. split; [apply (wf_ofZ valid_c256_64)|].
  split; vm_compute; reflexivity.
Qed.
(** Why the fill must not be a digit: 7 left-aligned with sevens, and 42 with plus signs *)
Example C101_chance :
  (let g := flags_of (Some 4) false false false (Some ALeft) 55 in
   code_fmt (c := c256_64) false FOctal (E64 7) g = Ok (Some (primitive 256 FOctal 7 g)) /\ agrees 256 false FOctal 7 g = false) /\
  (let g := flags_of (Some 4) true false false None 43 in
   code_fmt (c := c256_64) false FLowerHex (E64 42) g = Ok (Some (primitive 256 FLowerHex 42 g)) /\ agrees 256 false FLowerHex 42 g = false).
Proof. vm_compute. auto 6. Qed.
(** [{:*>+12}] of -42, [{:#012x}] of -1 and [{:^9e}] of 1200 as they should be *)
Example C101_ex1 :
  flag_fmt (c := c256_64) true FDecimal (E64 (-42)) (flags_of (Some 6) true false false (Some ARight) 42) = Ok (Some [42; 42; 42; 45; 52; 50]) /\
  flag_fmt (c := c256_64) true FLowerHex (E64 42) (flags_of (Some 8) false true true None 32) = Ok (Some [48; 120; 48; 48; 48; 48; 50; 97]) /\
  flag_fmt (c := c256_64) true FUpperExp (E64 1200) (flags_of (Some 8) false false false (Some ACenter) 32) = Ok (Some [32; 49; 46; 50; 69; 51; 32; 32]).
Proof. vm_compute. auto. Qed.
(** C101_agrees, C101_plain, C101_zero_hex: their hypotheses hold and both answers occur *)
Example C101_ex2 :
  let g := flags_of (Some 9) false false false None 32 in
  is_char (fill (base g)) /\ no_digit (fill (base g)) /\ agrees 256 false FOctal (8 ^ 20) g = true /\ agrees 256 false FOctal 8 g = true /\
  agrees 256 true FDecimal (-12345678) g = true /\ agrees 256 true FDecimal (-1234567) g = false /\ agrees 256 true FLowerExp (-123456) g = true /\
  agrees 256 true FLowerExp (-123450) g = false /\ agrees 256 true FLowerExp 3 g = false.
Proof.
  cbv zeta. split; [left; exists 32; split; [reflexivity|lia]|]. split; [repeat constructor; lia|]. vm_compute. auto 8.
Qed.
Example C101_ex3 : let g := flags_of (Some 64) false false true None 32 in
  16 ^ 63 <= uval (c := c256_64) (E64 (2 ^ 255 + 7)) /\ ~ 16 ^ 63 <= uval (c := c256_64) (E64 (2 ^ 251)) /\
  code_fmt (c := c256_64) false FLowerHex (E64 (2 ^ 255 + 7)) g = Ok (Some (56 :: repeat 48 62 ++ [55])) /\
  code_fmt (c := c256_64) false FLowerHex (E64 (2 ^ 251)) g = Ok (Some (32 :: 56 :: repeat 48 62)).
Proof. vm_compute. split; [discriminate|]. split; [intros H; apply H; reflexivity|]. auto. Qed.

(** ** Assumptions (each must print "Closed under the global context") *)

Print Assumptions C101_shortest.
Print Assumptions C101_width.
Print Assumptions C101_agrees.
Print Assumptions C101_plain.
Print Assumptions C101_zero_hex.
Print Assumptions C101_corrected.
Print Assumptions C101_zero_refuted.
Print Assumptions C101_left_refuted.
Print Assumptions C101_plus_refuted.
Print Assumptions C101_trailing_refuted.
