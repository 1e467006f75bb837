(** * Printing with flags: lemmas (for C101) *)

Require Import ZArith List Bool Lia.
From Verif Require Import Prim Spec Facts MCore PCore PWide PRet MArith PArith PArith2 MScalar TextSpec PParse2
  MWrite PWrite PWrite2 PropsWrite LangText PLangText FlagSpec MFix4.
Import ListNotations.
Local Open Scope Z_scope.

(** ** Numerals and zeros at the end *)
Lemma numval_zeros : forall k s v, numval 10 s = Some v -> numval 10 (s ++ repeat 48 k) = Some (v * 10 ^ Z.of_nat k).
Proof.
  induction k as [|k IH]; intros s v H.
  - cbn [repeat]. rewrite app_nil_r, H. f_equal. cbn. lia.
  - cbn [repeat]. change (48 :: repeat 48 k) with ([48] ++ repeat 48 k). rewrite app_assoc.
    rewrite (IH (s ++ [48]) (v * 10)).
    + f_equal. rewrite Nat2Z.inj_succ, Z.pow_succ_r by lia. ring.
    + unfold numval in *. rewrite horner_app, H. cbn [horner digit_in digit_of]. cbn. f_equal. lia.
Qed.
Lemma text_zeros : forall m k, 1 <= m -> number_text 10 (m * 10 ^ Z.of_nat k) = number_text 10 m ++ repeat 48 k.
Proof.
  intros m k Hm. symmetry. destruct (number_text_ok 10 m ltac:(lia) ltac:(lia)) as ((C1 & C2 & C3) & U).
  apply text_unique; [lia|apply Z.mul_nonneg_nonneg; [lia|apply Z.pow_nonneg; lia]|]. split.
  - split; [intros H; apply app_eq_nil in H; tauto|]. split; [apply numval_zeros; auto|].
    intros H. exfalso. destruct (number_text 10 m) as [|a s]; [contradiction|]. cbn [app hd] in *. rewrite C3 in C2 by auto. cbv in C2. inversion C2. lia.
  - apply Forall_app. split; [exact U|]. apply Forall_forall. intros b Hb. apply repeat_spec in Hb. left. lia.
Qed.
Lemma tens_spec : forall fuel v, 1 <= v < 2 ^ Z.of_nat (S fuel) -> let k := tens fuel v in
  exists m, 1 <= m /\ v = m * 10 ^ Z.of_nat k /\ v / 10 ^ Z.of_nat k = m /\ m mod 10 <> 0.
Proof.
  induction fuel as [|fuel IH]; intros v Hv; cbv zeta; cbn [tens].
  - exists v. change (2 ^ Z.of_nat 1) with 2 in Hv. cbn [Z.of_nat]. rewrite Z.pow_0_r, Z.div_1_r. assert (v = 1) by lia. subst. repeat split; try lia. discriminate.
  - destruct (Z.leb_spec 10 v); cbn [andb].
    2:{ exists v. cbn [Z.of_nat]. rewrite Z.pow_0_r, Z.div_1_r, Z.mod_small by lia. repeat split; lia. }
    destruct (Z.eqb_spec (v mod 10) 0) as [E|E].
    2:{ exists v. cbn [Z.of_nat]. rewrite Z.pow_0_r, Z.div_1_r. repeat split; try lia. }
    pose proof (Z.div_mod v 10 ltac:(lia)) as D. rewrite E, Z.add_0_r in D.
    destruct (IH (v / 10)) as (m & M1 & M2 & M3 & M4).
    { rewrite (Nat2Z.inj_succ (S fuel)), Z.pow_succ_r in Hv by lia. split; [apply Z.div_le_lower_bound; lia|apply Z.div_lt_upper_bound; lia]. }
    exists m. rewrite Nat2Z.inj_succ, Z.pow_succ_r by lia. split; auto. split; [rewrite D at 1; rewrite M2 at 1; ring|]. split; [|exact M4].
    rewrite <- Z.div_div by (try lia; apply Z.pow_pos_nonneg; lia). exact M3.
Qed.
(** The parts of a number in exponent form: the digits up to the last that is not
    zero, and the zeros. *)
Lemma exp_parts : forall v, 0 <= v -> exists d t k,
  number_text 10 v = d :: t ++ repeat 48 k /\
  (forall tag, shortest tag v = d :: match t with [] => [] | _ => 46 :: t end ++ tag :: number_text 10 (Z.of_nat (length t + k))) /\
  (k = 0%nat /\ t <> [] <-> 10 <= v /\ v mod 10 <> 0) /\ (t = [] \/ exists u b, t = u ++ [b] /\ b <> 48) /\ Forall (fun ch => 48 <= ch <= 57) (d :: t).
Proof.
  intros v Hv.
  assert (exists m k, tens (Z.to_nat (Z.log2 v)) v = k /\ v / 10 ^ Z.of_nat k = m /\ v = m * 10 ^ Z.of_nat k /\ (1 <= m /\ m mod 10 <> 0 \/ v = 0 /\ k = 0%nat)) as (m & k & Ek & Em & Ev & H).
  { destruct (Z.eq_dec v 0) as [->|Hn].
    - exists 0, 0%nat. cbn. auto 6.
    - destruct (tens_spec (Z.to_nat (Z.log2 v)) v) as (m & M1 & M2 & M3 & M4).
      { rewrite Nat2Z.inj_succ, Z2Nat.id by apply Z.log2_nonneg. pose proof (Z.log2_spec v). lia. }
      exists m, (tens (Z.to_nat (Z.log2 v)) v). auto 6. }
  assert (Pk : 0 < 10 ^ Z.of_nat k) by (apply Z.pow_pos_nonneg; lia).
  assert (Hm : 0 <= m) by nia.
  pose proof (number_text_ok 10 m ltac:(lia) Hm) as NT. pose proof (C30_decimal 10 m _ ltac:(lia) NT) as ND.
  assert (TX : number_text 10 v = number_text 10 m ++ repeat 48 k).
  { destruct H as [(H & _)|(H & ->)]; [rewrite Ev; apply text_zeros; auto|]. cbn [repeat]. rewrite app_nil_r. f_equal. cbn in Ev. lia. }
  pose proof (text_single 10 m ltac:(lia) Hm) as TS.
  destruct (number_text 10 m) as [|d t] eqn:E; [destruct NT as ((N & _) & _); contradiction|].
  exists d, t, k. split; [exact TX|]. split; [intros tag; unfold shortest; cbv zeta; rewrite Ek, Em, E; reflexivity|].
  assert (T0 : t = [] <-> m < 10) by (rewrite <- TS; split; [intros ->; eauto|intros (? & X); inversion X; auto]).
  split; [|split; [|exact ND]].
  - split.
    + intros (-> & Ht). cbn in Ev. rewrite Z.mul_1_r in Ev. subst v. assert (~ m < 10) by (rewrite <- T0; auto). destruct H as [(_ & H)|(H & _)]; [split; [lia|exact H]|lia].
    + intros (H1 & H2). destruct k as [|k].
      * split; auto. rewrite T0. cbn in Ev. lia.
      * exfalso. apply H2. rewrite Ev, Nat2Z.inj_succ, Z.pow_succ_r by lia. replace (m * (10 * 10 ^ Z.of_nat k)) with (m * 10 ^ Z.of_nat k * 10) by ring. apply Z.mod_mul. lia.
  - destruct (@exists_last _ (d :: t)) as (u & b & Eb); [discriminate|]. destruct u as [|a u]; [inversion Eb; auto|]. injection Eb as Ed Et. subst d t. right. exists u, b. split; auto.
    intros ->. destruct H as [(H & H')|(H & H')].
    + destruct NT as ((_ & N & _) & _). change (a :: u ++ [48]) with ((a :: u) ++ [48]) in N. destruct (numval_snoc _ _ _ _ N) as (w & dd & _ & Ed & Ew). cbv in Ed. inversion Ed; subst dd.
      apply H'. rewrite Ew, Z.add_0_r. apply Z.mod_mul. lia.
    + assert (F : u ++ [48] = []) by (apply T0; rewrite H' in Ev; cbn in Ev; lia). destruct u; discriminate.
Qed.

(** ** Fields *)
Lemma fills_0 : forall g, fills g 0 = [].
Proof. reflexivity. Qed.
Lemma fills_all : forall g (p : Z -> Prop) k, Forall p (fill (base g)) -> Forall p (fills g k).
Proof.
  intros g p k H. unfold fills. induction k as [|k IH]; cbn [repeat concat]; [constructor|]. apply Forall_app. auto.
Qed.
Lemma char_nonempty : forall s, is_char s -> s <> [].
Proof. intros s [(b & -> & _)|(H & _)]; auto; discriminate. Qed.
Lemma fills_length : forall g k, (length (fills g k) = k * length (fill (base g)))%nat.
Proof. intros g k. unfold fills. induction k as [|k IH]; cbn [repeat concat]; [reflexivity|]. rewrite app_length, IH. lia. Qed.
Lemma char_length : forall s, is_char s -> (1 <= length s)%nat.
Proof. intros s H. apply char_nonempty in H. destruct s; [contradiction|cbn; lia]. Qed.
Lemma fills_nil : forall g k, is_char (fill (base g)) -> fills g k = [] -> k = 0%nat.
Proof. intros g k H E. apply char_length in H. apply (f_equal (@length Z)) in E. rewrite fills_length in E. cbn in E. nia. Qed.

Definition fits_in (g : flags) (n : nat) : bool := match width (base g) with Some w => w <=? Z.of_nat n | None => true end.
Lemma fits_missing : forall g n, fits_in g n = true <-> missing g n = 0%nat.
Proof.
  intros g n. unfold fits_in, missing. destruct (width (base g)) as [w|]; [|tauto]. rewrite Z.leb_le. lia.
Qed.
Lemma laid_out_plain : forall g sign prefix digits, missing g (length sign + length prefix + length digits) = 0%nat ->
  laid_out g sign prefix digits = sign ++ prefix ++ digits.
Proof.
  intros g sign prefix digits H. unfold laid_out. rewrite H. cbv zeta. destruct (zero g); [reflexivity|].
  destruct (align g) as [[]|]; cbn [Nat.div fst Nat.divmod Nat.sub]; rewrite fills_0, app_nil_r; reflexivity.
Qed.
Lemma laid_out_length : forall g sign prefix digits, is_char (fill (base g)) ->
  (length sign + length prefix + length digits + missing g (length sign + length prefix + length digits) <= length (laid_out g sign prefix digits))%nat.
Proof.
  intros g sign prefix digits H. apply char_length in H. unfold laid_out. set (k := missing _ _). cbv zeta. destruct (zero g).
  - rewrite !app_length, repeat_length. lia.
  - set (b := match align g with Some ALeft => 0%nat | Some ACenter => (k / 2)%nat | _ => k end).
    assert (b <= k)%nat by (unfold b; destruct (align g) as [[]|]; try lia; apply Nat.div_le_upper_bound; lia).
    rewrite !app_length, !fills_length. nia.
Qed.
(** [pad_integral] lays out *)
Lemma pad_integral_ok : forall g nonneg prefix buf,
  pad_integral g nonneg prefix buf = laid_out g (if nonneg : bool then if sign_plus (base g) then [43] else [] else [45]) (if alternate (base g) then prefix else []) buf.
Proof.
  intros g nonneg prefix buf. unfold pad_integral. set (sign := if nonneg then _ else _). set (pre := if alternate _ then _ else _).
  cbv zeta. replace (length buf + length sign + length pre)%nat with (length sign + length pre + length buf)%nat by lia.
  destruct (width (base g)) as [w|] eqn:Ew.
  - destruct (Z.leb_spec w (Z.of_nat (length sign + length pre + length buf))) as [L|L].
    + rewrite laid_out_plain; [reflexivity|]. unfold missing. rewrite Ew. lia.
    + unfold laid_out, missing, std_padding, fills. rewrite Ew. set (k := Z.to_nat _). cbv zeta. destruct (zero g); [reflexivity|].
      destruct (align g) as [[]|]; rewrite ?Nat.sub_0_r, ?Nat.sub_diag; try reflexivity.
      replace ((k + 1) / 2)%nat with (k - k / 2)%nat; [reflexivity|].
      pose proof (Nat.div_mod k 2 ltac:(lia)). pose proof (Nat.div_mod (k + 1) 2 ltac:(lia)).
      pose proof (Nat.mod_upper_bound k 2 ltac:(lia)). pose proof (Nat.mod_upper_bound (k + 1) 2 ltac:(lia)). lia.
  - rewrite laid_out_plain; [reflexivity|]. unfold missing. rewrite Ew. reflexivity.
Qed.

(** ** When the texts agree *)
Lemma decimal_iff : forall g sign digits, is_char (fill (base g)) ->
  (laid_out g sign [] digits = sign ++ digits <-> fits_in g (length sign + length digits) = true).
Proof.
  intros g sign digits H. rewrite fits_missing. pose proof (laid_out_length g sign [] digits H) as L. pose proof (laid_out_plain g sign [] digits) as P.
  cbn [length app] in *. rewrite Nat.add_0_r in *. split; [|exact P]. intros E. rewrite E, app_length in L. lia.
Qed.
(** a byte that stands in the field stands in the text *)
Lemma sign_in : forall g b prefix digits, In b (laid_out g [b] prefix digits).
Proof.
  intros g b prefix digits. unfold laid_out. cbv zeta. destruct (zero g); [left; reflexivity|]. apply in_or_app. right. left. reflexivity.
Qed.
Lemma not_in : forall (p : Z -> Prop) b s, Forall p s -> ~ p b -> ~ In b s.
Proof. intros p b s F N H. rewrite Forall_forall in F. apply N, F, H. Qed.
(** the point cannot move *)
Lemma point_place : forall (sign u pre rest : list Z) d, Forall (fun b => b <> 46) pre -> (length sign + 1 < length pre)%nat ->
  sign ++ d :: 46 :: u = pre ++ rest -> False.
Proof.
  intros sign u pre rest d F L E. apply (f_equal (fun s => nth (length sign + 1) s 0)) in E.
  rewrite app_nth2 in E by lia. rewrite app_nth1 in E by lia. replace (length sign + 1 - length sign)%nat with 1%nat in E by lia. cbn [nth] in E.
  rewrite Forall_forall in F. apply (F 46); [|reflexivity]. rewrite E. apply nth_In. lia.
Qed.
Lemma exponent_iff : forall g sign d t k e tag, is_char (fill (base g)) -> Forall (fun b => b <> 46) sign -> tag <> 46 -> tag <> 48 ->
  Forall (fun ch => 48 <= ch <= 57) (d :: t) ->
  let short := d :: match t with [] => [] | _ => 46 :: t end ++ tag :: e in
  (laid_out g sign [] short = sign ++ d :: 46 :: (t ++ repeat 48 k) ++ tag :: e <->
   (k = 0%nat /\ t <> []) /\ fits_in g (length sign + length short) = true).
Proof.
  intros g sign d t k e tag HC HS T1 T2 HD short. split.
  - intros E. symmetry in E. inversion HD as [|? ? Hd Ht]; subst.
    assert (SH : short = [d] ++ match t with [] => [] | _ => 46 :: t end ++ tag :: e) by reflexivity.
    unfold laid_out in E. cbn [length] in E. rewrite Nat.add_0_r in E. set (j := missing g (length sign + length short)) in *. cbv zeta in E. cbn [app] in E.
    (* what remains when nothing stands in front *)
    assert (REST : forall post, sign ++ d :: 46 :: (t ++ repeat 48 k) ++ tag :: e = sign ++ short ++ post -> (k = 0%nat /\ t <> []) /\ post = []).
    { intros post E'. apply app_inv_head in E'. unfold short in E'. cbn [app] in E'. injection E' as E'. destruct t as [|a t].
      - cbn [app] in E'. injection E' as E' _. exfalso. auto.
      - cbn [app] in E'. injection E' as E'. rewrite <- !app_assoc in E'. apply app_inv_head in E'. destruct k as [|k].
        + cbn [repeat app] in E'. injection E' as E'. rewrite <- (app_nil_r e) in E' at 1. apply app_inv_head in E'. split; [split; [auto|discriminate]|auto].
        + cbn [repeat app] in E'. injection E' as E' _. exfalso. auto. }
    destruct (zero g).
    + assert (j = 0%nat) as J.
      { destruct j as [|j]; [reflexivity|]. exfalso. rewrite SH in E. set (R := match t with [] => [] | _ => 46 :: t end ++ tag :: e) in E.
        replace (sign ++ repeat 48 (S j) ++ [d] ++ R) with ((sign ++ repeat 48 (S j) ++ [d]) ++ R) in E by (rewrite <- !app_assoc; reflexivity).
        apply point_place in E; auto.
        - apply Forall_app. split; [auto|apply Forall_app; split; [|constructor; [lia|constructor]]]. apply Forall_forall. intros b Hb. apply repeat_spec in Hb. lia.
        - rewrite !app_length, repeat_length. cbn [length]. lia. }
      rewrite J in E. cbn [repeat app] in E. rewrite <- (app_nil_r short) in E. apply REST in E. split; [tauto|]. apply fits_missing. exact J.
    + set (b := match align g with Some ALeft => 0%nat | Some ACenter => (j / 2)%nat | _ => j end) in *.
      assert (b = 0%nat) as B0.
      { destruct b as [|b]; [reflexivity|]. exfalso.
        assert (F : Forall (fun x => x <> 46) (fill (base g))).
        { destruct HC as [(y & Ey & Hy)|(_ & F)]; [|eapply Forall_impl; [|exact F]; cbn; lia]. rewrite Ey. constructor; [|constructor]. intros ->.
          unfold fills in E. rewrite Ey in E. cbn [repeat concat app] in E. destruct sign as [|a sign].
          - cbn [app] in E. injection E as E _. lia.
          - cbn [app] in E. injection E as E _. inversion HS; subst. lia. }
        rewrite SH in E. set (R := match t with [] => [] | _ => 46 :: t end ++ tag :: e) in E.
        replace (fills g (S b) ++ sign ++ ([d] ++ R) ++ fills g (j - S b)) with ((fills g (S b) ++ sign ++ [d]) ++ R ++ fills g (j - S b)) in E by (rewrite <- !app_assoc; reflexivity).
        apply point_place in E; auto.
        - apply Forall_app. split; [apply fills_all; exact F|]. apply Forall_app. split; [exact HS|constructor; [lia|constructor]].
        - rewrite !app_length, fills_length. apply char_length in HC. cbn [length]. nia. }
      rewrite B0 in E. rewrite fills_0 in E. cbn [app] in E. rewrite Nat.sub_0_r in E. apply REST in E. destruct E as (E & P). apply fills_nil in P; auto. split; [exact E|]. apply fits_missing. exact P.
  - intros ((-> & Ht) & H). apply fits_missing in H. rewrite laid_out_plain by (cbn [length]; rewrite Nat.add_0_r; exact H). cbn [app repeat]. rewrite app_nil_r.
    unfold short. destruct t; [contradiction|reflexivity].
Qed.
Definition right (g : flags) : bool := negb (zero g) && match align g with None | Some ARight => true | _ => false end.
Lemma radix_iff : forall g tag digits, is_char (fill (base g)) -> no_digit (fill (base g)) -> digits <> [] ->
  Forall (fun b => 48 <= b <= 57 \/ 65 <= b <= 90 \/ 97 <= b <= 122) digits -> 97 <= tag <= 122 ->
  let prefix := if alternate (base g) then [48; tag] else [] in
  (laid_out g (if sign_plus (base g) then [43] else []) prefix digits = prefix ++ fills g (missing g (length digits)) ++ digits <->
   negb (sign_plus (base g)) && (fits_in g (length digits) || negb (alternate (base g)) && right g) = true).
Proof.
  intros g tag digits HC HN H0 HD HT prefix. destruct (sign_plus (base g)); cbn [negb andb].
  { split; [|discriminate]. intros E. exfalso. pose proof (sign_in g 43 prefix digits) as I. rewrite E in I. revert I. apply (not_in (fun b => b <> 43)); [|auto].
    apply Forall_app. split; [unfold prefix; destruct (alternate (base g)); repeat constructor; lia|]. apply Forall_app. split.
    - apply fills_all. eapply Forall_impl; [|exact HN]. cbn. lia.
    - eapply Forall_impl; [|exact HD]. cbn. lia. }
  destruct (fits_in g (length digits)) eqn:F; cbn [orb].
  { split; auto. intros _. apply fits_missing in F. rewrite F, fills_0. cbn [app]. rewrite laid_out_plain; [reflexivity|].
    unfold missing in *. destruct (width (base g)); [|auto]. lia. }
  assert (M : missing g (length digits) <> 0%nat) by (intros M; apply fits_missing in M; congruence).
  destruct (alternate (base g)) eqn:A; cbn [negb andb].
  - split; [|discriminate]. intros E. exfalso. apply (f_equal (@length Z)) in E. unfold prefix in E. cbn [app length] in E.
    rewrite !app_length, fills_length in E. pose proof (char_length _ HC). unfold laid_out in E. cbn [length plus] in E. set (k := missing g (S (S (length digits)))) in *.
    assert (K : (k < missing g (length digits))%nat).
    { unfold k, missing in *. destruct (width (base g)); [lia|contradiction]. }
    cbv zeta in E. destruct (zero g).
    + rewrite !app_length, repeat_length in E. cbn [length] in E. nia.
    + set (b := match align g with Some ALeft => 0%nat | Some ACenter => (k / 2)%nat | _ => k end) in *.
      assert (b <= k)%nat by (unfold b; destruct (align g) as [[]|]; try lia; apply Nat.div_le_upper_bound; lia).
      rewrite !app_length, !fills_length in E. cbn [length] in E. nia.
  - unfold prefix. cbn [app]. unfold laid_out, right. cbn [length plus app]. set (k := missing g (length digits)) in *. destruct (zero g); cbn [negb andb].
    + split; [|discriminate]. intros E. exfalso. destruct k as [|k]; [contradiction|]. pose proof (char_nonempty _ HC) as N. unfold fills in E. cbn [repeat concat app] in E.
      inversion HN as [Q|y f Hy Hf Q]; [symmetry in Q; contradiction|]. rewrite <- Q in E. cbn [app] in E. injection E as E _. apply Hy. lia.
    + assert (LAST : forall r s, r <> 0%nat -> s ++ fills g r <> fills g k ++ digits).
      { intros r s Hr E. destruct r as [|r]; [contradiction|]. destruct (exists_last H0) as (u & b & Eb). pose proof (char_nonempty _ HC) as N.
        assert (exists q z, fills g (S r) = q ++ [z] /\ ~ (48 <= z <= 57 \/ 65 <= z <= 90 \/ 97 <= z <= 122)) as (q & z & Eq & Hz).
        { destruct (exists_last N) as (q & z & Eq). assert (FN : no_digit (fills g (S r))) by (apply fills_all; exact HN).
          assert (fills g (S r) <> []) as NE by (intros X; apply fills_nil in X; auto; discriminate). destruct (exists_last NE) as (q' & z' & Eq'). exists q', z'. split; auto.
          unfold no_digit in FN. rewrite Eq' in FN. apply Forall_app in FN. destruct FN as (_ & FN). inversion FN; subst. tauto. }
        rewrite Eq, Eb, !app_assoc in E. apply app_inj_tail in E. destruct E as (_ & ->). apply Hz. rewrite Eb in HD. apply Forall_app in HD. destruct HD as (_ & HD). inversion HD; auto. }
      destruct (align g) as [[]|].
      * split; [|discriminate]. intros E. exfalso. cbn [fills repeat concat app] in E. change (digits ++ fills g (k - 0) = fills g k ++ digits) in E. apply LAST in E; auto. lia.
      * split; [|discriminate]. intros E. exfalso. rewrite app_assoc in E. apply LAST in E; auto. pose proof (Nat.div_lt k 2). lia.
      * split; auto. intros _. rewrite Nat.sub_diag, fills_0, app_nil_r. reflexivity.
      * split; auto. intros _. rewrite Nat.sub_diag, fills_0, app_nil_r. reflexivity.
Qed.

(** ** What the code prints *)
Section P.
Context {c : Cfg}.
Hypothesis HV : Valid.

Lemma code_radix : forall g radix tag x, wf x -> 2 <= radix <= 36 ->
  let d := number_text radix (uval x) in
  u_binary_octal radix tag x (base g) = Ok (Some ((if alternate (base g) then [48; tag] else []) ++ fills g (missing g (length d)) ++ d)).
Proof.
  intros g radix tag x Hx Hr d. destruct (u_str HV x radix Hx Hr) as (i & s & E & Es & L & C & U).
  assert (S : s = d) by (apply text_unique; auto using (u_pos HV); split; auto).
  unfold u_binary_octal. rewrite E. cbn [bind]. rewrite Es, upper_ascii by auto. rewrite <- S. unfold padding, missing. destruct (width (base g)); reflexivity.
Qed.
Lemma code_hex : forall g x, wf x -> let d := number_text 16 (uval x) in
  u_upper_hex x (base g) = Ok (Some ((if alternate (base g) then [48; 120] else []) ++ fills g (missing g (length d)) ++ d)) /\
  u_lower_hex x (base g) = Ok (Some ((if alternate (base g) then [48; 120] else []) ++ fills g (missing g (length d)) ++ map lower_case d)).
Proof.
  intros g x Hx d. destruct (u_str HV x 16 Hx ltac:(lia)) as (i & s & E & Es & L & C & U).
  assert (S : s = d) by (apply text_unique; auto using (u_pos HV); [lia|split; auto]).
  unfold u_lower_hex, u_upper_hex, u_hex. rewrite E. cbn [bind]. cbv zeta. rewrite Es. cbn [fst]. rewrite !hex_slice by auto.
  rewrite map_upper by auto. rewrite (upper_ascii s U). rewrite lower_ascii by (apply map_lower; auto). rewrite <- S.
  unfold padding, missing. destruct (width (base g)); split; reflexivity.
Qed.
Lemma code_decimal : forall x, wf x -> u_display x = Ok (Some (number_text 10 (uval x))).
Proof.
  intros x Hx. destruct (C30_unsigned c x HV Hx) as (s & E & U). rewrite E. do 2 f_equal. apply text_unique; auto using (u_pos HV). lia.
Qed.
Lemma code_exp : forall tag x, wf x -> exists d t e, number_text 10 (uval x) = d :: t /\ number_text 10 (Z.of_nat (length t)) = e /\
  u_exp tag x = Ok (Some (d :: 46 :: t ++ tag :: e)).
Proof.
  intros tag x Hx. destruct (u_exp_ok HV tag x Hx) as (d & t & e & E & C & U & C' & U'). exists d, t, e.
  destruct (exp_split (uval x) d t e (u_pos HV x Hx) (conj C U) (conj C' U')). auto.
Qed.
Lemma digits_of_ok : forall x radix, wf x -> 2 <= radix <= 36 -> digits_of x radix = Ok (number_text radix (uval x)) /\ Forall upper_digit (number_text radix (uval x)).
Proof.
  intros x radix Hx Hr. destruct (u_str HV x radix Hx Hr) as (i & s & E & Es & L & C & U). unfold digits_of. rewrite E. cbn [bind]. rewrite Es.
  assert (S : s = number_text radix (uval x)) by (apply text_unique; auto using (u_pos HV); split; auto). rewrite S in *. auto.
Qed.
Lemma signed_digits : forall x, wf x -> wf (ofZ (Z.abs (sval x))) /\ uval (ofZ (Z.abs (sval x))) = Z.abs (sval x).
Proof. intros x Hx. split; [apply (wf_ofZ HV)|apply (abs_uval HV); auto]. Qed.

(** ** The corrected code *)
Lemma flag_radix_ok : forall g radix tag x, wf x -> 2 <= radix <= 36 ->
  flag_radix g radix tag (fun b => b) x = Ok (Some (laid_out g (if sign_plus (base g) then [43] else []) (if alternate (base g) then [48; tag] else []) (number_text radix (uval x)))).
Proof.
  intros g radix tag x Hx Hr. unfold flag_radix. destruct (digits_of_ok x radix Hx Hr) as (E & U). rewrite E. cbn [bind]. rewrite map_id, upper_ascii by auto.
  cbn [option_map]. rewrite pad_integral_ok. reflexivity.
Qed.
Lemma flag_hex_ok : forall g x, wf x -> let lay := laid_out g (if sign_plus (base g) then [43] else []) (if alternate (base g) then [48; 120] else []) in
  flag_radix g 16 120 to_upper x = Ok (Some (lay (number_text 16 (uval x)))) /\
  flag_radix g 16 120 to_lower x = Ok (Some (lay (map lower_case (number_text 16 (uval x))))).
Proof.
  intros g x Hx lay. unfold flag_radix. destruct (digits_of_ok x 16 Hx ltac:(lia)) as (E & U). rewrite E. cbn [bind]. rewrite map_upper by auto.
  rewrite upper_ascii by auto. rewrite lower_ascii by (apply map_lower; auto). cbn [option_map]. rewrite !pad_integral_ok. split; reflexivity.
Qed.
Lemma drop_zeros_app : forall k r, drop_zeros (repeat 48 k ++ r) = drop_zeros r.
Proof. induction k as [|k IH]; intros r; [reflexivity|]. cbn [repeat app drop_zeros]. change (48 =? 48) with true. apply IH. Qed.
Lemma rev_repeat : forall k, rev (repeat 48 k) = repeat 48 k.
Proof.
  induction k as [|k IH]; [reflexivity|]. cbn [repeat rev]. rewrite IH. clear IH. induction k as [|k IH]; [reflexivity|]. cbn [repeat app]. rewrite IH. reflexivity.
Qed.
Lemma flag_exp_ok : forall g nonneg tag x, wf x ->
  flag_exp g nonneg tag x = Ok (Some (laid_out g (if nonneg : bool then if sign_plus (base g) then [43] else [] else [45]) [] (shortest tag (uval x)))).
Proof.
  intros g nonneg tag x Hx. unfold flag_exp. destruct (digits_of_ok x 10 Hx ltac:(lia)) as (E & U). rewrite E. cbn [bind].
  destruct (exp_parts (uval x) (u_pos HV x Hx)) as (d & t & k & E1 & E2 & _ & E3 & E4). rewrite E2. rewrite E1 in U |- *. rewrite rev_app_distr, rev_repeat, drop_zeros_app.
  assert (RD : rev (drop_zeros (rev t)) = t).
  { destruct E3 as [->|(u & b & -> & Hb)]; [reflexivity|]. rewrite rev_app_distr. cbn [rev app drop_zeros]. destruct (Z.eqb_spec b 48); [contradiction|].
    change (b :: rev u) with ([b] ++ rev u). rewrite rev_app_distr, rev_involutive. reflexivity. }
  rewrite RD. inversion U as [|? ? Ud Ut]; subst. apply Forall_app in Ut. rewrite upper_ascii by tauto. cbn [option_map]. rewrite pad_integral_ok. destruct (alternate (base g)); do 4 f_equal; f_equal; f_equal.
  all: cbn [length]; rewrite app_length, repeat_length; replace (Z.of_nat (S (length t + k)) - 1) with (Z.of_nat (length t + k)) by lia;
    apply text_unique; [lia|lia|]; destruct (std_display_ok (Z.of_nat (length t + k)) ltac:(lia)) as (X & Y); split; assumption.
Qed.
End P.
