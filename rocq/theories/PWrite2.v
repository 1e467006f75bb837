(** * Proofs: formatting *)

Require Import ZArith List Bool Lia.
From Verif Require Import Prim Spec Facts MShift MCore PCore PBits PWide MArith PArith PArith2 PPow
  DivSpec MScalar PScalar PScalarDiv TextSpec MApi MParse PParse PParse2 MWrite PWrite.
Import ListNotations.
Local Open Scope Z_scope.

Lemma upper_ascii : forall s, Forall upper_digit s -> from_utf8 s = Some s.
Proof.
  intros s H. unfold from_utf8. replace (forallb (fun b => (0 <=? b) && (b <? 128)) s) with true; auto.
  symmetry. apply forallb_forall. intros x Hx. rewrite Forall_forall in H. specialize (H x Hx). unfold upper_digit in H.
  destruct (Z.leb_spec 0 x), (Z.ltb_spec x 128); auto; lia.
Qed.
Lemma lower_ascii : forall s, Forall lower_digit s -> from_utf8 s = Some s.
Proof.
  intros s H. unfold from_utf8. replace (forallb (fun b => (0 <=? b) && (b <? 128)) s) with true; auto.
  symmetry. apply forallb_forall. intros x Hx. rewrite Forall_forall in H. specialize (H x Hx). unfold lower_digit in H.
  destruct (Z.leb_spec 0 x), (Z.ltb_spec x 128); auto; lia.
Qed.
Lemma upper_bytes : forall s, Forall upper_digit s -> bytes s.
Proof. intros s. apply Forall_impl. intros x H. unfold upper_digit, fits_u in *. lia. Qed.
Lemma lower_bytes : forall s, Forall lower_digit s -> bytes s.
Proof. intros s. apply Forall_impl. intros x H. unfold lower_digit, fits_u in *. lia. Qed.
Lemma to_lower_digit : forall radix ch, upper_digit ch -> digit_in radix (to_lower ch) = digit_in radix ch /\ lower_digit (to_lower ch).
Proof.
  intros radix ch H. unfold to_lower, upper_digit, lower_digit in *.
  destruct ((65 <=? ch) && (ch <=? 90)) eqn:E.
  - apply andb_true_iff in E. rewrite !Z.leb_le in E. split; [|lia]. unfold digit_in, digit_of.
    destruct (Z.leb_spec (ch + 32) 57); [lia|]. destruct (Z.leb_spec ch 57); [lia|]. rewrite !andb_false_r.
    destruct (Z.leb_spec (ch + 32) 90); [lia|]. rewrite andb_false_r.
    destruct (Z.leb_spec 97 (ch + 32)), (Z.leb_spec (ch + 32) 122), (Z.leb_spec 65 ch), (Z.leb_spec ch 90); try lia. cbn [andb].
    replace (ch + 32 - 87) with (ch - 55) by lia. reflexivity.
  - split; [reflexivity|]. destruct H as [|H]; auto. destruct (Z.leb_spec 65 ch), (Z.leb_spec ch 90); try lia; discriminate.
Qed.
Lemma to_upper_digit : forall ch, upper_digit ch -> to_upper ch = ch.
Proof.
  intros ch H. unfold to_upper, upper_digit in *. destruct (Z.leb_spec 97 ch); [lia|]. reflexivity.
Qed.
Lemma map_upper : forall s, Forall upper_digit s -> map to_upper s = s.
Proof. intros s H. induction H; cbn; auto. rewrite to_upper_digit by auto. f_equal. auto. Qed.
Lemma map_lower : forall s, Forall upper_digit s -> Forall lower_digit (map to_lower s).
Proof. intros s H. induction H; cbn; constructor; auto. apply (to_lower_digit 16); auto. Qed.
Lemma horner_lower : forall radix s acc, Forall upper_digit s -> horner radix acc (map to_lower s) = horner radix acc s.
Proof.
  intros radix s acc H. revert acc. induction H; intros acc; cbn [map horner]; auto.
  destruct (to_lower_digit radix x H) as [-> _]. destruct (digit_in radix x); auto.
Qed.
Lemma canonical_lower : forall radix v s, Forall upper_digit s -> canonical radix v s -> canonical radix v (map to_lower s).
Proof.
  intros radix v s H (H1 & H2 & H3). split; [destruct s; [contradiction|discriminate]|]. split.
  - unfold numval. rewrite horner_lower by auto. exact H2.
  - intros E. destruct s as [|a s]; [contradiction|]. cbn [map hd] in E. inversion H; subst.
    assert (a = 48).
    { unfold to_lower, upper_digit in *. destruct (Z.leb_spec 65 a), (Z.leb_spec a 90); cbn [andb] in E; lia. }
    subst. rewrite H3 by reflexivity. reflexivity.
Qed.

(** the standard library's decimal output of a [usize] *)
Lemma std_digits_ok : forall fuel v acc w u, 0 <= v < Z.of_nat fuel -> Forall upper_digit acc -> numval 10 acc = Some w ->
  u = v * 10 ^ Z.of_nat (length acc) + w -> (acc = [] \/ 1 <= v) ->
  canonical 10 u (std_digits fuel v acc) /\ Forall upper_digit (std_digits fuel v acc).
Proof.
  induction fuel as [|fuel IH]; intros v acc w u Hv HF Hw Hu H1; [lia|]. cbn [std_digits].
  assert (HD : forall d, 0 <= d < 10 -> digit_in 10 (48 + d) = Some d).
  { intros d Hd. rewrite digit10. destruct (Z.leb_spec 48 (48 + d)), (Z.leb_spec (48 + d) 57); try lia. cbn [andb]. f_equal. lia. }
  destruct (Z.ltb_spec v 10).
  - split; [|constructor; auto; unfold upper_digit; lia]. split; [discriminate|]. split.
    + unfold numval. cbn [horner]. rewrite HD by lia. rewrite horner_lin, Hw. cbn. f_equal. lia.
    + cbn [hd]. intros E. destruct H1 as [->|H1]; [f_equal; lia|lia].
  - pose proof (Z.mod_pos_bound v 10 ltac:(lia)). pose proof (Z.div_mod v 10 ltac:(lia)) as D.
    apply IH with (w := v mod 10 * 10 ^ Z.of_nat (length acc) + w).
    + split; [apply Z.div_pos; lia|]. apply Z.div_lt_upper_bound; lia.
    + constructor; auto. unfold upper_digit. lia.
    + unfold numval. cbn [horner]. rewrite HD by lia. rewrite horner_lin, Hw. reflexivity.
    + rewrite Hu. cbn [length]. rewrite Nat2Z.inj_succ, Z.pow_succ_r by lia. rewrite D at 1. ring.
    + right. apply Z.div_le_lower_bound; lia.
Qed.
Lemma std_display_ok : forall v, 0 <= v -> canonical 10 v (std_display v) /\ Forall upper_digit (std_display v).
Proof.
  intros v Hv. unfold std_display. apply std_digits_ok with (w := 0); auto; [lia|].
  change (Z.of_nat (length [])) with 0. rewrite Z.pow_0_r. lia.
Qed.

Section P.
Context {c : Cfg}.
Hypothesis HV : Valid.

Lemma buf_length : Z.of_nat (length BUF) = BITS.
Proof. unfold BUF. rewrite repeat_length. pose proof (BITS_pos HV). lia. Qed.
Lemma u_str : forall x radix, wf x -> 2 <= radix <= 36 ->
  exists i s, to_str_radix false x BUF radix = Ok (firstn i BUF ++ s, i) /\ slice (firstn i BUF ++ s, i) = s /\
    (i + length s = length BUF)%nat /\ canonical radix (uval x) s /\ Forall upper_digit s.
Proof.
  intros x radix Hx Hr. pose proof (uval_range HV x Hx).
  destruct (to_str_radix_ok HV false x BUF radix) as (i & s & E & L & C & U); auto; [cbn [val]; lia|cbn [b2z]; rewrite buf_length; lia|].
  exists i, s. repeat (split; auto). unfold slice. cbn [fst snd].
  rewrite skipn_app. rewrite skipn_all2 by (rewrite firstn_length; lia). rewrite firstn_length.
  replace (i - Nat.min i (length BUF))%nat with 0%nat by lia. reflexivity.
Qed.
Lemma u_display_ok : forall x, wf x -> exists s, u_display x = Ok (Some s) /\ canonical 10 (uval x) s /\ Forall upper_digit s.
Proof.
  intros x Hx. destruct (u_str x 10 Hx ltac:(lia)) as (i & s & E & Es & L & C & U). exists s. split; auto.
  unfold u_display. rewrite E. cbn [bind]. rewrite Es, upper_ascii by auto. reflexivity.
Qed.
Definition prefix (f : fmt) (tag : Z) : list Z := if alternate f then [48; tag] else [].
Lemma u_binary_octal_ok : forall radix tag x f, 2 <= radix <= 36 -> wf x ->
  exists s, u_binary_octal radix tag x f = Ok (Some (prefix f tag ++ padding f (Z.of_nat (length s)) ++ s)) /\
    canonical radix (uval x) s /\ Forall upper_digit s.
Proof.
  intros radix tag x f Hr Hx. destruct (u_str x radix Hx Hr) as (i & s & E & Es & L & C & U). exists s. split; auto.
  unfold u_binary_octal. rewrite E. cbn [bind]. rewrite Es, upper_ascii by auto. reflexivity.
Qed.
Lemma hex_slice : forall (case : Z -> Z) i (s : list Z), (i + length s = length BUF)%nat ->
  skipn (length (firstn i BUF ++ s) - length s) (map case (firstn i BUF ++ s)) = map case s.
Proof.
  intros case i s L. rewrite map_app, app_length, firstn_length. replace (Nat.min i (length BUF) + length s - length s)%nat with i by lia.
  rewrite skipn_app. rewrite skipn_all2 by (rewrite map_length, firstn_length; lia). rewrite map_length, firstn_length.
  replace (i - Nat.min i (length BUF))%nat with 0%nat by lia. reflexivity.
Qed.
Lemma u_lower_hex_ok : forall x f, wf x ->
  exists s, u_lower_hex x f = Ok (Some (prefix f 120 ++ padding f (Z.of_nat (length s)) ++ s)) /\
    canonical 16 (uval x) s /\ Forall lower_digit s.
Proof.
  intros x f Hx. destruct (u_str x 16 Hx ltac:(lia)) as (i & s & E & Es & L & C & U). exists (map to_lower s).
  split; [|split; [apply canonical_lower; auto|apply map_lower; auto]].
  unfold u_lower_hex, u_hex. rewrite E. cbn [bind]. cbn zeta. rewrite Es. cbn [fst]. rewrite hex_slice by auto.
  rewrite lower_ascii by (apply map_lower; auto). rewrite map_length. reflexivity.
Qed.
Lemma u_upper_hex_ok : forall x f, wf x ->
  exists s, u_upper_hex x f = Ok (Some (prefix f 120 ++ padding f (Z.of_nat (length s)) ++ s)) /\
    canonical 16 (uval x) s /\ Forall upper_digit s.
Proof.
  intros x f Hx. destruct (u_str x 16 Hx ltac:(lia)) as (i & s & E & Es & L & C & U). exists s.
  split; auto. unfold u_upper_hex, u_hex. rewrite E. cbn [bind]. cbn zeta. rewrite Es. cbn [fst]. rewrite hex_slice by auto.
  rewrite map_upper, upper_ascii by auto. reflexivity.
Qed.
Lemma u_exp_ok : forall tag x, wf x ->
  exists d t e, u_exp tag x = Ok (Some (d :: 46 :: t ++ tag :: e)) /\
    canonical 10 (uval x) (d :: t) /\ Forall upper_digit (d :: t) /\
    canonical 10 (Z.of_nat (length t)) e /\ Forall upper_digit e.
Proof.
  intros tag x Hx. destruct (u_str x 10 Hx ltac:(lia)) as (i & s & E & Es & L & C & U).
  destruct s as [|d t]; [destruct C; contradiction|]. exists d, t, (std_display (Z.of_nat (length t))).
  destruct (std_display_ok (Z.of_nat (length t)) ltac:(lia)). split; [|auto].
  unfold u_exp. rewrite E. cbn [bind]. cbn zeta. rewrite Es. rewrite upper_ascii by (inversion U; auto).
  cbn [length]. replace (Z.of_nat (S (length t)) - 1) with (Z.of_nat (length t)) by lia. reflexivity.
Qed.
Definition sign_str (f : fmt) (v : Z) : list Z := if v <? 0 then [45] else if sign_plus f then [43] else [].
Lemma s_signed_ok : forall inner x f, wf x ->
  s_signed inner x f = let* r := inner (ofZ (Z.abs (sval x))) in
    Ok (option_map (fun s => sign_str f (sval x) ++ s) r).
Proof.
  intros inner x f Hx. unfold s_signed. rewrite (is_negative_ok HV), (unsigned_abs_ok HV) by auto. cbn [bind].
  destruct (inner _) as [[s|]| |]; reflexivity.
Qed.
Lemma abs_uval : forall x, wf x -> uval (ofZ (Z.abs (sval x))) = Z.abs (sval x).
Proof.
  intros x Hx. apply (val_ofZ_small HV false). cbn. pose proof (sval_range HV x Hx) as R. pose proof (pBhalf HV). unfold fits_s, fits_u in *. lia.
Qed.
Lemma s_wrapping_ok : forall inner x f, wf x -> s_wrapping inner x f = inner x f.
Proof. intros inner x f Hx. unfold s_wrapping, as_unsigned. rewrite <- (ofZ_uval HV x Hx), (mk_ok HV). reflexivity. Qed.
End P.
