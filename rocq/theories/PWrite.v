(** * Proofs: writing numbers *)

Require Import ZArith Znumtheory List Bool Lia.
From Verif Require Import Prim Spec Facts MShift MCore PCore PBits PWide MArith PArith PArith2 PPow
  DivSpec MScalar PScalar PScalarDiv TextSpec MApi MParse PParse PParse2 MWrite.
Import ListNotations.
Local Open Scope Z_scope.

(** the character of a digit *)
Definition chr (d : Z) : Z := if d <? 10 then 48 + d else 55 + d.
Lemma chr_digit : forall radix d, radix <= 36 -> 0 <= d < radix -> digit_in radix (chr d) = Some d.
Proof.
  intros radix d Hr Hd. unfold chr, digit_in, digit_of. destruct (Z.ltb_spec d 10).
  - destruct (Z.leb_spec 48 (48 + d)); [|lia]. destruct (Z.leb_spec (48 + d) 57); [|lia]. cbn [andb].
    destruct (Z.ltb_spec (48 + d - 48) radix); [|lia]. f_equal. lia.
  - destruct (Z.leb_spec (55 + d) 57); [lia|]. rewrite andb_false_r.
    destruct (Z.leb_spec 65 (55 + d)); [|lia]. destruct (Z.leb_spec (55 + d) 90); [|lia]. cbn [andb].
    destruct (Z.ltb_spec (55 + d - 55) radix); [|lia]. f_equal. lia.
Qed.
Lemma chr_upper : forall d, 0 <= d < 36 -> upper_digit (chr d).
Proof. intros d Hd. unfold chr, upper_digit. destruct (Z.ltb_spec d 10); lia. Qed.
Lemma chr_zero : forall d, 0 <= d < 36 -> chr d = 48 -> d = 0.
Proof. intros d Hd. unfold chr. destruct (Z.ltb_spec d 10); lia. Qed.

(** ** Canonical numerals are unique *)

Lemma upper_unique : forall radix a b d, upper_digit a -> upper_digit b ->
  digit_in radix a = Some d -> digit_in radix b = Some d -> a = b.
Proof.
  intros radix a b d Ha Hb. unfold digit_in, digit_of, upper_digit in *.
  destruct (Z.leb_spec 48 a), (Z.leb_spec a 57), (Z.leb_spec 65 a), (Z.leb_spec a 90), (Z.leb_spec 97 a), (Z.leb_spec a 122); try lia; cbn [andb];
  destruct (Z.leb_spec 48 b), (Z.leb_spec b 57), (Z.leb_spec 65 b), (Z.leb_spec b 90), (Z.leb_spec 97 b), (Z.leb_spec b 122); try lia; cbn [andb];
  repeat match goal with |- context [?x <? ?y] => destruct (x <? y) end; intros E1 E2; inversion E1; inversion E2; lia.
Qed.
Lemma numval_snoc : forall radix s ch v, numval radix (s ++ [ch]) = Some v ->
  exists u d, numval radix s = Some u /\ digit_in radix ch = Some d /\ v = u * radix + d.
Proof.
  intros radix s ch v H. unfold numval in *. rewrite horner_app in H. destruct (horner radix 0 s) as [u|]; [|discriminate].
  cbn [horner] in H. destruct (digit_in radix ch) as [d|]; [|discriminate]. inversion H. eauto.
Qed.
(** two digit strings of one length *)
Lemma same_length_unique : forall radix s t v, 2 <= radix -> Forall upper_digit s -> Forall upper_digit t ->
  length s = length t -> numval radix s = Some v -> numval radix t = Some v -> s = t.
Proof.
  intros radix s. induction s as [|a s IH] using rev_ind; intros t v Hr Hs Ht HL Es Et.
  - destruct t; [auto|discriminate].
  - destruct t as [|b t _] using rev_ind; [rewrite app_length in HL; cbn in HL; lia|].
    rewrite !app_length in HL. cbn in HL. apply Forall_app in Hs. apply Forall_app in Ht. destruct Hs as [Hs Ha], Ht as [Ht Hb].
    inversion Ha; inversion Hb; subst.
    apply numval_snoc in Es. apply numval_snoc in Et. destruct Es as (u & d & E1 & E2 & ->), Et as (u' & d' & E3 & E4 & E5).
    pose proof (digit_in_range _ _ _ E2). pose proof (digit_in_range _ _ _ E4).
    destruct (Z.div_mod_unique radix u u' d d') as [<- <-]; [lia|lia|lia|].
    rewrite (IH t u) by (auto; lia). rewrite (upper_unique radix a b d); auto.
Qed.
Lemma canonical_low : forall radix v s, 2 <= radix -> Forall upper_digit s -> canonical radix v s ->
  s = [48] \/ radix ^ (Z.of_nat (length s) - 1) <= v.
Proof.
  intros radix v s Hr Hu (Hne & Hn & Hz). destruct s as [|a s]; [contradiction|]. cbn [hd] in Hz.
  unfold numval in Hn. cbn [horner] in Hn. destruct (digit_in radix a) as [d|] eqn:E; [|discriminate].
  pose proof (digit_in_range _ _ _ E). rewrite horner_lin in Hn. destruct (numval radix s) as [u|] eqn:Eu; [|discriminate].
  cbn [option_map] in Hn. inversion Hn. apply numval_bound in Eu; [|lia]. destruct (Z.eq_dec d 0) as [->|Hd].
  - left. apply Hz. inversion Hu; subst. unfold digit_in, digit_of, upper_digit in *.
    destruct (Z.leb_spec 48 a), (Z.leb_spec a 57), (Z.leb_spec 65 a), (Z.leb_spec a 90), (Z.leb_spec 97 a), (Z.leb_spec a 122); try lia; cbn [andb] in E;
    repeat match goal with H : context [?x <? ?y] |- _ => destruct (x <? y) end; inversion E; lia.
  - right. cbn [length]. replace (Z.of_nat (S (length s)) - 1) with (Z.of_nat (length s)) by lia. nia.
Qed.
Lemma canonical_unique : forall radix v s t, 2 <= radix -> Forall upper_digit s -> Forall upper_digit t ->
  canonical radix v s -> canonical radix v t -> s = t.
Proof.
  intros radix v s t Hr Hs Ht Cs Ct. destruct (canonical_low radix v s Hr Hs Cs) as [->|Ls], (canonical_low radix v t Hr Ht Ct) as [->|Lt]; auto.
  - destruct Cs as (_ & E & _). unfold numval, horner, digit_in, digit_of in E. change (48 - 48 <? radix) with (0 <? radix) in E. cbn in E.
    destruct (Z.ltb_spec 0 radix); [|lia]. inversion E; subst. destruct Ct as (Hne & _).
    destruct t; [contradiction|]. assert (0 < radix ^ (Z.of_nat (length (z :: t)) - 1)) by (apply Z.pow_pos_nonneg; cbn [length]; lia). lia.
  - destruct Ct as (_ & E & _). unfold numval, horner, digit_in, digit_of in E. change (48 - 48 <? radix) with (0 <? radix) in E. cbn in E.
    destruct (Z.ltb_spec 0 radix); [|lia]. inversion E; subst. destruct Cs as (Hne & _).
    destruct s; [contradiction|]. assert (0 < radix ^ (Z.of_nat (length (z :: s)) - 1)) by (apply Z.pow_pos_nonneg; cbn [length]; lia). lia.
  - destruct Cs as (Ns & Es & _), Ct as (Nt & Et & _). apply (same_length_unique radix s t v); auto.
    apply numval_bound in Es; [|lia]. apply numval_bound in Et; [|lia].
    assert (Hlt : forall p q : nat, radix ^ (Z.of_nat p - 1) <= v -> v < radix ^ Z.of_nat q -> (p <= q)%nat).
    { intros p q H1 H2. destruct (Nat.le_gt_cases p q); auto. exfalso.
      assert (radix ^ Z.of_nat q <= radix ^ (Z.of_nat p - 1)) by (apply Z.pow_le_mono_r; lia). lia. }
    pose proof (Hlt _ _ Ls (proj2 Et)). pose proof (Hlt _ _ Lt (proj2 Es)). lia.
Qed.

Section P.
Context {c : Cfg}.
Hypothesis HV : Valid.

Lemma digit_to_char_ok : forall d radix, 2 <= radix <= 36 -> 0 <= d < radix -> digit_to_char d radix = Ok (chr d).
Proof.
  intros d radix Hr Hd. unfold digit_to_char, chr. assert (E : ucast 8 d = d) by (unfold ucast; apply Z.mod_small; change (2 ^ 8) with 256; lia).
  rewrite E. destruct (Z.ltb_spec d 10).
  - rewrite orb_true_r. unfold uadd. rewrite uchk_ok by (change (2 ^ 8) with 256; lia). f_equal. lia.
  - destruct (Z.leb_spec radix 10); [lia|]. cbn [orb]. unfold uadd, usub. rewrite uchk_ok by (change (2 ^ 8) with 256; lia). cbn [bind].
    rewrite uchk_ok by (change (2 ^ 8) with 256; lia). f_equal. lia.
Qed.

Lemma skipn_upd : forall (l : list Z) i v, (i < length l)%nat -> skipn i (upd l i v) = v :: skipn (S i) l.
Proof. induction l as [|a l IH]; intros [|i] v H; cbn in *; try lia; auto. rewrite IH by lia. reflexivity. Qed.
Lemma firstn_upd : forall (l : list Z) i v, firstn i (upd l i v) = firstn i l.
Proof. induction l as [|a l IH]; intros [|i] v; cbn; auto. rewrite IH. reflexivity. Qed.
Lemma length_upd' : forall (l : list Z) i v, length (upd l i v) = length l.
Proof. induction l as [|a l IH]; intros [|i] v; cbn; auto. Qed.

(** the digits [t] after [u], of the value [v] *)
Definition split_at (radix v u : Z) (t : list Z) : Prop :=
  Forall upper_digit t /\ exists w, numval radix t = Some w /\ v = u * radix ^ Z.of_nat (length t) + w.
Lemma split_cons : forall radix v u t, 2 <= radix <= 36 -> 0 <= u -> split_at radix v u t ->
  split_at radix v (u / radix) (chr (u mod radix) :: t).
Proof.
  intros radix v u t Hr Hu (HF & w & Hw & ->). pose proof (Z.mod_pos_bound u radix ltac:(lia)).
  split; [constructor; auto; apply chr_upper; lia|]. exists (u mod radix * radix ^ Z.of_nat (length t) + w). split.
  - unfold numval. cbn [horner]. rewrite chr_digit by lia. rewrite horner_lin, Hw. cbn. f_equal. 
  - cbn [length]. rewrite Nat2Z.inj_succ, Z.pow_succ_r by lia. pose proof (Z.div_mod u radix ltac:(lia)) as D.
    rewrite D at 1. ring.
Qed.

Lemma write_loop_ok : forall sg radix v start fuel u index buffer, 2 <= radix <= 36 ->
  (1 <= start)%nat -> 0 <= u -> fits sg u -> (index <= fuel)%nat -> (start <= index <= length buffer)%nat ->
  split_at radix v u (skipn index buffer) -> (skipn index buffer = [] \/ 1 <= u) ->
  exists u' index' buffer', write_loop fuel sg (ofZ radix) start radix (ofZ u) index buffer = Ok (ofZ u', index', buffer') /\
    0 <= u' <= u /\ (start <= index' <= index)%nat /\ length buffer' = length buffer /\ (u' < radix \/ index' = start) /\
    split_at radix v u' (skipn index' buffer') /\ (skipn index' buffer' = [] \/ 1 <= u') /\
    firstn index' buffer' = firstn index' buffer.
Proof.
  intros sg radix v start fuel. induction fuel as [|fuel IH]; intros u index buffer Hr Hst Hu Hf Hfu Hi Hs H1; [lia|].
  assert (Fr : fits sg radix).
  { pose proof (pBh HV). pose proof (pBhalf HV). assert (2 ^ 127 <= 2 ^ (BITS - 1)) by (apply pow2_le_mono; pose proof (BITS_ge HV); lia).
    assert (36 < 2 ^ 127) by (vm_compute; reflexivity). destruct sg; cbn; [unfold fits_s; lia|unfold fits_u; lia]. }
  cbn [write_loop]. rewrite (ge_const_ok HV) by apply (wf_ofZ HV). rewrite !(val_ofZ_small HV) by auto. cbn [bind].
  destruct (Z.leb_spec radix u) as [L|L].
  2:{ cbn [andb]. exists u, index, buffer. repeat (split; auto; try lia). }
  destruct (Nat.ltb_spec start index) as [Li|Li].
  2:{ cbn [andb]. exists u, index, buffer. repeat (split; auto; try lia). }
  cbn [andb]. destruct index as [|j]; [lia|]. cbn [idx_pred bind].
  rewrite (ucast_limb HV) by lia.
  assert (HP36 : fits_u (kbits KLimb) radix).
  { cbn [kbits]. unfold fits_u. pose proof (W_cases HV). assert (2 ^ 32 <= 2 ^ W) by (apply pow2_le_mono; lia).
    assert (36 < 2 ^ 32) by (vm_compute; reflexivity). lia. }
  rewrite (div_rem_us_ok HV); [|apply (wf_ofZ HV)|lia|exact HP36|left; cbn [kbits]; lia].
  rewrite (val_ofZ_small HV) by auto. cbn [bind]. pose proof (Z.mod_pos_bound u radix ltac:(lia)).
  assert (Eu : ucast 32 (u mod radix) = u mod radix).
  { unfold ucast. apply Z.mod_small. assert (36 < 2 ^ 32) by (vm_compute; reflexivity). lia. }
  rewrite Eu, digit_to_char_ok by lia. cbn [bind]. rewrite set_ok by lia. cbn [bind].
  assert (Hd : 1 <= u / radix) by (apply Z.div_le_lower_bound; lia).
  assert (Hd' : u / radix <= u) by (apply Z.div_le_upper_bound; nia).
  destruct (IH (u / radix) j (upd buffer j (chr (u mod radix)))) as (u' & i' & b' & E & Q1 & Q2 & Q3 & Q4 & Q5 & Q6 & Q7); auto; try lia.
  - clear -Hf Hd Hd' Hu. destruct sg; cbn in *; unfold fits_s, fits_u in *; lia.
  - rewrite length_upd'. lia.
  - rewrite skipn_upd by lia. apply split_cons; auto.
  - exists u', i', b'. split; auto. rewrite length_upd' in Q3. repeat (split; auto; try lia).
    rewrite Q7. replace (firstn i' (upd buffer j (chr (u mod radix)))) with (firstn i' (firstn j (upd buffer j (chr (u mod radix)))))
      by (rewrite firstn_firstn; f_equal; lia). rewrite firstn_upd, firstn_firstn. f_equal. lia.
Qed.

Lemma limb0_ok : forall v, get_limb (ofZ v) 0 = Ok (v mod 2 ^ W).
Proof.
  intros v. unfold get_limb, ofZ. pose proof (N_ge4 HV). destruct N as [|n]; [lia|]. reflexivity.
Qed.
Lemma radix_fits : forall sg radix, 2 <= radix <= 36 -> fits sg radix.
Proof.
  intros sg radix Hr. pose proof (pBh HV). pose proof (pBhalf HV). assert (2 ^ 127 <= 2 ^ (BITS - 1)) by (apply pow2_le_mono; pose proof (BITS_ge HV); lia).
  assert (36 < 2 ^ 127) by (vm_compute; reflexivity). destruct sg; cbn; [unfold fits_s; lia|unfold fits_u; lia].
Qed.
Lemma limit_ok : forall radix, 2 <= radix <= 36 -> from_u32 radix = Ok (ofZ radix).
Proof. intros radix Hr. apply (from_u32_ok HV). unfold fits_u. assert (36 < 2 ^ 32) by (vm_compute; reflexivity). lia. Qed.
Lemma negative_ok : forall (sg : bool) x, wf x ->
  (if sg then let* z := from_u8 0 in lt_const true x z else Ok false) = Ok (sg && (val sg x <? 0)).
Proof.
  intros sg x Hx. destruct sg; [|reflexivity]. rewrite (from_u8_ok HV) by (unfold fits_u; lia). cbn [bind].
  rewrite (lt_const_ok HV) by (auto; apply (wf_ofZ HV)). rewrite (val_ofZ_small HV) by apply (fits_0 HV). reflexivity.
Qed.
Lemma firstn_skipn_eq : forall (l m : list Z) i, firstn i l = firstn i m -> l = firstn i m ++ skipn i l.
Proof. intros l m i H. rewrite <- H. symmetry. apply firstn_skipn. Qed.

Lemma to_str_radix_ok : forall sg x buffer radix, wf x -> 0 <= val sg x -> 2 <= radix <= 36 ->
  BITS + b2z sg <= Z.of_nat (length buffer) ->
  exists i s, to_str_radix sg x buffer radix = Ok (firstn i buffer ++ s, i) /\ (i + length s = length buffer)%nat /\
    canonical radix (val sg x) s /\ Forall upper_digit s.
Proof.
  intros sg x buffer radix Hx Hv Hr HL. unfold to_str_radix.
  destruct (Z.ltb_spec radix 2); [lia|]. destruct (Z.ltb_spec 36 radix); [lia|]. cbn [orb].
  destruct (Z.ltb_spec (Z.of_nat (length buffer)) (BITS + b2z sg)); [lia|].
  rewrite negative_ok by auto. destruct (Z.ltb_spec (val sg x) 0); [lia|]. rewrite andb_false_r. cbn [bind].
  rewrite limit_ok by auto. cbn [bind]. pose proof (BITS_ge HV) as HB.
  assert (Hlb : (1 <= length buffer)%nat) by (destruct sg; cbn [b2z] in HL; lia).
  assert (Ex : x = ofZ (val sg x)) by (destruct sg; cbn [val]; symmetry; [apply (ofZ_sval HV)|apply (ofZ_uval HV)]; auto).
  pose proof (fits_val HV sg x Hx) as Fv. set (v := val sg x) in *.
  destruct (write_loop_ok sg radix v 1 (length buffer) v (length buffer) buffer) as (u & i & b & E & Q1 & Q2 & Q3 & Q4 & Q5 & Q6 & Q7); auto; try lia.
  { rewrite skipn_all. split; [constructor|]. exists 0. split; [reflexivity|]. change (Z.of_nat (length [])) with 0. rewrite Z.pow_0_r. lia. }
  { left. apply skipn_all. }
  rewrite <- Ex in E. rewrite E. cbn [bind]. clear E.
  assert (Hlen : length (skipn i b) = (length buffer - i)%nat) by (rewrite skipn_length; lia).
  assert (Hb2 : 0 <= b2z sg) by (destruct sg; cbn; lia).
  assert (Hur : u < radix).
  { destruct Q4 as [Q4|Q4]; auto. destruct Q5 as (_ & w & Hw & Hveq). apply numval_bound in Hw; [|lia]. rewrite Hlen, Q4 in Hveq.
    assert (2 ^ (BITS + b2z sg - 1) <= radix ^ Z.of_nat (length buffer - 1)).
    { apply Z.le_trans with (2 ^ Z.of_nat (length buffer - 1)); [apply pow2_le_mono; lia|apply Z.pow_le_mono_l; lia]. }
    pose proof (pBh HV). pose proof (pBhalf HV). destruct (Z.lt_ge_cases u radix) as [|Hge]; auto. exfalso.
    set (X := radix ^ Z.of_nat (length buffer - 1)) in *. assert (2 * X <= u * X) by (apply Z.mul_le_mono_nonneg_r; lia).
    destruct sg; cbn [b2z] in *; unfold fits, fits_s, fits_u in Fv.
    - replace (BITS + 1 - 1) with BITS in * by lia. lia.
    - replace (BITS + 0 - 1) with (BITS - 1) in * by lia. lia. }
  assert (Fu : fits sg u) by (destruct sg; cbn in *; unfold fits_s, fits_u in *; lia).
  rewrite (lt_const_ok HV) by apply (wf_ofZ HV). rewrite !(val_ofZ_small HV) by (auto using radix_fits). cbn [bind].
  destruct (Z.ltb_spec u radix); [|lia]. cbn [assert_ bind]. destruct i as [|j]; [lia|]. cbn [idx_pred bind].
  rewrite limb0_ok. cbn [bind].
  assert (Eu : ucast 32 (u mod 2 ^ W) = u).
  { pose proof (W_cases HV). assert (2 ^ 32 <= 2 ^ W) by (apply pow2_le_mono; lia). assert (36 < 2 ^ 32) by (vm_compute; reflexivity).
    unfold ucast. rewrite (Z.mod_small u) by lia. apply Z.mod_small. lia. }
  rewrite Eu, digit_to_char_ok by lia. cbn [bind]. rewrite set_ok by lia. cbn [bind].
  exists j, (chr u :: skipn (S j) b).
  assert (HS : skipn j (upd b j (chr u)) = chr u :: skipn (S j) b) by (apply skipn_upd; lia).
  assert (HF : firstn j (upd b j (chr u)) = firstn j buffer).
  { rewrite firstn_upd. replace (firstn j b) with (firstn j (firstn (S j) b)) by (rewrite firstn_firstn; f_equal; lia).
    rewrite Q7, firstn_firstn. f_equal. lia. }
  split; [rewrite <- HS, <- (firstn_skipn_eq (upd b j (chr u)) buffer j HF); reflexivity|].
  split; [cbn [length]; rewrite Hlen; lia|]. destruct Q5 as (Q5 & w & Hw & Hveq).
  split; [|constructor; auto; apply chr_upper; lia].
  split; [discriminate|]. split.
  - unfold numval. cbn [horner]. rewrite chr_digit by lia. rewrite horner_lin, Hw. cbn [option_map]. f_equal. rewrite Hveq. ring.
  - cbn [hd]. intros Hc. apply chr_zero in Hc; [|lia]. destruct Q6 as [Q6|Q6]; [|lia]. rewrite Q6, Hc. reflexivity.
Qed.
Lemma to_str_radix_negative : forall x buffer radix, wf x -> sval x < 0 -> 2 <= radix <= 36 ->
  BITS + 1 <= Z.of_nat (length buffer) ->
  to_str_radix true x buffer radix =
  let* ch := digit_to_char (sval x mod 2 ^ 32) radix in
  Ok (firstn (length buffer - 2) buffer ++ [45; ch], (length buffer - 2)%nat).
Proof.
  intros x buffer radix Hx Hv Hr HL. unfold to_str_radix.
  destruct (Z.ltb_spec radix 2); [lia|]. destruct (Z.ltb_spec 36 radix); [lia|]. cbn [orb b2z].
  destruct (Z.ltb_spec (Z.of_nat (length buffer)) (BITS + 1)); [lia|].
  rewrite (negative_ok true) by auto. cbn [val andb]. destruct (Z.ltb_spec (sval x) 0); [|lia]. cbn [bind].
  rewrite limit_ok by auto. cbn [bind]. pose proof (BITS_ge HV) as HB.
  assert (E : write_loop (length buffer) true (ofZ radix) 2 radix x (length buffer) buffer = Ok (x, length buffer, buffer)).
  { destruct buffer as [|b0 b]; [cbn in HL; lia|]. cbn [length write_loop].
    rewrite (ge_const_ok HV) by (auto; apply (wf_ofZ HV)). rewrite (val_ofZ_small HV) by (auto using radix_fits). cbn [val bind].
    destruct (Z.leb_spec radix (sval x)); [lia|]. reflexivity. }
  rewrite E. cbn [bind]. rewrite (lt_const_ok HV) by (auto; apply (wf_ofZ HV)). rewrite (val_ofZ_small HV) by (auto using radix_fits).
  cbn [val bind]. destruct (Z.ltb_spec (sval x) radix); [|lia]. cbn [assert_ bind].
  destruct (length buffer) as [|[|n]] eqn:EL; [lia|lia|]. cbn [idx_pred bind].
  rewrite <- (ofZ_sval HV x Hx) at 1. rewrite limb0_ok. cbn [bind].
  assert (Eu : ucast 32 (sval x mod 2 ^ W) = sval x mod 2 ^ 32).
  { unfold ucast. destruct (W_cases HV) as [-> | ->]; [apply Z.mod_mod; vm_compute; discriminate|].
    symmetry. apply Zmod_div_mod; try (vm_compute; reflexivity). exists (2 ^ 32). reflexivity. }
  rewrite Eu. destruct (digit_to_char _ _) as [ch| |]; cbn [bind]; auto. rewrite set_ok by lia. cbn [bind idx_pred].
  rewrite set_ok by (rewrite length_upd'; lia). cbn [bind]. replace (S (S n) - 2)%nat with n by lia. f_equal. f_equal.
  rewrite <- (firstn_skipn n (upd (upd buffer (S n) ch) n 45)). rewrite skipn_upd by (rewrite length_upd'; lia).
  rewrite firstn_upd. f_equal.
  - replace (firstn n (upd buffer (S n) ch)) with (firstn n (firstn (S n) (upd buffer (S n) ch))) by (rewrite firstn_firstn; f_equal; lia).
    rewrite firstn_upd, firstn_firstn. f_equal. lia.
  - f_equal. rewrite skipn_upd by lia. rewrite skipn_all2 by lia. reflexivity.
Qed.
Lemma to_str_radix_panic : forall sg x buffer radix, ~ (2 <= radix <= 36 /\ BITS + b2z sg <= Z.of_nat (length buffer)) ->
  to_str_radix sg x buffer radix = Panic.
Proof.
  intros sg x buffer radix H. unfold to_str_radix. destruct (Z.ltb_spec radix 2); [reflexivity|]. destruct (Z.ltb_spec 36 radix); [reflexivity|].
  cbn [orb]. destruct (Z.ltb_spec (Z.of_nat (length buffer)) (BITS + b2z sg)); [reflexivity|lia].
Qed.
(** the character written for a negative number *)
Definition off (radix d : Z) : Z := if (radix <=? 10) || (d <? 10) then 48 else 55.
Lemma digit_to_char_any : forall d radix, 0 <= d < 2 ^ 32 ->
  digit_to_char d radix =
  if chk && (256 <=? d mod 256 + (if (radix <=? 10) || (d <? 10) then 48 else 65)) then Panic
  else Ok ((d + off radix d) mod 256).
Proof.
  intros d radix Hd. unfold digit_to_char, off, uadd, usub, uchk, in_u, ucast. change (2 ^ 8) with 256.
  pose proof (Z.mod_pos_bound d 256 ltac:(lia)).
  destruct ((radix <=? 10) || (d <? 10)).
  - destruct (Z.leb_spec 0 (d mod 256 + 48)); [|lia]. destruct (Z.ltb_spec (d mod 256 + 48) 256), (Z.leb_spec 256 (d mod 256 + 48)); try lia; cbn [andb].
    + rewrite andb_false_r. f_equal. rewrite <- Zplus_mod_idemp_l. symmetry. apply Z.mod_small. lia.
    + rewrite andb_true_r. destruct chk; auto. f_equal. apply Zplus_mod_idemp_l.
  - destruct (Z.leb_spec 0 (d mod 256 + 65)); [|lia]. destruct (Z.ltb_spec (d mod 256 + 65) 256), (Z.leb_spec 256 (d mod 256 + 65)); try lia; cbn [andb].
    + rewrite andb_false_r. cbn [bind]. destruct (Z.leb_spec 0 (d mod 256 + 65 - 10)); [|lia]. destruct (Z.ltb_spec (d mod 256 + 65 - 10) 256); [|lia]. cbn [andb].
      f_equal. rewrite <- (Zplus_mod_idemp_l d). rewrite (Z.mod_small (d mod 256 + 55)) by lia. lia.
    + rewrite andb_true_r. destruct chk; auto. cbn [bind]. set (a := (d mod 256 + 65) mod 256).
      assert (Ha : (a - 10) mod 256 = (d + 55) mod 256).
      { unfold a. rewrite Zminus_mod_idemp_l. replace (d mod 256 + 65 - 10) with (d mod 256 + 55) by lia. apply Zplus_mod_idemp_l. }
      pose proof (Z.mod_pos_bound (d mod 256 + 65) 256 ltac:(lia)). fold a in H2.
      destruct (Z.leb_spec 0 (a - 10)); cbn [andb]; [|f_equal; auto]. destruct (Z.ltb_spec (a - 10) 256); [|f_equal; auto].
      f_equal. rewrite <- Ha. symmetry. apply Z.mod_small. lia.
Qed.
End P.
