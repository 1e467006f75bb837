(** * Proofs: from the parser's results to numerals *)

Require Import ZArith List Bool Lia.
From Verif Require Import Prim Spec Facts MCore PCore MArith PArith PArith2 MScalar PScalar TextSpec MApi MParse PParse.
Import ListNotations.
Local Open Scope Z_scope.

(** ** Reading digits *)

Lemma horner_app : forall radix p acc q,
  horner radix acc (p ++ q) = match horner radix acc p with Some v => horner radix v q | None => None end.
Proof.
  intros radix p. induction p as [|ch t IH]; intros acc q; cbn [horner app]; [reflexivity|].
  destruct (digit_in radix ch); auto.
Qed.
Lemma horner_ge : forall radix s acc v, 1 <= radix -> 0 <= acc -> horner radix acc s = Some v -> acc <= v.
Proof.
  intros radix s. induction s as [|ch t IH]; intros acc v Hr Ha; cbn [horner].
  - intros E. inversion E. lia.
  - destruct (digit_in radix ch) as [d|] eqn:E; [|discriminate]. pose proof (digit_in_range _ _ _ E). intros H'.
    apply IH in H'; nia.
Qed.
Lemma horner_nonneg : forall radix s v, 1 <= radix -> numval radix s = Some v -> 0 <= v.
Proof. intros radix s v Hr H. apply (horner_ge radix s 0 v); auto; lia. Qed.
Lemma horner_lin : forall radix s acc, horner radix acc s =
  option_map (fun v => acc * radix ^ Z.of_nat (length s) + v) (numval radix s).
Proof.
  intros radix s. unfold numval. induction s as [|ch t IH]; intros acc; cbn [horner length option_map].
  - f_equal. change (Z.of_nat 0) with 0. ring.
  - destruct (digit_in radix ch) as [d|]; [|reflexivity]. rewrite IH, (IH (0 * radix + d)).
    destruct (horner radix 0 t); cbn [option_map]; [|reflexivity]. f_equal.
    rewrite Nat2Z.inj_succ, Z.pow_succ_r by lia. ring.
Qed.
Lemma numval_bound : forall radix s v, 2 <= radix -> numval radix s = Some v -> 0 <= v < radix ^ Z.of_nat (length s).
Proof.
  intros radix s v Hr. revert v. induction s as [|ch t IH]; intros v H.
  - inversion H. cbn. lia.
  - cbn [numval horner] in H. unfold numval in H. cbn [horner] in H. destruct (digit_in radix ch) as [d|] eqn:E; [|discriminate].
    pose proof (digit_in_range _ _ _ E). rewrite horner_lin in H. destruct (numval radix t) as [u|]; [|discriminate].
    inversion H. specialize (IH u eq_refl). cbn [length]. rewrite Nat2Z.inj_succ, Z.pow_succ_r by lia. nia.
Qed.

(** ** Scanning *)

Lemma scan_value : forall lim radix s acc v, 1 <= radix -> 0 <= acc <= lim ->
  (scan lim radix acc s = Value v <-> horner radix acc s = Some v /\ v <= lim).
Proof.
  intros lim radix s. induction s as [|ch t IH]; intros acc v Hr Ha; cbn [scan horner].
  - split; [intros E; inversion E; subst; split; auto; lia|intros [E _]; inversion E; auto].
  - destruct (digit_in radix ch) as [d|] eqn:E; [|split; [discriminate|intros [? _]; discriminate]].
    pose proof (digit_in_range _ _ _ E). destruct (Z.leb_spec (acc * radix + d) lim).
    + apply IH; auto. nia.
    + split; [discriminate|]. intros [H' HL]. apply horner_ge in H'; nia.
Qed.
(** the reading stops at [ch], after a prefix [p] of value [u] *)
Definition stops (radix acc : Z) (s p : list Z) (ch u : Z) : Prop :=
  (exists t, s = p ++ ch :: t) /\ horner radix acc p = Some u.
Lemma scan_bad : forall lim radix s acc, 1 <= radix -> 0 <= acc <= lim ->
  (scan lim radix acc s = BadDigit <->
   exists p ch u, stops radix acc s p ch u /\ u <= lim /\ digit_in radix ch = None).
Proof.
  intros lim radix s. induction s as [|ch t IH]; intros acc Hr Ha; cbn [scan].
  - split; [discriminate|]. intros (p & ch & u & ((t & E) & _) & _). destruct p; discriminate.
  - destruct (digit_in radix ch) as [d|] eqn:E.
    + pose proof (digit_in_range _ _ _ E). destruct (Z.leb_spec (acc * radix + d) lim) as [L|L].
      * rewrite IH by (auto; nia). split.
        -- intros (p & ch' & u & ((t' & ->) & Hp) & Hu & Hd). exists (ch :: p), ch', u. split; auto.
           split; [exists t'; reflexivity|]. cbn [horner]. rewrite E. auto.
        -- intros (p & ch' & u & ((t' & Et) & Hp) & Hu & Hd). destruct p as [|b p]; cbn in Et; inversion Et; subst.
           { congruence. }
           cbn [horner] in Hp. rewrite E in Hp. exists p, ch', u. split; auto. split; [exists t'; reflexivity|auto].
      * split; [discriminate|]. intros (p & ch' & u & ((t' & Et) & Hp) & Hu & Hd). destruct p as [|b p]; cbn in Et; inversion Et; subst.
        { congruence. }
        cbn [horner] in Hp. rewrite E in Hp. apply horner_ge in Hp; nia.
    + split; auto. intros _. exists [], ch, acc. split; [split; [exists t; reflexivity|reflexivity]|]. split; auto. lia.
Qed.
Lemma scan_large : forall lim radix s acc, 1 <= radix -> 0 <= acc <= lim ->
  (scan lim radix acc s = TooLarge <->
   exists p ch u d, stops radix acc s p ch u /\ u <= lim /\ digit_in radix ch = Some d /\ lim < u * radix + d).
Proof.
  intros lim radix s. induction s as [|ch t IH]; intros acc Hr Ha; cbn [scan].
  - split; [discriminate|]. intros (p & ch & u & d & ((t & E) & _) & _). destruct p; discriminate.
  - destruct (digit_in radix ch) as [d|] eqn:E.
    + pose proof (digit_in_range _ _ _ E). destruct (Z.leb_spec (acc * radix + d) lim) as [L|L].
      * rewrite IH by (auto; nia). split.
        -- intros (p & ch' & u & d' & ((t' & ->) & Hp) & Hu & Hd & Hl). exists (ch :: p), ch', u, d'. split; auto.
           split; [exists t'; reflexivity|]. cbn [horner]. rewrite E. auto.
        -- intros (p & ch' & u & d' & ((t' & Et) & Hp) & Hu & Hd & Hl). destruct p as [|b p]; cbn in Et; inversion Et; subst.
           { rewrite E in Hd. inversion Hd; subst. cbn in Hp. inversion Hp; subst. lia. }
           cbn [horner] in Hp. rewrite E in Hp. exists p, ch', u, d'. split; auto. split; [exists t'; reflexivity|auto].
      * split; auto. intros _. exists [], ch, acc, d. split; [split; [exists t; reflexivity|reflexivity]|]. split; [lia|]. auto.
    + split; [discriminate|]. intros (p & ch' & u & d' & ((t' & Et) & Hp) & Hu & Hd & Hl). destruct p as [|b p]; cbn in Et; inversion Et; subst.
      { congruence. }
      cbn [horner] in Hp. rewrite E in Hp. discriminate.
Qed.

(** negative numerals: where the unnoticed step does not occur, the reading is
    that of magnitudes up to [h] *)
Definition unnoticed (h k radix acc : Z) (s p : list Z) (ch u : Z) : Prop :=
  stops radix acc s p ch u /\ u <= h /\ digit_in radix ch <> None /\ h < u * radix < h + k.
Lemma scan_neg_plain : forall h k radix s acc, 1 <= radix -> 0 <= acc <= h ->
  (forall p ch u, ~ unnoticed h k radix acc s p ch u) ->
  scan_neg h k radix acc s = match scan h radix acc s with Value v => Value (- v) | r => r end.
Proof.
  intros h k radix s. induction s as [|ch t IH]; intros acc Hr Ha HN; cbn [scan scan_neg]; [reflexivity|].
  destruct (digit_in radix ch) as [d|] eqn:E; [|reflexivity]. pose proof (digit_in_range _ _ _ E).
  destruct (Z.leb_spec (acc * radix + d) h) as [L|L].
  - apply IH; auto; [nia|]. intros p ch' u (((t' & ->) & Hp) & Hu & Hd & Hw). apply (HN (ch :: p) ch' u).
    split; [split; [exists t'; reflexivity|]|auto]. cbn [horner]. rewrite E. auto.
  - destruct (Z.ltb_spec h (acc * radix)); [|reflexivity]. destruct (Z.ltb_spec (acc * radix) (h + k)); [|reflexivity].
    exfalso. apply (HN [] ch acc). split; [split; [exists t; reflexivity|reflexivity]|]. split; [lia|]. split; [congruence|lia].
Qed.
(** where it does occur, at [ch] *)
Lemma scan_neg_unnoticed : forall h k radix p acc ch d t u, 1 <= radix -> 0 <= acc ->
  horner radix acc p = Some u -> u <= h -> digit_in radix ch = Some d -> h < u * radix < h + k ->
  scan_neg h k radix acc (p ++ ch :: t) =
  match t with
  | [] => Value (2 * h - (u * radix + d))
  | ch' :: _ => match digit_in radix ch' with Some _ => TooLarge | None => BadDigit end
  end.
Proof.
  intros h k radix p. induction p as [|b p IH]; intros acc ch d t u Hr Ha Hp Hu Hd Hw; cbn [scan_neg app].
  - cbn in Hp. inversion Hp; subst. rewrite Hd. pose proof (digit_in_range _ _ _ Hd).
    destruct (Z.leb_spec (u * radix + d) h); [lia|]. destruct (Z.ltb_spec h (u * radix)); [|lia].
    destruct (Z.ltb_spec (u * radix) (h + k)); [|lia]. reflexivity.
  - cbn [horner] in Hp. destruct (digit_in radix b) as [e|] eqn:E; [|discriminate]. pose proof (digit_in_range _ _ _ E).
    pose proof Hp as Hge. apply horner_ge in Hge; [|auto|nia].
    destruct (Z.leb_spec (acc * radix + e) h); [|lia]. apply IH; auto. nia.
Qed.

(** ** Signs *)

Lemma digit_no_sign : forall radix, digit_in radix 43 = None /\ digit_in radix 45 = None.
Proof. intros radix. split; reflexivity. Qed.
Lemma numval_no_sign : forall radix b t, b = 43 \/ b = 45 -> numval radix (b :: t) = None.
Proof. intros radix b t [-> | ->]; reflexivity. Qed.

(** the digits after an optional plus *)
Definition strip_plus (s : list Z) : list Z := match s with b :: t => if b =? 43 then t else s | [] => s end.

Lemma numeral_pos : forall sg radix s v, hd 0 s <> 45 ->
  (numeral sg radix s v <-> strip_plus s <> [] /\ numval radix (strip_plus s) = Some v).
Proof.
  intros sg radix s v Hs. unfold numeral. split.
  - intros (body & Hb & [[[-> | ->] Hn]|(_ & -> & _)]).
    + destruct body as [|b t]; [contradiction|]. cbn [strip_plus]. destruct (Z.eqb_spec b 43) as [->|]; [|auto].
      rewrite numval_no_sign in Hn by auto. discriminate.
    + cbn. auto.
    + cbn in Hs. lia.
  - intros [Hne Hn]. exists (strip_plus s). split; auto. left. split; auto.
    destruct s as [|b t]; [left; reflexivity|]. cbn [strip_plus]. destruct (Z.eqb_spec b 43) as [->|]; auto.
Qed.
Lemma numeral_neg : forall radix t v, numeral true radix (45 :: t) v <-> t <> [] /\ numval radix t = Some (- v).
Proof.
  intros radix t v. unfold numeral. split.
  - intros (body & Hb & [[[<- | E] Hn]|(_ & E & Hn)]).
    + rewrite numval_no_sign in Hn by auto. discriminate.
    + inversion E.
    + inversion E; subst. auto.
  - intros [H1 H2]. exists t. split; auto.
Qed.
Lemma numeral_neg_u : forall radix t v, ~ numeral false radix (45 :: t) v.
Proof.
  intros radix t v (body & Hb & [[[<- | E] Hn]|(E & _)]).
  - rewrite numval_no_sign in Hn by auto. discriminate.
  - inversion E.
  - discriminate.
Qed.

Section P.
Context {c : Cfg}.
Hypothesis HV : Valid.

Lemma parse_result_pos : forall sg radix s, s <> [] -> hd 0 s <> 45 ->
  parse_result sg radix s = from_scan false (scan (hi_of sg) radix 0 (strip_plus s)).
Proof.
  intros sg radix s Hs H. destruct s as [|b t]; [contradiction|]. unfold parse_result, scan_result. cbn [strip_plus].
  cbn [hd] in H. destruct (b =? 43); [reflexivity|]. destruct (Z.eqb_spec b 45); [contradiction|reflexivity].
Qed.
Lemma parse_result_neg : forall radix t,
  parse_result true radix (45 :: t) = from_scan true (scan_neg (2 ^ (BITS - 1)) (2 ^ (BITS - W)) radix 0 t).
Proof. reflexivity. Qed.
Lemma hi_nonneg : forall sg, 0 <= hi_of sg.
Proof. intros sg. pose proof (pBh HV). pose proof (pB HV). destruct sg; cbn [hi_of]; lia. Qed.
Lemma fits_hi : forall sg v, 0 <= v -> (fits sg v <-> v <= hi_of sg).
Proof. intros sg v Hv. pose proof (pBh HV). destruct sg; cbn; unfold fits_u, fits_s; lia. Qed.

(** ** FromStr *)

Lemma digit10 : forall ch, digit_in 10 ch = if (48 <=? ch) && (ch <=? 57) then Some (ch - 48) else None.
Proof.
  intros ch. rewrite digit_in_radix_le by lia. destruct (Z.leb_spec 48 ch), (Z.ltb_spec ch (48 + 10)), (Z.leb_spec ch 57); cbn [andb]; auto; lia.
Qed.
Lemma std_loop_ok : forall (lo hi : Z) (neg : bool) (s : list Z) (acc : Z), lo <= 0 <= hi -> 0 <= acc ->
  (acc + 1) * 10 ^ Z.of_nat (length s) <= (if neg then - lo else hi) + 1 ->
  std_loop lo hi neg s (signz neg acc) =
  match horner 10 acc s with Some v => inl (signz neg v) | None => inr EInvalidDigit end.
Proof.
  intros lo hi neg s. induction s as [|ch t IH]; intros acc Hlo Ha Hl; [reflexivity|]. cbn [std_loop horner].
  rewrite digit10. destruct (Z.leb_spec 48 ch); [|reflexivity]. destruct (Z.leb_spec ch 57); [|reflexivity]. cbn [andb].
  cbn [length] in Hl. rewrite Nat2Z.inj_succ, Z.pow_succ_r in Hl by lia.
  assert (P : 1 <= 10 ^ Z.of_nat (length t)) by (apply Z.pow_le_mono_r with (b := 0) (c := Z.of_nat (length t)) (a := 10); lia).
  set (d := ch - 48) in *. assert (Hd : 0 <= d < 10) by (unfold d; lia).
  assert (Hstep : (acc * 10 + d + 1) * 10 ^ Z.of_nat (length t) <= (if neg then - lo else hi) + 1).
  { apply Z.le_trans with ((acc + 1) * (10 * 10 ^ Z.of_nat (length t))); auto. nia. }
  assert (Hb : acc * 10 + d <= (if neg then - lo else hi)) by nia.
  rewrite <- IH by (auto; lia). destruct neg; cbn [signz] in *; cbn zeta.
  - destruct (Z.leb_spec lo (- acc * 10)); [|lia]. destruct (Z.leb_spec (- acc * 10) hi).
    + destruct (Z.leb_spec lo (- acc * 10 - d)); [|lia]. destruct (Z.leb_spec (- acc * 10 - d) hi); [|lia]. cbn [andb]. f_equal. lia.
    + lia.
  - destruct (Z.leb_spec lo (acc * 10)); [|lia]. destruct (Z.leb_spec (acc * 10) hi); [|lia].
    destruct (Z.leb_spec lo (acc * 10 + d)); [|lia]. destruct (Z.leb_spec (acc * 10 + d) hi); [|lia]. cbn [andb]. reflexivity.
Qed.
(** the short strings handled by the standard library *)
Definition short_result (sg : bool) (s : list Z) : Z + perr :=
  match s with
  | [] => inr EEmpty
  | b :: t =>
      let body := if (b =? 43) || (sg && (b =? 45)) then t else s in
      match body with
      | [] => inr EInvalidDigit
      | _ => match numval 10 body with
             | Some v => inl (signz (sg && (b =? 45)) v)
             | None => inr EInvalidDigit
             end
      end
  end.
Lemma std_from_str_ok : forall (bits : Z) (sg : bool) (s : list Z) (n : Z), 1 <= bits -> Z.of_nat (length s) <= n ->
  10 ^ n <= 2 ^ (if sg then bits - 1 else bits) ->
  std_from_str sg bits s = short_result sg s.
Proof.
  intros bits sg s n Hb Hn HL. unfold std_from_str, short_result. destruct s as [|b t]; [reflexivity|].
  assert (HP : 0 < 2 ^ (bits - 1)) by (apply pow2_pos; lia).
  assert (HP' : 0 < 2 ^ bits) by (apply pow2_pos; lia).
  assert (Hlen : forall u : list Z, (length u <= length (b :: t))%nat -> 10 ^ Z.of_nat (length u) <= 2 ^ (if sg then bits - 1 else bits)).
  { intros u Hu. apply Z.le_trans with (10 ^ n); auto. apply Z.pow_le_mono_r; lia. }
  set (lo := if sg then - 2 ^ (bits - 1) else 0). set (hi := if sg then 2 ^ (bits - 1) - 1 else 2 ^ bits - 1).
  assert (Hlh : lo <= 0 <= hi) by (unfold lo, hi; destruct sg; lia).
  assert (Hcap : forall (neg : bool) (u : list Z), (neg = true -> sg = true) -> (length u <= length (b :: t))%nat ->
     (0 + 1) * 10 ^ Z.of_nat (length u) <= (if neg then - lo else hi) + 1).
  { intros neg u Hs Hu. specialize (Hlen u Hu). unfold lo, hi. destruct neg.
    - rewrite (Hs eq_refl) in *. lia.
    - destruct sg; lia. }
  destruct ((b =? 43) || (sg && (b =? 45))) eqn:E.
  - destruct t as [|b' t']; [reflexivity|].
    assert (Hneg : (b =? 45) = sg && (b =? 45)).
    { destruct (Z.eqb_spec b 45); [|rewrite andb_false_r; reflexivity]. subst. destruct sg; [reflexivity|discriminate]. }
    rewrite <- Hneg.
    pose proof (std_loop_ok lo hi (b =? 45) (b' :: t') 0 Hlh (Z.le_refl 0)) as L.
    replace (signz (b =? 45) 0) with 0 in L by (destruct (b =? 45); reflexivity). rewrite L; [reflexivity|].
    apply Hcap; [|cbn; lia]. intros H. rewrite H in Hneg. symmetry in Hneg. apply andb_true_iff in Hneg. tauto.
  - apply orb_false_iff in E. destruct E as [_ E]. rewrite E.
    pose proof (std_loop_ok lo hi false (b :: t) 0 Hlh (Z.le_refl 0)) as L. cbn [signz] in L.
    rewrite L; [reflexivity|]. apply (Hcap false (b :: t)); [discriminate|auto].
Qed.
Lemma short_numeral : forall sg s v, short_result sg s = inl v <-> numeral sg 10 s v.
Proof.
  intros sg s v. destruct s as [|b t].
  - cbn. split; [discriminate|]. intros (body & Hb & [[[<- | E] _]|(_ & E & _)]); [contradiction| |]; discriminate.
  - destruct (Z.eq_dec b 45) as [->|Hb].
    + unfold short_result. change (45 =? 43) with false. change (45 =? 45) with true. rewrite andb_true_r. cbn [orb].
      destruct sg.
      * rewrite numeral_neg. destruct t as [|b' t']; [split; [discriminate|intros [? _]; contradiction]|].
        destruct (numval 10 (b' :: t')) as [u|].
        -- cbn [signz]. split; [intros E; inversion E; split; [discriminate|f_equal; lia]|intros [_ E]; inversion E; f_equal; lia].
        -- split; [discriminate|intros [_ ?]; discriminate].
      * rewrite numval_no_sign by auto. split; [discriminate|]. intros H. exfalso. exact (numeral_neg_u _ _ _ H).
    + rewrite numeral_pos by (cbn; auto). unfold short_result, strip_plus.
      destruct (Z.eqb_spec b 45); [contradiction|]. rewrite andb_false_r, orb_false_r. cbn [signz].
      assert (HH : forall body, match body with [] => inr EInvalidDigit | _ => match numval 10 body with Some v => inl v | None => inr EInvalidDigit end end = inl v
         <-> body <> [] /\ numval 10 body = Some v).
      { intros body. destruct body as [|x y]; [split; [discriminate|intros [? _]; contradiction]|].
        destruct (numval 10 (x :: y)); [|split; [discriminate|intros [_ ?]; discriminate]].
        split; [intros E; inversion E; split; [discriminate|reflexivity]|intros [_ E]; inversion E; reflexivity]. }
      destruct (Z.eqb_spec b 43); [apply HH|apply (HH (b :: t))].
Qed.
Lemma short_error : forall sg s e, short_result sg s = inr e -> e = match s with [] => EEmpty | _ => EInvalidDigit end.
Proof.
  intros sg s e. unfold short_result. destruct s as [|b t]; [intros E; inversion E; auto|]. cbn zeta.
  destruct (if (b =? 43) || (sg && (b =? 45)) then t else b :: t); [intros E; inversion E; auto|].
  destruct (numval 10 _); [discriminate|intros E; inversion E; auto].
Qed.
Lemma short_bound : forall sg s v, short_result sg s = inl v -> Z.abs v < 10 ^ Z.of_nat (length s) /\ (sg = false -> 0 <= v).
Proof.
  intros sg s v H. apply short_numeral in H. destruct H as (body & Hb & H).
  assert (Hl : forall u, numval 10 body = Some u -> (length body <= length s)%nat -> Z.abs u < 10 ^ Z.of_nat (length s) /\ 0 <= u).
  { intros u Hu Hn. apply numval_bound in Hu; [|lia]. assert (10 ^ Z.of_nat (length body) <= 10 ^ Z.of_nat (length s)) by (apply Z.pow_le_mono_r; lia). lia. }
  destruct H as [[[-> | ->] Hn]|(-> & -> & Hn)].
  - apply Hl in Hn; [|lia]. split; [|intros _]; lia.
  - apply Hl in Hn; [|cbn [length]; lia]. split; [|intros _]; lia.
  - apply Hl in Hn; [|cbn [length]; lia]. split; [lia|discriminate].
Qed.
Lemma from_str_short : forall small sg s, (length s < 39)%nat ->
  from_str small sg s = Ok (match short_result sg s with inl v => POk (ofZ v) | inr e => PErr e end).
Proof.
  intros small sg s Hs. unfold from_str. cbn zeta.
  assert (HZ : Z.of_nat (length s) < 39) by lia.
  assert (Hpow : forall m, Z.of_nat (length s) <= m -> 10 ^ Z.of_nat (length s) <= 10 ^ m) by (intros; apply Z.pow_le_mono_r; lia).
  assert (HI : forall v m b, short_result sg s = inl v -> Z.of_nat (length s) <= m -> 10 ^ m <= 2 ^ (b - 1) -> 1 <= b -> fits_s b v).
  { intros v m b Hv Hm Hb Hb1. apply short_bound in Hv. specialize (Hpow m Hm). unfold fits_s. lia. }
  assert (HU : forall v m b, sg = false -> short_result sg s = inl v -> Z.of_nat (length s) <= m -> 10 ^ m <= 2 ^ b -> fits_u b v).
  { intros v m b Hg Hv Hm Hb. apply short_bound in Hv. specialize (Hpow m Hm). destruct Hv as [V1 V2]. specialize (V2 Hg). unfold fits_u. lia. }
  destruct (small && (Z.of_nat (length s) <? (if sg then 19 else 20))) eqn:E.
  - apply andb_true_iff in E. destruct E as [_ E]. apply Z.ltb_lt in E. destruct sg.
    + rewrite (std_from_str_ok 64 true s 18) by (auto; try lia; vm_compute; discriminate).
      destruct (short_result true s) as [v|e] eqn:Es; [|reflexivity]. cbn [via_std].
      rewrite (from_i64_ok HV); [reflexivity|]. apply (HI v 18 64); auto; try lia; vm_compute; discriminate.
    + rewrite (std_from_str_ok 64 false s 19) by (auto; try lia; vm_compute; discriminate).
      destruct (short_result false s) as [v|e] eqn:Es; [|reflexivity]. cbn [via_std].
      rewrite (from_u64_ok HV); [reflexivity|]. apply (HU v 19 64); auto; try lia; vm_compute; discriminate.
  - destruct (Z.ltb_spec (Z.of_nat (length s)) 39) as [_|]; [|lia]. destruct sg.
    + rewrite (std_from_str_ok 128 true s 38) by (auto; try lia; vm_compute; discriminate).
      destruct (short_result true s) as [v|e] eqn:Es; [|reflexivity]. cbn [via_std].
      rewrite (from_i128_ok HV); [reflexivity|]. apply (HI v 38 128); auto; try lia; vm_compute; discriminate.
    + rewrite (std_from_str_ok 128 false s 38) by (auto; try lia; vm_compute; discriminate).
      destruct (short_result false s) as [v|e] eqn:Es; [|reflexivity]. cbn [via_std].
      rewrite (from_u128_ok HV); [reflexivity|]. apply (HU v 38 128); auto; try lia; vm_compute; discriminate.
Qed.
Lemma from_str_long : forall small sg s, (39 <= length s)%nat -> from_str small sg s = from_str_radix sg s 10.
Proof.
  intros small sg s Hs. unfold from_str. cbn zeta. destruct (Z.ltb_spec (Z.of_nat (length s)) 39); [lia|].
  destruct sg.
  - destruct (Z.ltb_spec (Z.of_nat (length s)) 19); [lia|]. rewrite andb_false_r. reflexivity.
  - destruct (Z.ltb_spec (Z.of_nat (length s)) 20); [lia|]. rewrite andb_false_r. reflexivity.
Qed.
End P.
