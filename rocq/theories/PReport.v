(** * Proofs: printing the benchmark results *)

Require Import ZArith List Bool Lia Floats.SpecFloat.
From Verif Require Import TextSpec PParse PParse2 MReport.
Import ListNotations.
Local Open Scope Z_scope.

(** ** Digits *)

Lemma digit10_ok : forall d, 0 <= d < 10 -> digit_in 10 (48 + d) = Some d.
Proof.
  intros d H. unfold digit_in, digit_of.
  destruct (Z.leb_spec 48 (48 + d)), (Z.leb_spec (48 + d) 57); try lia. cbn [andb].
  replace (48 + d - 48) with d by lia. destruct (Z.ltb_spec d 10); [reflexivity|lia].
Qed.
Lemma dec_from_ok : forall fuel n acc, 0 <= n < 2 ^ Z.of_nat fuel ->
  (0 < fuel)%nat -> exists D, dec_from fuel n acc = D ++ acc /\ canonical 10 n D.
Proof.
  induction fuel as [|fuel IH]; intros n acc Hn Hf; [lia|]. cbn [dec_from]. cbv zeta.
  pose proof (Z.mod_pos_bound n 10 ltac:(lia)). pose proof (Z.div_mod n 10 ltac:(lia)).
  destruct (Z.eqb_spec (n / 10) 0) as [E|E].
  - exists [48 + n mod 10]. split; [reflexivity|]. split; [discriminate|]. split.
    + unfold numval. cbn [horner]. rewrite digit10_ok by lia. f_equal. lia.
    + cbn [hd]. intros E'. f_equal. lia.
  - assert (B : 0 <= n / 10 < 2 ^ Z.of_nat fuel).
    { split; [apply Z.div_pos; lia|]. apply Z.div_lt_upper_bound; [lia|].
      rewrite Nat2Z.inj_succ, Z.pow_succ_r in Hn by lia. lia. }
    destruct (IH (n / 10) (48 + n mod 10 :: acc) B) as (D & ED & CD).
    { destruct fuel; [|lia]. cbn in B. lia. }
    exists (D ++ [48 + n mod 10]). split; [rewrite ED, <- app_assoc; reflexivity|].
    destruct CD as (C1 & C2 & C3). split; [destruct D; discriminate|]. split.
    + unfold numval in *. rewrite horner_app, C2. cbn [horner]. rewrite digit10_ok by lia. f_equal. lia.
    + intros Eh. destruct D as [|a D]; [congruence|]. cbn [hd app] in *. specialize (C3 Eh). inversion C3; subst.
      unfold numval in C2. cbn in C2. inversion C2. congruence.
Qed.
Lemma dec_ok : forall n, 0 <= n -> canonical 10 n (dec n).
Proof.
  intros n Hn. unfold dec. destruct (dec_from_ok (S (Z.to_nat (Z.log2 n))) n []) as (D & E & C); [|lia|].
  - split; [lia|]. rewrite Nat2Z.inj_succ, Z2Nat.id by apply Z.log2_nonneg.
    destruct (Z.eq_dec n 0) as [->|]; [cbn; lia|]. apply Z.log2_spec. lia.
  - rewrite E, app_nil_r. exact C.
Qed.
Lemma dec3_ok : forall n, 0 <= n < 1000 -> numval 10 (dec3 n) = Some n.
Proof.
  intros n Hn. unfold dec3, numval. cbn [horner].
  pose proof (Z.mod_pos_bound n 10 ltac:(lia)). pose proof (Z.mod_pos_bound (n / 10) 10 ltac:(lia)).
  pose proof (Z.div_mod n 10 ltac:(lia)). pose proof (Z.div_mod (n / 10) 10 ltac:(lia)).
  assert (Q : n / 10 / 10 = n / 100) by (rewrite Z.div_div by lia; reflexivity).
  assert (0 <= n / 100 < 10) by (split; [apply Z.div_pos; lia | apply Z.div_lt_upper_bound; lia]).
  rewrite !digit10_ok by lia. f_equal. lia.
Qed.

(** ** Rounding *)

Lemma half_even_near : forall n d, 0 < d -> 2 * Z.abs (half_even n d * d - n) <= d.
Proof.
  intros n d Hd. unfold half_even. pose proof (Z.div_mod n d ltac:(lia)). pose proof (Z.mod_pos_bound n d Hd).
  destruct (Z.ltb_spec (2 * (n mod d)) d); [nia|]. destruct (Z.ltb_spec d (2 * (n mod d))); [nia|].
  destruct (Z.even (n / d)); nia.
Qed.
Lemma half_even_exact : forall k d, 0 < d -> half_even (k * d) d = k.
Proof.
  intros k d Hd. unfold half_even. rewrite Z.div_mul, Z.mod_mul by lia. destruct (Z.ltb_spec (2 * 0) d); lia.
Qed.
Lemma half_even_scale : forall n d s, 0 < d -> 0 < s -> half_even (n * s) (d * s) = half_even n d.
Proof.
  intros n d s Hd Hs. unfold half_even. rewrite Z.div_mul_cancel_r, Z.mul_mod_distr_r by lia.
  replace (2 * (n mod d * s)) with (2 * (n mod d) * s) by ring.
  destruct (Z.ltb_spec (2 * (n mod d)) d), (Z.ltb_spec (2 * (n mod d) * s) (d * s)); try nia.
  destruct (Z.ltb_spec d (2 * (n mod d))), (Z.ltb_spec (d * s) (2 * (n mod d) * s)); nia.
Qed.
Lemma half_even_mono : forall n1 n2 d, 0 < d -> n1 <= n2 -> half_even n1 d <= half_even n2 d.
Proof.
  intros n1 n2 d Hd H. unfold half_even.
  pose proof (Z.div_mod n1 d ltac:(lia)). pose proof (Z.mod_pos_bound n1 d Hd).
  pose proof (Z.div_mod n2 d ltac:(lia)). pose proof (Z.mod_pos_bound n2 d Hd).
  pose proof (Z.div_le_mono n1 n2 d Hd H) as Q.
  destruct (Z.eq_dec (n1 / d) (n2 / d)) as [E|E].
  - rewrite E in *. assert (n1 mod d <= n2 mod d) by lia.
    destruct (Z.ltb_spec (2 * (n1 mod d)) d), (Z.ltb_spec d (2 * (n1 mod d))),
      (Z.ltb_spec (2 * (n2 mod d)) d), (Z.ltb_spec d (2 * (n2 mod d))); try lia;
      destruct (Z.even (n2 / d)); lia.
  - destruct (2 * (n1 mod d) <? d), (d <? 2 * (n1 mod d)), (2 * (n2 mod d) <? d), (d <? 2 * (n2 mod d)),
      (Z.even (n1 / d)), (Z.even (n2 / d)); lia.
Qed.

(** ** Floating-point numbers *)

(** The value of a number in multiples of the smallest positive one, [2 ^ -1074]. *)
Definition one64 : Z := 2 ^ 1074.
Definition scaled (v : f64) : Z :=
  match v with
  | S754_finite s m e => (if s then - Zpos m else Zpos m) * 2 ^ (e + 1074)
  | _ => 0
  end.
Definition finite (v : f64) : Prop :=
  match v with S754_finite _ _ _ | S754_zero _ => True | _ => False end.

Lemma digits2_range : forall m, 2 ^ (Zpos (digits2_pos m) - 1) <= Zpos m < 2 ^ Zpos (digits2_pos m).
Proof.
  induction m as [m IH|m IH|]; cbn [digits2_pos]; [| |cbn; lia].
  - rewrite Pos2Z.inj_succ. replace (Z.succ (Zpos (digits2_pos m)) - 1) with (Z.succ (Zpos (digits2_pos m) - 1)) by lia.
    rewrite !Z.pow_succ_r by lia. rewrite (Pos2Z.inj_xI m). lia.
  - rewrite Pos2Z.inj_succ. replace (Z.succ (Zpos (digits2_pos m)) - 1) with (Z.succ (Zpos (digits2_pos m) - 1)) by lia.
    rewrite !Z.pow_succ_r by lia. rewrite (Pos2Z.inj_xO m). lia.
Qed.
Lemma digits2_eq : forall m d, 0 < d -> 2 ^ (d - 1) <= Zpos m < 2 ^ d -> Zpos (digits2_pos m) = d.
Proof.
  intros m d Hd H. pose proof (digits2_range m) as R.
  assert (d - 1 < Zpos (digits2_pos m)) by (apply (Z.pow_lt_mono_r_iff 2); lia).
  assert (Zpos (digits2_pos m) - 1 < d) by (apply (Z.pow_lt_mono_r_iff 2); lia). lia.
Qed.
Lemma ok_facts : forall s m e, f64_ok (S754_finite s m e) ->
  -1074 <= e <= 971 /\ Zpos m < 2 ^ 53 /\ (2 ^ 52 <= Zpos m \/ e = -1074).
Proof.
  intros s m e H. unfold f64_ok, valid_binary, bounded, canonical_mantissa, fexp, emin in H.
  apply andb_prop in H. destruct H as [H1 H2]. apply Zeq_bool_eq in H1. apply Zle_bool_imp_le in H2.
  pose proof (digits2_range m) as R.
  assert (D : Zpos (digits2_pos m) <= 53) by lia.
  assert (2 ^ Zpos (digits2_pos m) <= 2 ^ 53) by (apply Z.pow_le_mono_r; lia).
  split; [lia|]. split; [lia|].
  destruct (Z.eq_dec e (-1074)); [auto|left]. assert (Zpos (digits2_pos m) = 53) by lia.
  replace 52 with (Zpos (digits2_pos m) - 1) by lia. lia.
Qed.

Lemma pow_pos : forall k, 0 <= k -> 0 < 2 ^ k.
Proof. intros. apply Z.pow_pos_nonneg; lia. Qed.

Lemma lt_lex : forall s m1 e1 s' m2 e2, f64_ok (S754_finite s m1 e1) -> f64_ok (S754_finite s' m2 e2) -> e1 < e2 ->
  Zpos m1 * 2 ^ (e1 + 1074) < Zpos m2 * 2 ^ (e2 + 1074).
Proof.
  intros s m1 e1 s' m2 e2 H1 H2 He. apply ok_facts in H1. apply ok_facts in H2.
  assert (M2 : 2 ^ 52 <= Zpos m2) by lia.
  replace (e2 + 1074) with ((e1 + 1074) + 1 + (e2 - e1 - 1)) by lia.
  rewrite (Z.pow_add_r 2 (e1 + 1074 + 1)), (Z.pow_add_r 2 (e1 + 1074) 1) by lia.
  pose proof (pow_pos (e1 + 1074) ltac:(lia)). pose proof (pow_pos (e2 - e1 - 1) ltac:(lia)).
  change (2 ^ 1) with 2. assert (Zpos m1 < Zpos m2 * 2) by (change (2 ^ 53) with (2 * 2 ^ 52) in H1; lia).
  set (A := 2 ^ (e1 + 1074)) in *. set (C := 2 ^ (e2 - e1 - 1)) in *. clearbody A C.
  replace (Zpos m2 * (A * 2 * C)) with (Zpos m2 * 2 * A * C) by ring.
  apply Z.lt_le_trans with (Zpos m2 * 2 * A); [apply Z.mul_lt_mono_pos_r; lia|].
  replace (Zpos m2 * 2 * A) with (Zpos m2 * 2 * A * 1) at 1 by ring. apply Z.mul_le_mono_nonneg_l; lia.
Qed.
Lemma lt_ok : forall v m e, finite v -> f64_ok v -> f64_ok (S754_finite false m e) ->
  f64_lt v (S754_finite false m e) = (scaled v <? scaled (S754_finite false m e)).
Proof.
  intros v m e Hf Hv Hc. pose proof (ok_facts _ _ _ Hc) as Fc. pose proof (pow_pos (e + 1074) ltac:(lia)) as Pe.
  destruct v as [s|s| |s m1 e1]; try contradiction; unfold f64_lt, SFltb; cbn [SFcompare scaled].
  - symmetry. apply Z.ltb_lt. lia.
  - pose proof (ok_facts _ _ _ Hv) as F1. pose proof (pow_pos (e1 + 1074) ltac:(lia)).
    destruct s; [symmetry; apply Z.ltb_lt; nia|].
    destruct (Z.compare_spec e1 e) as [E|E|E].
    + subst e1. change (Pcompare m1 m Eq) with (Zpos m1 ?= Zpos m). unfold Z.ltb. rewrite (Zmult_compare_compat_r (Zpos m1) (Zpos m)) with (p := 2 ^ (e + 1074)) by lia.
      reflexivity.
    + symmetry. apply Z.ltb_lt. eapply lt_lex; eauto.
    + symmetry. apply Z.ltb_ge. apply Z.lt_le_incl. eapply lt_lex; eauto.
Qed.

(** Division with rounding to 53 bits: [n / d] in multiples of the smallest positive
    number, at least one. *)
Definition quotient64 (n d : Z) : Z :=
  let k := Z.log2 (n / d) - 52 in
  2 ^ k * half_even n (d * 2 ^ k).

Lemma digits_Z : forall m d, 0 < d -> 2 ^ (d - 1) <= m < 2 ^ d -> Zdigits2 m = d.
Proof.
  intros m d Hd H. pose proof (pow_pos (d - 1) ltac:(lia)). destruct m as [|m|m]; try lia. apply digits2_eq; auto.
Qed.
Lemma rne_zero : forall N b, 0 < b -> Z.even b = true -> 0 <= N ->
  let mrs := shr_record_of_loc (N / b) (new_location b (N mod b)) in
  round_nearest_even (shr_m mrs) (loc_of_shr_record mrs) = half_even N b.
Proof.
  intros N b Hb He HN. cbv zeta. unfold new_location. rewrite He. unfold new_location_even, half_even.
  pose proof (Z.mod_pos_bound N b Hb).
  destruct (Zeq_bool (N mod b) 0) eqn:E.
  - apply Zeq_bool_eq in E. rewrite E. cbn [shr_record_of_loc shr_m loc_of_shr_record round_nearest_even].
    destruct (Z.ltb_spec (2 * 0) b); lia.
  - apply Zeq_bool_neq in E. destruct (Z.compare_spec (2 * (N mod b)) b) as [C|C|C];
      cbn [shr_record_of_loc shr_m loc_of_shr_record round_nearest_even];
      destruct (Z.ltb_spec (2 * (N mod b)) b); try lia; destruct (Z.ltb_spec b (2 * (N mod b))); try lia; reflexivity.
Qed.
Lemma shr_1_eq : forall m r s, 0 <= m -> shr_1 (Build_shr_record m r s) = Build_shr_record (m / 2) (Z.odd m) (orb r s).
Proof.
  intros m r s Hm. destruct m as [|p|p]; [reflexivity| |lia]. destruct p as [p|p|]; cbn [shr_1 Z.odd].
  - f_equal. rewrite Pos2Z.inj_xI. apply Z.div_unique with 1; lia.
  - f_equal. rewrite Pos2Z.inj_xO. apply Z.div_unique with 0; lia.
  - reflexivity.
Qed.
Lemma loc_rs : forall l m, exists r s, shr_record_of_loc m l = Build_shr_record m r s /\ (orb r s = false <-> l = loc_Exact).
Proof.
  intros [|[]] m; cbn; do 2 eexists; (split; [reflexivity|]); cbn; split; intros; congruence.
Qed.
Lemma rne_one : forall N b, 0 < b -> Z.even b = true -> 0 <= N ->
  let mrs := shr_1 (shr_record_of_loc (N / b) (new_location b (N mod b))) in
  round_nearest_even (shr_m mrs) (loc_of_shr_record mrs) = half_even N (b * 2).
Proof.
  intros N b Hb He HN. cbv zeta. destruct (loc_rs (new_location b (N mod b)) (N / b)) as (r & s & E & L). rewrite E.
  rewrite shr_1_eq by (apply Z.div_pos; lia).
  assert (X : orb r s = negb (N mod b =? 0)).
  { unfold new_location in L. rewrite He in L. unfold new_location_even in L.
    destruct (Z.eqb_spec (N mod b) 0) as [Z0|Z0].
    - rewrite Z0 in L. apply L. reflexivity.
    - destruct (Zeq_bool (N mod b) 0) eqn:E0; [apply Zeq_bool_eq in E0; congruence|].
      destruct (orb r s); [reflexivity|]. destruct L as [L _]. specialize (L eq_refl). discriminate. }
  rewrite X. clear E L X r s. unfold half_even. cbn [shr_m].
  rewrite <- Z.div_div by lia. rewrite Z.rem_mul_r by lia.
  pose proof (Z.mod_pos_bound N b Hb). rewrite Zmod_odd. set (q := N / b) in *. set (r := N mod b) in *. clearbody q r.
  destruct (Z.odd q); cbn [loc_of_shr_record].
  - destruct (Z.eqb_spec r 0) as [->|Z0]; cbn [negb round_nearest_even].
    + replace (2 * (0 + b * 1)) with (b * 2) by ring. rewrite Z.ltb_irrefl. reflexivity.
    + destruct (Z.ltb_spec (2 * (r + b * 1)) (b * 2)); [lia|]. destruct (Z.ltb_spec (b * 2) (2 * (r + b * 1))); lia.
  - destruct (Z.ltb_spec (2 * (r + b * 0)) (b * 2)); [|lia]. destruct (Z.eqb_spec r 0); reflexivity.
Qed.
(** The second normalisation and the result. *)
Lemma finish : forall sx M e, 2 ^ 52 <= M <= 2 ^ 53 -> -1000 <= e <= 970 ->
  exists m' e', (let '(mrs, e'') := shr_fexp 53 1024 M e loc_Exact in
    match shr_m mrs with
    | Z0 => S754_zero sx
    | Zpos m => if Zle_bool e'' (1024 - 53) then S754_finite sx m e'' else S754_infinity sx
    | _ => S754_nan
    end) = S754_finite sx m' e' /\ e <= e' <= e + 1 /\ Zpos m' * 2 ^ (e' - e) = M /\ 2 ^ 52 <= Zpos m' < 2 ^ 53.
Proof.
  intros sx M e HM He. unfold shr_fexp, fexp, emin.
  destruct (Z.eq_dec M (2 ^ 53)) as [->|Hn].
  - rewrite (digits_Z (2 ^ 53) 54) by lia.
    replace (Z.max (54 + e - 53) (3 - 1024 - 53) - e) with 1 by lia. exists (2 ^ 52)%positive, (e + 1).
    cbn [shr iter_pos shr_record_of_loc]. rewrite shr_1_eq by lia. cbn [shr_m].
    change (2 ^ 53 / 2) with (Zpos (2 ^ 52)). replace (Zle_bool (e + 1) (1024 - 53)) with true by (symmetry; apply Zle_imp_le_bool; lia).
    split; [reflexivity|]. split; [lia|]. replace (e + 1 - e) with 1 by lia. split; [reflexivity|]. change (Zpos (2 ^ 52)) with (2 ^ 52). lia.
  - rewrite (digits_Z M 53) by lia. replace (Z.max (53 + e - 53) (3 - 1024 - 53) - e) with 0 by lia.
    cbn [shr shr_record_of_loc shr_m]. destruct M as [|m|m]; try lia.
    exists m, e. replace (Zle_bool e (1024 - 53)) with true by (symmetry; apply Zle_imp_le_bool; lia).
    split; [reflexivity|]. split; [lia|]. replace (e - e) with 0 by lia. split; [lia|lia].
Qed.
Lemma half_even_range : forall N d, 0 < d -> 2 ^ 52 * d <= N < 2 ^ 53 * d -> 2 ^ 52 <= half_even N d <= 2 ^ 53.
Proof.
  intros N d Hd H. split.
  - rewrite <- (half_even_exact (2 ^ 52) d Hd). apply half_even_mono; lia.
  - rewrite <- (half_even_exact (2 ^ 53) d Hd). apply half_even_mono; lia.
Qed.
Lemma div_ok : forall ma ea mb eb, 2 ^ 52 <= Zpos ma < 2 ^ 53 -> 2 ^ 52 <= Zpos mb < 2 ^ 53 -> Z.even (Zpos mb) = true ->
  eb <= ea -> ea <= 971 -> -50 <= eb -> eb <= 0 ->
  exists m e k, SFdiv 53 1024 (S754_finite false ma ea) (S754_finite false mb eb) = S754_finite false m e /\
    0 <= k <= 1 /\ (k = 0 <-> Zpos ma * 2 ^ 53 / Zpos mb < 2 ^ 53) /\ ea - eb - 53 + k <= e /\ e <= ea - eb - 53 + k + 1 /\
    Zpos m * 2 ^ (e - (ea - eb - 53 + k)) = half_even (Zpos ma * 2 ^ 53) (Zpos mb * 2 ^ k) /\ 2 ^ 52 <= Zpos m < 2 ^ 53.
Proof.
  intros ma ea mb eb Ha Hb He Hle Hmax Hb1 Hb2. unfold SFdiv. cbn [xorb].
  unfold SFdiv_core_binary. rewrite (digits_Z (Zpos ma) 53), (digits_Z (Zpos mb) 53) by lia.
  cbv zeta. assert (HF : Z.min (fexp 53 1024 (53 + ea - (53 + eb))) (ea - eb) = ea - eb - 53) by (unfold fexp, emin; lia).
  rewrite HF. replace (ea - eb - (ea - eb - 53)) with 53 by lia. rewrite Z.shiftl_mul_pow2 by lia.
  cbv iota beta. set (N := Zpos ma * 2 ^ 53).
  assert (HN : 2 ^ 52 * Zpos mb <= N < 2 ^ 54 * Zpos mb) by (unfold N; lia).
  pose proof (Z.div_mod N (Zpos mb) ltac:(lia)) as DM. pose proof (Z.mod_pos_bound N (Zpos mb) ltac:(lia)) as MB.
  assert (DE : Z.div_eucl N (Zpos mb) = (N / Zpos mb, N mod Zpos mb)) by (unfold Z.div, Z.modulo; destruct (Z.div_eucl N (Zpos mb)); reflexivity).
  rewrite DE. cbv iota beta. unfold binary_round_aux.
  assert (HQ : 2 ^ 52 <= N / Zpos mb < 2 ^ 54).
  { split; [apply Z.div_le_lower_bound; lia|apply Z.div_lt_upper_bound; lia]. }
  unfold shr_fexp at 1. unfold fexp at 1, emin.
  set (E := ea - eb - 53) in *. assert (HE : -53 <= E <= 968) by (unfold E; lia).
  destruct (Z_lt_le_dec (N / Zpos mb) (2 ^ 53)) as [C|C].
  - rewrite (digits_Z (N / Zpos mb) 53) by lia. replace (Z.max (53 + E - 53) (3 - 1024 - 53) - E) with 0 by lia.
    cbn [shr]. cbv zeta. rewrite rne_zero by (auto; lia).
    assert (HR : 2 ^ 52 <= half_even N (Zpos mb) <= 2 ^ 53).
    { apply half_even_range; [lia|]. assert (N < 2 ^ 53 * Zpos mb) by nia. lia. }
    destruct (finish false _ E HR ltac:(lia)) as (m' & e' & F1 & F2 & F3 & F4).
    exists m', e', 0. split; [exact F1|]. replace (E + 0) with E by lia. rewrite Z.pow_0_r, Z.mul_1_r.
    repeat split; auto; lia.
  - rewrite (digits_Z (N / Zpos mb) 54) by lia. replace (Z.max (54 + E - 53) (3 - 1024 - 53) - E) with 1 by lia.
    cbn [shr iter_pos]. cbv zeta. rewrite rne_one by (auto; lia).
    assert (HR : 2 ^ 52 <= half_even N (Zpos mb * 2) <= 2 ^ 53).
    { apply half_even_range; [lia|]. assert (2 ^ 53 * Zpos mb <= N) by nia. lia. }
    destruct (finish false _ (E + 1) HR ltac:(lia)) as (m' & e' & F1 & F2 & F3 & F4).
    exists m', e', 1. split; [exact F1|]. change (2 ^ 1) with 2.
    repeat split; auto; lia.
Qed.
Lemma div_scaled : forall v mb eb u, f64_ok v -> finite v -> f64_ok (S754_finite false mb eb) ->
  2 ^ 52 <= Zpos mb -> Z.even (Zpos mb) = true -> -50 <= eb <= 0 -> 0 < u -> Zpos mb = u * 2 ^ (- eb) ->
  scaled (S754_finite false mb eb) <= scaled v ->
  exists m e, f64_div v (S754_finite false mb eb) = S754_finite false m e /\ -1074 <= e /\
    scaled (S754_finite false m e) = quotient64 (scaled v) u /\ 2 ^ 1074 <= scaled v / u.
Proof.
  intros v mb eb u Hv Hfin Hc Hb He Hr Hu Hmb Hle. pose proof (ok_facts _ _ _ Hc) as Fc.
  pose proof (pow_pos (eb + 1074) ltac:(lia)) as Pb.
  destruct v as [s|s| |s ma ea]; try contradiction; [cbn [scaled] in Hle; nia|].
  pose proof (ok_facts _ _ _ Hv) as Fv. pose proof (pow_pos (ea + 1074) ltac:(lia)) as Pa.
  destruct s; [cbn [scaled] in Hle; nia|].
  assert (Ge : eb <= ea).
  { destruct (Z_le_gt_dec eb ea) as [H|H]; auto. exfalso.
    pose proof (lt_lex _ _ _ _ _ _ Hv Hc ltac:(lia)). cbn [scaled] in Hle. lia. }
  destruct (div_ok ma ea mb eb ltac:(lia) ltac:(lia) He Ge ltac:(lia) ltac:(lia) ltac:(lia))
    as (m & e & k & E1 & K & K0 & G1 & G2 & M & R).
  exists m, e. split; [exact E1|]. split; [lia|]. cbn [scaled].
  set (N := Zpos ma * 2 ^ 53) in *. set (E := ea - eb - 53 + 1074).
  pose proof (pow_pos (- eb) ltac:(lia)) as Pe. pose proof (pow_pos E ltac:(unfold E; lia)) as PE. pose proof (pow_pos k ltac:(lia)) as Pk.
  assert (VN : Zpos ma * 2 ^ (ea + 1074) * 2 ^ (- eb) = N * 2 ^ E).
  { unfold N. rewrite <- !Z.mul_assoc, <- !Z.pow_add_r by (unfold E; lia). f_equal. f_equal. unfold E. lia. }
  assert (NK : 2 ^ (52 + k) * Zpos mb <= N < 2 ^ (53 + k) * Zpos mb).
  { pose proof (Z.div_mod N (Zpos mb) ltac:(lia)) as DM. pose proof (Z.mod_pos_bound N (Zpos mb) ltac:(lia)) as MB.
    assert (C : k = 0 \/ k = 1) by lia. destruct C as [C|C]; subst k.
    - destruct K0 as [K0 _]. specialize (K0 eq_refl). change (2 ^ (52 + 0)) with (2 ^ 52). change (2 ^ (53 + 0)) with (2 ^ 53).
      split; [unfold N; lia|nia].
    - assert (2 ^ 53 <= N / Zpos mb) by (apply Z.nlt_ge; intros H; apply K0 in H; lia).
      change (2 ^ (52 + 1)) with (2 ^ 53). change (2 ^ (53 + 1)) with (2 ^ 54). split; [nia|unfold N; lia]. }
  assert (Q : Zpos ma * 2 ^ (ea + 1074) / u = N * 2 ^ E / Zpos mb).
  { rewrite <- VN, Hmb. rewrite Z.div_mul_cancel_r by lia. reflexivity. }
  assert (L : Z.log2 (Zpos ma * 2 ^ (ea + 1074) / u) = 52 + k + E).
  { rewrite Q. apply Z.log2_unique; [unfold E; lia|]. split.
    - apply Z.div_le_lower_bound; [lia|]. rewrite Z.pow_add_r by (unfold E; lia).
      replace (Zpos mb * (2 ^ (52 + k) * 2 ^ E)) with (2 ^ (52 + k) * Zpos mb * 2 ^ E) by ring.
      apply Z.mul_le_mono_nonneg_r; lia.
    - apply Z.div_lt_upper_bound; [lia|]. replace (Z.succ (52 + k + E)) with (53 + k + E) by lia.
      rewrite Z.pow_add_r by (unfold E; lia).
      replace (Zpos mb * (2 ^ (53 + k) * 2 ^ E)) with (2 ^ (53 + k) * Zpos mb * 2 ^ E) by ring.
      apply Z.mul_lt_mono_pos_r; lia. }
  split.
  - unfold quotient64. rewrite L. replace (52 + k + E - 52) with (k + E) by lia.
    rewrite <- (half_even_scale (Zpos ma * 2 ^ (ea + 1074)) (u * 2 ^ (k + E)) (2 ^ (- eb)))
      by (auto; apply Z.mul_pos_pos; auto; apply pow_pos; unfold E; lia).
    rewrite VN. replace (u * 2 ^ (k + E) * 2 ^ (- eb)) with (Zpos mb * 2 ^ k * 2 ^ E)
      by (rewrite Hmb, Z.pow_add_r by (unfold E; lia); ring).
    rewrite half_even_scale by (auto; lia). rewrite <- M.
    replace (e + 1074) with (k + E + (e - (ea - eb - 53 + k))) by (unfold E; lia).
    rewrite (Z.pow_add_r 2 (k + E)) by (unfold E; lia). ring.
  - rewrite Q. apply Z.div_le_lower_bound; [lia|]. cbn [scaled] in Hle.
    rewrite <- VN. assert (D : 2 ^ (eb + 1074) * 2 ^ (- eb) = 2 ^ 1074) by (rewrite <- Z.pow_add_r by lia; f_equal; lia).
    rewrite <- D. nia.
Qed.

(** The rounded quotient grows with the number, and is near the quotient. *)
Lemma log2_ge52 : forall n d, 0 < d -> 2 ^ 52 <= n / d -> 52 <= Z.log2 (n / d).
Proof. intros n d Hd H. apply Z.log2_le_pow2; lia. Qed.
Lemma quotient64_range : forall n d, 0 < d -> 2 ^ 52 <= n / d ->
  2 ^ Z.log2 (n / d) <= quotient64 n d <= 2 ^ (Z.log2 (n / d) + 1).
Proof.
  intros n d Hd H. unfold quotient64. pose proof (log2_ge52 n d Hd H) as L.
  pose proof (pow_pos (Z.log2 (n / d) - 52) ltac:(lia)) as P.
  destruct (Z.log2_spec (n / d)) as [L1 L2]; [lia|].
  assert (R : 2 ^ 52 <= half_even n (d * 2 ^ (Z.log2 (n / d) - 52)) <= 2 ^ 53).
  { apply half_even_range; [apply Z.mul_pos_pos; lia|].
    pose proof (Z.div_mod n d ltac:(lia)). pose proof (Z.mod_pos_bound n d Hd).
    assert (A1 : 2 ^ 52 * 2 ^ (Z.log2 (n / d) - 52) = 2 ^ Z.log2 (n / d)) by (rewrite <- Z.pow_add_r by lia; f_equal; lia).
    assert (A2 : 2 ^ 53 * 2 ^ (Z.log2 (n / d) - 52) = 2 ^ Z.succ (Z.log2 (n / d))) by (rewrite <- Z.pow_add_r by lia; f_equal; lia).
    split.
    - replace (2 ^ 52 * (d * 2 ^ (Z.log2 (n / d) - 52))) with (d * (2 ^ 52 * 2 ^ (Z.log2 (n / d) - 52))) by ring. rewrite A1. nia.
    - replace (2 ^ 53 * (d * 2 ^ (Z.log2 (n / d) - 52))) with (d * (2 ^ 53 * 2 ^ (Z.log2 (n / d) - 52))) by ring. rewrite A2. nia. }
  replace (2 ^ Z.log2 (n / d)) with (2 ^ (Z.log2 (n / d) - 52) * 2 ^ 52) by (rewrite <- Z.pow_add_r by lia; f_equal; lia).
  replace (2 ^ (Z.log2 (n / d) + 1)) with (2 ^ (Z.log2 (n / d) - 52) * 2 ^ 53) by (rewrite <- Z.pow_add_r by lia; f_equal; lia).
  split; apply Z.mul_le_mono_nonneg_l; lia.
Qed.
Lemma quotient64_mono : forall n1 n2 d, 0 < d -> 2 ^ 52 <= n1 / d -> n1 <= n2 -> quotient64 n1 d <= quotient64 n2 d.
Proof.
  intros n1 n2 d Hd H Hle. pose proof (Z.div_le_mono n1 n2 d Hd Hle) as Q.
  pose proof (Z.log2_le_mono _ _ Q) as L. destruct (Z.eq_dec (Z.log2 (n1 / d)) (Z.log2 (n2 / d))) as [E|E].
  - unfold quotient64. rewrite E. pose proof (log2_ge52 n2 d Hd ltac:(lia)). pose proof (pow_pos (Z.log2 (n2 / d) - 52) ltac:(lia)).
    apply Z.mul_le_mono_nonneg_l; [lia|]. apply half_even_mono; [nia|lia].
  - pose proof (quotient64_range n1 d Hd H). pose proof (quotient64_range n2 d Hd ltac:(lia)).
    assert (2 ^ (Z.log2 (n1 / d) + 1) <= 2 ^ Z.log2 (n2 / d)) by (apply Z.pow_le_mono_r; lia). lia.
Qed.
Lemma quotient64_near : forall n d, 0 < d -> 2 ^ 52 <= n / d -> 2 ^ 53 * Z.abs (quotient64 n d * d - n) <= n.
Proof.
  intros n d Hd H. unfold quotient64. pose proof (log2_ge52 n d Hd H) as L.
  set (P := 2 ^ (Z.log2 (n / d) - 52)). assert (HP : 0 < P) by (apply pow_pos; lia).
  pose proof (half_even_near n (d * P) ltac:(nia)) as Nr.
  replace (P * half_even n (d * P) * d) with (half_even n (d * P) * (d * P)) by ring.
  destruct (Z.log2_spec (n / d)) as [L1 _]; [lia|].
  assert (A1 : 2 ^ 52 * P = 2 ^ Z.log2 (n / d)) by (unfold P; rewrite <- Z.pow_add_r by lia; f_equal; lia).
  pose proof (Z.mul_div_le n d Hd). change (2 ^ 53) with (2 ^ 52 * 2). nia.
Qed.

(** ** The text of a number *)

Lemma thousandths_ok : forall m e, -1074 <= e -> thousandths m e = half_even (m * 2 ^ (e + 1074) * 1000) one64.
Proof.
  intros m e He. unfold thousandths, one64. destruct (Z.leb_spec 0 e).
  - rewrite Z.pow_add_r by lia. replace (m * (2 ^ e * 2 ^ 1074) * 1000) with (m * 1000 * 2 ^ e * 2 ^ 1074) by ring.
    rewrite half_even_exact; [reflexivity|apply pow_pos; lia].
  - replace (2 ^ 1074) with (2 ^ (- e) * 2 ^ (e + 1074)) by (rewrite <- Z.pow_add_r by lia; f_equal; lia).
    replace (m * 2 ^ (e + 1074) * 1000) with (m * 1000 * 2 ^ (e + 1074)) by ring.
    rewrite half_even_scale by (apply pow_pos; lia). reflexivity.
Qed.
Lemma half_even_nonneg : forall n d, 0 < d -> 0 <= n -> 0 <= half_even n d.
Proof. intros n d Hd Hn. rewrite <- (half_even_exact 0 d Hd). apply half_even_mono; lia. Qed.
