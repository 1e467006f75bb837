(** * C102: how many limb divisions writing a number takes, and how many limb products reading one

    The runs counted here are those of MCost2.v; [C102_same] shows that they
    are runs of the modelled functions. *)

Require Import ZArith List Bool Lia.
From Verif Require Import Prim Spec MAdd MMul MCore MArith MScalar MDiv MApi MParse MWrite MCost MCost2.
From Verif Require Import Facts PCore PWide PRet PArith PArith2 PPow PBits PBits2 PScalar PScalarDiv PDiv DivSpec TextSpec PApi PMulS PMisc PCost PropsCost
  PParse PParse2 PropsParse PWrite PWrite2 PropsWrite LangText PLangText PCost2.
Import ListNotations.
Local Open Scope Z_scope.

(** ** The counted functions are the modelled ones *)

Theorem C102_same : forall (c : Cfg) small sg x buffer radix s,
  snd (c_to_str_radix sg x buffer radix) = to_str_radix sg x buffer radix /\ snd (c_u_display x) = u_display x /\
  snd (c_from_str_radix sg s radix) = from_str_radix sg s radix /\ snd (c_from_str small sg s) = from_str small sg s.
Proof.
  intros. split; [apply er_to_str_radix|]. split; [apply er_u_display|]. split; [apply er_from_str_radix|apply er_from_str].
Qed.

(** ** Places *)

(** [places radix v] is the number of digits of [v > 0], and 0 for 0. *)
Theorem C102_places : forall radix v n, 2 <= radix <= 36 ->
  (1 <= v -> (places radix v = n <-> (1 <= n)%nat /\ radix ^ (Z.of_nat n - 1) <= v < radix ^ Z.of_nat n)) /\ places radix 0 = 0%nat.
Proof.
  intros radix v n Hr. split; [|reflexivity]. intros Hv. split.
  - intros <-. apply places_spec; auto.
  - intros (H1 & H2). apply places_unique; auto.
Qed.
Example C102_places_ex : places 10 (2 ^ 256 - 1) = 78%nat /\ places 10 (2 ^ 128 - 1) = 39%nat /\ places 2 255 = 8%nat.
Proof. vm_compute. auto. Qed.

(** ** Writing

    One division for every digit after the first, and [N - 1] more for every
    digit of the part above the lowest two limbs. *)
Theorem C102_write : forall (c : Cfg) sg x buffer radix, Valid -> wf x -> 0 <= val sg x -> 2 <= radix <= 36 ->
  BITS + (if sg then 1 else 0) <= Z.of_nat (length buffer) ->
  fst (c_to_str_radix sg x buffer radix) =
    repeat Div ((places radix (val sg x) - 1) + (N - 1) * places radix (val sg x / 2 ^ (2 * W))).
Proof. intros c sg x buffer radix HV Hx Hv Hr HL. apply (write_count HV); auto. Qed.
(** a number below two limbs costs one division a digit, whatever the width *)
Theorem C102_write_small : forall (c : Cfg) sg x buffer radix, Valid -> wf x -> 0 <= val sg x < 2 ^ (2 * W) -> 2 <= radix <= 36 ->
  BITS + (if sg then 1 else 0) <= Z.of_nat (length buffer) ->
  fst (c_to_str_radix sg x buffer radix) = repeat Div (places radix (val sg x) - 1).
Proof.
  intros c sg x buffer radix HV Hx Hv Hr HL. rewrite (C102_write c) by (auto; lia). f_equal. rewrite Z.div_small by lia.
  change (places radix 0) with 0%nat. rewrite Nat.mul_0_r, Nat.add_0_r. reflexivity.
Qed.
(** The number of divisions grows with the value. *)
Theorem C102_write_mono : forall (c : Cfg) sg x y buffer radix, Valid -> wf x -> wf y -> 0 <= val sg x <= val sg y -> 2 <= radix <= 36 ->
  BITS + (if sg then 1 else 0) <= Z.of_nat (length buffer) ->
  (length (fst (c_to_str_radix sg x buffer radix)) <= length (fst (c_to_str_radix sg y buffer radix)))%nat.
Proof.
  intros c sg x y buffer radix HV Hx Hy Hv Hr HL. rewrite !(C102_write c) by (auto; lia). rewrite !repeat_length.
  pose proof (places_mono radix (val sg x) (val sg y) Hr (proj2 Hv)) as P.
  assert (L : val sg x / 2 ^ (2 * W) <= val sg y / 2 ^ (2 * W)) by (apply Z.div_le_mono; [destruct (W_cases HV) as [-> | ->]; reflexivity|lia]).
  pose proof (places_mono radix _ _ Hr L) as Q. nia.
Qed.
(** [Display] of the unsigned type *)
Theorem C102_display : forall (c : Cfg) x, Valid -> BITS <= 1024 -> wf x ->
  fst (c_u_display x) = repeat Div ((places 10 (uval x) - 1) + (N - 1) * places 10 (uval x / 2 ^ (2 * W))).
Proof.
  intros c x HV HB Hx. pose proof (uval_range HV x Hx) as R. unfold fits_u in R.
  destruct (C29_unsigned c x BUF 10 HV Hx) as (i & s & E & _); [lia|unfold BUF; rewrite repeat_length; lia|].
  unfold c_u_display. change (uval x) with (val false x). rewrite <- (C102_write c false x BUF 10) by (auto; cbn [val]; try lia; unfold BUF; rewrite repeat_length; lia).
  assert (Es : exists q, snd (c_to_str_radix false x BUF 10) = Ok q) by (rewrite er_to_str_radix; eauto). destruct Es as (q & Es).
  destruct (c_to_str_radix false x BUF 10) as (t & r). cbn [snd] in Es. subst r. rewrite cbind_Ok. cbn. apply app_nil_r.
Qed.
(** With four limbs of 64 bits a number is printed with at most 194 divisions, and the largest one needs them. *)
Theorem C102_display_256 : let c := c256_64 in
  (forall x, wf x -> (length (fst (c_u_display x)) <= 194)%nat) /\ fst (c_u_display (repeat (2 ^ 64 - 1) 4)) = repeat Div 194.
Proof.
  intros c. pose proof valid_c256_64 as HV. split; [|vm_compute; reflexivity].
  intros x Hx. rewrite (C102_display c) by (auto; vm_compute; congruence). rewrite repeat_length.
  pose proof (uval_range HV x Hx) as R. unfold fits_u in R.
  assert (U : uval x <= 2 ^ 256 - 1) by (change (@BITS c) with 256 in R; apply Z.lt_le_pred; tauto).
  assert (H10 : 2 <= 10 <= 36) by lia. pose proof (places_mono 10 (uval x) (2 ^ 256 - 1) H10 U) as P1.
  assert (L : uval x / 2 ^ (2 * @W c) <= (2 ^ 256 - 1) / 2 ^ (2 * @W c)) by (apply Z.div_le_mono; [reflexivity|exact U]).
  pose proof (places_mono 10 _ _ H10 L) as P2.
  assert (V1 : places 10 (2 ^ 256 - 1) = 78%nat) by (vm_compute; reflexivity).
  assert (V2 : places 10 ((2 ^ 256 - 1) / 2 ^ (2 * @W c)) = 39%nat) by (vm_compute; reflexivity).
  rewrite V1 in P1. rewrite V2 in P2. change (@N c) with 4%nat. lia.
Qed.
Example C102_write_ex : let c := c256_64 in
  fst (c_to_str_radix true (@ofZ c 12345) (repeat 0 300) 10) = repeat Div 4 /\
  fst (c_to_str_radix false (@ofZ c (2 ^ 128)) (repeat 0 300) 10) = repeat Div 41 /\ (places 10 (2 ^ 128) = 39)%nat /\
  fst (c_to_str_radix false (@ofZ c (2 ^ 255)) (repeat 0 300) 2) = repeat Div (255 + 3 * 128) /\
  fst (c_to_str_radix false (@ofZ c 0) (repeat 0 300) 10) = [].
Proof. vm_compute. auto 10. Qed.

(** ** Reading *)

(** what follows the sign *)
Definition after_sign (sg : bool) (s : list Z) : list Z :=
  match s with
  | b :: t => if b =? 43 then t else if b =? 45 then if sg then t else [] else s
  | [] => []
  end.
(** Products a digit of a numeral with [n] digits costs: [N], but for long
    numerals of the signed type those of a multiplication with overflow check. *)
Definition digit_cost {c : Cfg} (sg : bool) (radix : Z) (n : nat) : nat :=
  if sg && ((if radix <=? 16 then BITS / 4 - 1 else BITS / 8) <? Z.of_nat n) then tri N else N.

Lemma long_numeral : forall (c : Cfg) radix, Valid -> overflow_digits radix true = if radix <=? 16 then BITS / 4 - 1 else BITS / 8.
Proof.
  intros c radix HV. assert (M : exists m, BITS = 8 * m) by (unfold BITS; destruct (W_cases HV) as [-> | ->]; [exists (4 * Z.of_nat N)|exists (8 * Z.of_nat N)]; lia).
      destruct M as (m & M). unfold overflow_digits. cbn [b2z]. rewrite M. destruct (radix <=? 16); [|reflexivity].
      assert (D8 : 8 * m / 8 = m) by (rewrite Z.mul_comm; apply Z.div_mul; lia). assert (D4 : 8 * m / 4 = 2 * m) by (replace (8 * m) with (2 * m * 4) by lia; apply Z.div_mul; lia).
      lia.
Qed.
(** A digit costs the same at every place, however small the number read so
    far; reading stops at the first byte that is not a digit, or earlier when
    the number gets too large. *)
Theorem C102_read : forall (c : Cfg) sg s radix p, Valid -> bytes s -> 2 <= radix <= 36 -> from_str_radix sg s radix = Ok p ->
  exists k, (k <= leading radix (after_sign sg s))%nat /\
    fst (c_from_str_radix sg s radix) = repeat Mul (k * digit_cost sg radix (length (after_sign sg s))) /\
    ((exists v, p = POk v) \/ p = PErr EInvalidDigit -> k = leading radix (after_sign sg s)).
Proof.
  intros c sg s radix p HV Hb Hr E. rewrite <- er_from_str_radix in E.
  assert (PD : forall neg d, bytes d -> snd (c_parse_digits sg neg radix d) = Ok p ->
    exists k, (k <= leading radix d)%nat /\ fst (c_parse_digits sg neg radix d) = repeat Mul (k * digit_cost sg radix (length d)) /\
      ((exists v, p = POk v) \/ p = PErr EInvalidDigit -> k = leading radix d)).
  { intros neg d Hd H. unfold c_parse_digits in *. rewrite (from_u8_ok HV) in * by (unfold fits_u; lia). rewrite cbind_free in *.
    unfold digit_cost. rewrite <- (long_numeral c radix HV). destruct (Z.leb_spec (Z.of_nat (length d)) (overflow_digits radix sg)) as [L|L].
    - exists (leading radix d). split; auto. split; auto. rewrite (unchecked_count HV sg neg radix d (ofZ 0) (wf_ofZ HV 0) Hr Hd p H).
      destruct sg; cbn [andb]; [|reflexivity]. destruct (Z.ltb_spec (overflow_digits radix true) (Z.of_nat (length d))); [lia|reflexivity].
    - destruct (checked_count HV sg neg radix d (ofZ 0) p) as (k & K1 & K2 & K3 & _); auto; [apply (wf_ofZ HV)|].
      exists k. split; auto. split; auto. rewrite K2. unfold mul_cost. destruct sg; cbn [andb]; [|reflexivity].
      destruct (Z.ltb_spec (overflow_digits radix true) (Z.of_nat (length d))); [reflexivity|lia]. }
  unfold c_from_str_radix in *. destruct (Z.ltb_spec radix 2); [lia|]. destruct (Z.ltb_spec 36 radix); [lia|]. cbn [orb] in *.
  destruct s as [|b t]; cbn [after_sign].
  { exists 0%nat. split; [lia|]. split; reflexivity. }
  assert (Ht : bytes t) by (inversion Hb; auto).
  destruct (b =? 43); [apply PD; auto|]. destruct (b =? 45); [|apply PD; auto]. destruct sg; [apply PD; auto|].
  exists 0%nat. split; [lia|]. split; reflexivity.
Qed.
(** a numeral that is read costs the same for every digit, leading zeros included *)
Theorem C102_read_numeral : forall (c : Cfg) sg s radix v r, Valid -> bytes s -> 2 <= radix <= 36 ->
  numeral sg radix s v -> from_str_radix sg s radix = Ok (POk r) ->
  fst (c_from_str_radix sg s radix) = repeat Mul (length (after_sign sg s) * digit_cost sg radix (length (after_sign sg s))).
Proof.
  intros c sg s radix v r HV Hb Hr (body & Hn & H) E. destruct (C102_read c sg s radix (POk r) HV Hb Hr E) as (k & _ & K2 & K3).
  rewrite K2, K3 by eauto. f_equal. f_equal.
  assert (A : exists u, numval radix (after_sign sg s) = Some u).
  { destruct H as [([-> | ->] & H)|(-> & -> & H)]; [|exists v; exact H|eexists; exact H].
    destruct body as [|b t]; [contradiction|]. cbn [after_sign]. destruct (Z.eqb_spec b 43) as [->|]; [rewrite numval_no_sign in H by auto; discriminate|].
    destruct (Z.eqb_spec b 45) as [->|]; [rewrite numval_no_sign in H by auto; discriminate|eauto]. }
  destruct A as (u & A). eapply leading_all. exact A.
Qed.
(** a number too large costs its digits up to and including the first that makes it so *)
Lemma unchecked_never : forall (c : Cfg) sg neg radix s r, unchecked_loop sg neg radix s r <> Ok (PErr EPosOverflow).
Proof.
  intros c sg neg radix s. induction s as [|ch t IH]; intros r; cbn [unchecked_loop]; [discriminate|]. destruct (char_to_digit ch radix) as [[d|]| |]; cbn [bind]; try discriminate.
  destruct (wrapping_ulimb SMul sg r _); cbn [bind]; try discriminate. destruct (wrapping_ulimb _ sg a _); cbn [bind]; try discriminate. apply IH.
Qed.
Theorem C102_read_overflow : forall (c : Cfg) sg s radix, Valid -> bytes s -> 2 <= radix <= 36 -> hd 0 s <> 45 ->
  from_str_radix sg s radix = Ok (PErr EPosOverflow) ->
  exists p ch t v u, after_sign sg s = p ++ ch :: t /\ numval radix p = Some v /\ fits sg v /\ numval radix (p ++ [ch]) = Some u /\ ~ fits sg u /\
    fst (c_from_str_radix sg s radix) = repeat Mul ((length p + 1) * digit_cost sg radix (length (after_sign sg s))).
Proof.
  intros c sg s radix HV Hb Hr H45 E. rewrite <- er_from_str_radix in E.
  assert (HN : 0 <= hi_of sg) by (apply (hi_nonneg HV)).
  assert (PD : forall d, bytes d -> snd (c_parse_digits sg false radix d) = Ok (PErr EPosOverflow) ->
    exists p ch t v u, d = p ++ ch :: t /\ numval radix p = Some v /\ fits sg v /\ numval radix (p ++ [ch]) = Some u /\ ~ fits sg u /\
    fst (c_parse_digits sg false radix d) = repeat Mul ((length p + 1) * digit_cost sg radix (length d))).
  { intros d Hd H. unfold c_parse_digits in *. rewrite (from_u8_ok HV) in * by (unfold fits_u; lia). rewrite cbind_free in *.
    unfold digit_cost. rewrite <- (long_numeral c radix HV). destruct (Z.leb_spec (Z.of_nat (length d)) (overflow_digits radix sg)) as [L|L].
    - exfalso. rewrite er_unchecked_loop in H. revert H. apply unchecked_never.
    - destruct (checked_count_pos HV sg radix d 0 Hr Hd ltac:(lia) H) as (p & ch & t & v & u & I1 & I2 & I3 & I4 & I5 & I6).
      exists p, ch, t, v, u. split; [exact I1|]. split; [exact I2|]. split; [apply (fits_hi HV); [eapply (horner_nonneg radix p); [lia|exact I2]|exact I3]|]. split; [exact I4|].
      split; [intro F; apply (fits_hi HV) in F; [lia|eapply (horner_nonneg radix (p ++ [ch])); [lia|exact I4]]|].
      rewrite I6. unfold mul_cost. replace (length p + 1)%nat with (S (length p)) by lia. destruct sg; cbn [andb]; [|reflexivity].
      destruct (Z.ltb_spec (overflow_digits radix true) (Z.of_nat (length d))); [reflexivity|lia]. }
  unfold c_from_str_radix in *. destruct (Z.ltb_spec radix 2); [lia|]. destruct (Z.ltb_spec 36 radix); [lia|]. cbn [orb] in *.
  destruct s as [|b t]; cbn [after_sign]; [discriminate|]. assert (Ht : bytes t) by (inversion Hb; auto). cbn [hd] in H45.
  destruct (b =? 43); [apply PD; auto|]. destruct (Z.eqb_spec b 45); [contradiction|]. apply PD; auto.
Qed.
(** never more than [N (N + 1) / 2] products for each byte, whatever the bytes *)
Theorem C102_read_bound : forall (c : Cfg) sg s radix, Valid -> bytes s -> 2 <= radix <= 36 ->
  (length (fst (c_from_str_radix sg s radix)) <= length s * tri N)%nat /\
  (sg = false -> length (fst (c_from_str_radix sg s radix)) <= length s * N)%nat.
Proof.
  intros c sg s radix HV Hb Hr. destruct (C28_total c sg s radix HV Hb Hr) as (p & E).
  destruct (C102_read c sg s radix p HV Hb Hr E) as (k & K1 & K2 & _). pose proof (leading_le radix (after_sign sg s)) as L.
  assert (A : (length (after_sign sg s) <= length s)%nat).
  { destruct s as [|b t]; cbn [after_sign]; [auto|]. destruct (b =? 43); [cbn; lia|]. destruct (b =? 45); [|auto]. destruct sg; cbn; lia. }
  assert (T : (N <= tri N)%nat) by (pose proof (N_ge4 HV); unfold tri; apply Nat.div_le_lower_bound; nia).
  rewrite K2, repeat_length. unfold digit_cost. split; [|intros ->; cbn [andb]; nia]. destruct (_ && _); nia.
Qed.
(** [from_str] leaves strings of fewer than 39 bytes to the parsers of Rust's own integers. *)
Theorem C102_short : forall (c : Cfg) small sg s, (length s < 39)%nat -> fst (c_from_str small sg s) = [].
Proof.
  intros c small sg s H. unfold c_from_str. cbv zeta. destruct (_ && _); [reflexivity|]. destruct (Z.ltb_spec (Z.of_nat (length s)) 39); [reflexivity|lia].
Qed.
Theorem C102_long : forall (c : Cfg) small sg s, (39 <= length s)%nat -> fst (c_from_str small sg s) = fst (c_from_str_radix sg s 10).
Proof.
  intros c small sg s H. unfold c_from_str. cbv zeta. destruct (Z.ltb_spec (Z.of_nat (length s)) (if sg then 19 else 20)); [destruct sg; lia|].
  rewrite andb_false_r. destruct (Z.ltb_spec (Z.of_nat (length s)) 39); [lia|reflexivity].
Qed.
(** The same 64 digits, read as the unsigned and as the signed type: 256 and 640 products. *)
Example C102_read_ex : let c := c256_64 in let s := repeat 49 64 in
  fst (c_from_str_radix false s 10) = repeat Mul 256 /\ fst (c_from_str_radix true s 10) = repeat Mul 640 /\
  fst (c_from_str_radix true (repeat 49 63) 10) = repeat Mul 252 /\ fst (c_from_str_radix false (repeat 48 78) 10) = repeat Mul 312 /\
  fst (c_from_str_radix true ([45; 49; 50; 120; 51]) 10) = repeat Mul 8 /\ from_str_radix true ([45; 49; 50; 120; 51]) 10 = Ok (PErr EInvalidDigit) /\
  fst (c_from_str false true (repeat 49 38)) = [] /\ fst (c_from_str false true (repeat 49 39)) = repeat Mul 156.
Proof. vm_compute. auto 20. Qed.
(** reading stops early at the digit that makes the number too large *)
Example C102_read_overflow_ex : let c := c256_64 in hd 0 (repeat 57 200) <> 45 /\
  from_str_radix false (repeat 57 200) 10 = Ok (PErr EPosOverflow) /\ fst (c_from_str_radix false (repeat 57 200) 10) = repeat Mul (78 * 4).
Proof. split; [discriminate|]. vm_compute. auto. Qed.

(** ** Assumptions (each must print "Closed under the global context") *)

Print Assumptions C102_same.
Print Assumptions C102_places.
Print Assumptions C102_write.
Print Assumptions C102_write_small.
Print Assumptions C102_write_mono.
Print Assumptions C102_display.
Print Assumptions C102_display_256.
Print Assumptions C102_read.
Print Assumptions C102_read_numeral.
Print Assumptions C102_read_overflow.
Print Assumptions C102_read_bound.
Print Assumptions C102_short.
Print Assumptions C102_long.
