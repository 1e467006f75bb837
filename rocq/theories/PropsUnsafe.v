(** * Properties: the unsafe parts (C105) *)

Require Import ZArith List Bool Lia.
From Verif Require Import Prim Spec Facts MAdd MMul MShift MCore PCore PBits PWide MArith PArith PArith2 PPow PMisc PBits2 PRet DivSpec MDiv MApi PApi MScalar PScalar PScalarDiv PApi2 MUnsafe.
Import ListNotations.
Local Open Scope Z_scope.
Local Notation E64 := (@ofZ c256_64).

(** The documented contract (shared/docs.rs 78-86): undefined when the value
    overflows.  [as_documented o sg v]: the call is undefined exactly when [v]
    does not fit the type, and otherwise returns the encoding of [v]. *)
Definition as_documented {c : Cfg} (o : outcome (list Z)) (sg : bool) (v : Z) : Prop :=
  (fits sg v -> exists r, o = Returns r /\ wf r /\ val sg r = v) /\ (~ fits sg v <-> o = Undefined).

Lemma some_if_documented : forall (c : Cfg), Valid -> forall sg v,
  as_documented (unwrap_unchecked (Ok (some_if (fitsb sg v) v))) sg v.
Proof.
  intros c HV sg v. unfold as_documented, some_if. pose proof (fitsb_spec sg v) as S. destruct (fitsb sg v); cbn [unwrap_unchecked].
  - assert (F : fits sg v) by (apply S; reflexivity). split.
    + intros _. exists (ofZ v). split; [reflexivity|]. split; [apply (wf_ofZ HV)|]. apply (val_ofZ_small HV); assumption.
    + split; [contradiction|discriminate].
  - assert (F : ~ fits sg v) by (intros F; apply S in F; discriminate). split; [contradiction|]. split; auto.
Qed.

Theorem C105_add_sub : forall (c : Cfg) sg x y, Valid -> wf x -> wf y ->
  as_documented (unsafe_add sg x y) sg (val sg x + val sg y) /\ as_documented (unsafe_sub sg x y) sg (val sg x - val sg y).
Proof.
  intros c sg x y HV Hx Hy. unfold unsafe_add, unsafe_sub. rewrite (checked_add_ok HV), (checked_sub_ok HV) by assumption.
  split; apply some_if_documented; assumption.
Qed.
Theorem C105_mul_unsigned : forall (c : Cfg) x y, Valid -> wf x -> wf y ->
  as_documented (unsafe_mul false x y) false (uval x * uval y).
Proof.
  intros c x y HV Hx Hy. unfold unsafe_mul. rewrite (checked_mul_ok HV) by assumption. cbn [mulf val]. rewrite negb_involutive.
  apply some_if_documented; assumption.
Qed.
(** The signed product: a caller who keeps the contract is safe; a call outside
    it is undefined except for the products the overflow flag misses, which are
    returned wrapped. *)
Theorem C105_mul_signed : forall (c : Cfg) x y, Valid -> wf x -> wf y ->
  (fits_s BITS (sval x * sval y) -> exists r, unsafe_mul true x y = Returns r /\ wf r /\ sval r = sval x * sval y) /\
  (unsafe_mul true x y = Undefined <->
   2 ^ (BITS - 1) <= sval x * sval y \/ sval x * sval y <= - (2 ^ (BITS - 1) + 2 ^ (BITS - W))) /\
  (- (2 ^ (BITS - 1) + 2 ^ (BITS - W)) < sval x * sval y < - 2 ^ (BITS - 1) ->
   exists r, unsafe_mul true x y = Returns r /\ wf r /\ sval r = sval x * sval y + 2 ^ BITS).
Proof.
  intros c x y HV Hx Hy. unfold unsafe_mul. rewrite (checked_mul_ok HV) by assumption. cbn [val].
  pose proof (pBh HV) as PB. pose proof (pBhalf HV) as PH. pose proof (pB_big HV) as PG. pose proof (BITS_pos HV) as B1.
  set (p := sval x * sval y) in *.
  assert (HW : 1 <= W) by (pose proof (W_cases HV); lia).
  assert (WB : W <= BITS - 1). { pose proof (BITS_ge HV). pose proof (W_cases HV). lia. }
  assert (PW : 0 < 2 ^ (BITS - W) <= 2 ^ (BITS - 1)) by (split; [apply Z.pow_pos_nonneg|apply Z.pow_le_mono_r]; lia).
  assert (F : mulf true (sval x) (sval y) = (2 ^ (BITS - 1) <=? p) || (p <=? - (2 ^ (BITS - 1) + 2 ^ (BITS - W)))).
  { unfold mulf. fold p.
    assert (D : (xorb (sval x <? 0) (sval y <? 0) = true /\ p <= 0) \/ (xorb (sval x <? 0) (sval y <? 0) = false /\ 0 <= p)).
    { unfold p. destruct (Z.ltb_spec (sval x) 0), (Z.ltb_spec (sval y) 0); cbn [xorb]; [right|left|left|right]; split; try reflexivity; nia. }
    destruct D as [(-> & D)|(-> & D)].
    - rewrite Z.abs_neq by lia. destruct (Z.leb_spec (2 ^ (BITS - 1)) p); [lia|]. cbn [orb].
      destruct (Z.leb_spec (2 ^ (BITS - 1) + 2 ^ (BITS - W)) (- p)), (Z.leb_spec p (- (2 ^ (BITS - 1) + 2 ^ (BITS - W)))); auto; lia.
    - rewrite Z.abs_eq by lia. destruct (Z.leb_spec p (- (2 ^ (BITS - 1) + 2 ^ (BITS - W)))); [lia|]. rewrite orb_false_r. reflexivity. }
  rewrite F. unfold some_if. split; [|split].
  - intros Fp. unfold fits_s in Fp.
    destruct (Z.leb_spec (2 ^ (BITS - 1)) p), (Z.leb_spec p (- (2 ^ (BITS - 1) + 2 ^ (BITS - W)))); try lia. cbn [orb negb unwrap_unchecked].
    exists (ofZ p). split; [reflexivity|]. split; [apply (wf_ofZ HV)|]. apply (sval_ofZ_fits HV). exact Fp.
  - destruct (Z.leb_spec (2 ^ (BITS - 1)) p), (Z.leb_spec p (- (2 ^ (BITS - 1) + 2 ^ (BITS - W)))); cbn [orb negb unwrap_unchecked];
      (split; [intros E; first [discriminate E|lia]|intros E; first [reflexivity|exfalso; lia]]).
  - intros D. destruct (Z.leb_spec (2 ^ (BITS - 1)) p), (Z.leb_spec p (- (2 ^ (BITS - 1) + 2 ^ (BITS - W)))); try lia. cbn [orb negb unwrap_unchecked].
    exists (ofZ p). split; [reflexivity|]. split; [apply (wf_ofZ HV)|].
    rewrite <- (sval_ofZ_fits HV (p + 2 ^ BITS)) by (unfold fits_s; lia). f_equal. apply (ofZ_eq_mod HV).
    rewrite <- (Z_mod_plus_full p 1 (2 ^ BITS)). f_equal. lia.
Qed.
Theorem C105_mul_signed_refuted : exists (c : Cfg) x y, Valid /\ wf x /\ wf y /\ ~ fits_s BITS (sval x * sval y) /\
  unsafe_mul true x y <> Undefined.
Proof.
  exists c256_64, (E64 (-1 - 2 ^ 254)), (E64 2). split; [exact valid_c256_64|]. split; [apply (wf_ofZ valid_c256_64)|].
  split; [apply (wf_ofZ valid_c256_64)|]. split; [|vm_compute; discriminate].
  vm_compute. intros [H _]. apply H. reflexivity.
Qed.
Theorem C105_shifts : forall (c : Cfg) sg x n, Valid -> wf x -> 0 <= n ->
  (n < BITS -> (exists r, unsafe_shl x n = Returns r /\ wf r /\ uval r = (uval x * 2 ^ n) mod 2 ^ BITS) /\
     (exists r, unsafe_shr sg x n = Returns r /\ wf r /\ val sg r = val sg x / 2 ^ n)) /\
  (BITS <= n <-> unsafe_shl x n = Undefined) /\ (BITS <= n <-> unsafe_shr sg x n = Undefined).
Proof.
  intros c sg x n HV Hx Hn. unfold unsafe_shl, unsafe_shr. rewrite (checked_shl_ok HV), (checked_shr_ok HV) by assumption.
  unfold some_if. destruct (Z.ltb_spec n BITS) as [L|L]; cbn [unwrap_unchecked].
  - split; [|split; (split; [lia|discriminate])]. intros _. split.
    + eexists. split; [reflexivity|]. split; [apply (wf_ofZ HV)|apply (uval_ofZ HV)].
    + eexists. split; [reflexivity|]. split; [apply (wf_ofZ HV)|]. apply (val_ofZ_small HV).
      assert (P : 1 <= 2 ^ n) by (pose proof (pow2_pos n Hn); lia). pose proof (pBh HV) as PB. pose proof (pBhalf HV) as PH. pose proof (pB_big HV) as PG.
      destruct sg; cbn [fits val].
      * pose proof (sval_range HV x Hx) as R. unfold fits_s in *. split; [apply Z.div_le_lower_bound; nia|].
        apply Z.div_lt_upper_bound; nia.
      * pose proof (uval_range HV x Hx) as R. unfold fits_u in *. split; [apply Z.div_pos; lia|]. apply Z.div_lt_upper_bound; nia.
  - split; [lia|]. split; split; auto.
Qed.
Theorem C105_neg : forall (c : Cfg) x, Valid -> wf x ->
  as_documented (unsafe_neg x) true (- sval x) /\ (unsafe_neg x = Undefined <-> sval x = - 2 ^ (BITS - 1)).
Proof.
  intros c x HV Hx. unfold unsafe_neg. rewrite (s_checked_neg_ok HV) by assumption.
  pose proof (some_if_documented c HV true (- sval x)) as A. split; [exact A|]. destruct A as (_ & A). rewrite <- A.
  pose proof (sval_range HV x Hx) as R. pose proof (pBh HV). pose proof (pBhalf HV). pose proof (pB_big HV). cbn [fits]. unfold fits_s in *. lia.
Qed.

(** None of the calls panics or runs on, whatever the values and the build. *)
Theorem C105_no_panic : forall (c : Cfg) sg x y n o, Valid -> wf x -> wf y -> 0 <= n ->
  In o [unsafe_add sg x y; unsafe_sub sg x y; unsafe_mul sg x y; unsafe_shl x n; unsafe_shr sg x n; unsafe_neg x] ->
  o <> Panics /\ o <> Unfinished.
Proof.
  intros c sg x y n o HV Hx Hy Hn Ho. unfold unsafe_add, unsafe_sub, unsafe_mul, unsafe_shl, unsafe_shr, unsafe_neg in Ho.
  rewrite (checked_add_ok HV), (checked_sub_ok HV), (checked_mul_ok HV), (checked_shl_ok HV), (checked_shr_ok HV), (s_checked_neg_ok HV) in Ho by assumption.
  unfold some_if in Ho.
  repeat (destruct Ho as [<-|Ho]; [match goal with |- context [if ?b then _ else _] => destruct b end; split; discriminate|]). contradiction.
Qed.

(** The definitions of MArith.v are these with a panic for the undefined case. *)
Definition stops {A} (o : outcome A) : res A :=
  match o with Returns a => Ok a | Panics => Panic | Unfinished => OutOfFuel | Undefined => Panic end.
Lemma stops_unwrap : forall A (m : res (option A)), stops (unwrap_unchecked m) = unwrap m.
Proof. intros A [[a|]| |]; reflexivity. Qed.
Theorem C105_model : forall (c : Cfg) sg x y n,
  unchecked_add sg x y = stops (unsafe_add sg x y) /\ unchecked_sub sg x y = stops (unsafe_sub sg x y) /\
  unchecked_mul sg x y = stops (unsafe_mul sg x y) /\ unchecked_shl x n = stops (unsafe_shl x n) /\
  unchecked_shr sg x n = stops (unsafe_shr sg x n) /\ s_unchecked_neg x = stops (unsafe_neg x).
Proof. intros. unfold unsafe_add, unsafe_sub, unsafe_mul, unsafe_shl, unsafe_shr, unsafe_neg. rewrite !stops_unwrap. repeat split; reflexivity. Qed.

(** ** Guards a caller can use

    Tests with the crate's own functions after which the unchecked form is
    defined and exact. *)
Definition exactly {c : Cfg} (o : outcome (list Z)) (sg : bool) (v : Z) : Prop :=
  exists r, o = Returns r /\ wf r /\ val sg r = v.
Theorem C105_guards : forall (c : Cfg) x y, Valid -> wf x -> wf y ->
  (ge_const false x y = Ok true -> exactly (unsafe_sub false x y) false (uval x - uval y)) /\
  (forall m d, u_max_value = Ok m -> wrapping_sub false m y = Ok d -> le_const false x d = Ok true ->
     exactly (unsafe_add false x y) false (uval x + uval y)) /\
  (forall a b, leading_zeros x = Ok a -> leading_zeros y = Ok b -> BITS <= a + b ->
     exactly (unsafe_mul false x y) false (uval x * uval y)) /\
  (is_negative x = Ok false -> is_negative y = Ok false -> exactly (unsafe_sub true x y) true (sval x - sval y)) /\
  (forall sx sy, is_negative x = Ok sx -> is_negative y = Ok sy -> sx <> sy -> exactly (unsafe_add true x y) true (sval x + sval y)) /\
  (is_negative x = Ok false -> exactly (unsafe_neg x) true (- sval x)).
Proof.
  intros c x y HV Hx Hy. pose proof (C105_add_sub c false x y HV Hx Hy) as ((U1 & _) & (U2 & _)).
  pose proof (C105_add_sub c true x y HV Hx Hy) as ((S1 & _) & (S2 & _)).
  pose proof (C105_mul_unsigned c x y HV Hx Hy) as (M & _). pose proof (C105_neg c x HV Hx) as ((G & _) & _).
  pose proof (uval_range HV x Hx) as Rx. pose proof (uval_range HV y Hy) as Ry.
  pose proof (sval_range HV x Hx) as Sx. pose proof (sval_range HV y Hy) as Sy.
  pose proof (pBh HV) as PB. pose proof (pBhalf HV) as PH. pose proof (pB_big HV) as PG. pose proof (BITS_pos HV) as B1. cbn [fits val] in *. unfold fits_u, fits_s in *.
  split; [|split; [|split; [|split; [|split]]]].
  - rewrite (ge_const_ok HV) by assumption. cbn [val]. intros E. inversion E as [E']. apply Z.leb_le in E'. apply U2. lia.
  - intros m d Em Ed El. rewrite (u_max_value_ok HV) in Em. inversion Em; subst m.
    rewrite (wrapping_sub_ok HV) in Ed by (try assumption; apply (wf_ofZ HV)). inversion Ed; subst d.
    rewrite (le_const_ok HV) in El by (try assumption; apply (wf_ofZ HV)). inversion El as [El']. apply Z.leb_le in El'. cbn [val] in El'.
    rewrite !(uval_ofZ HV) in El'.
    assert (E1 : (-1) mod 2 ^ BITS = 2 ^ BITS - 1) by (rewrite <- (Z_mod_plus_full (-1) 1 (2 ^ BITS)), Z.mod_small; lia). rewrite E1 in El'.
    rewrite Z.mod_small in El' by lia. apply U1. lia.
  - intros a b Ea Eb L. rewrite (leading_zeros_ok HV) in Ea, Eb by assumption. injection Ea as <-. injection Eb as <-. apply M. unfold lz_of in L.
    split; [nia|].
    destruct (Z.eqb_spec (uval x) 0) as [->|Nx]; [lia|]. destruct (Z.eqb_spec (uval y) 0) as [->|Ny]; [lia|].
    assert (X0 : 0 < uval x) by lia. assert (Y0 : 0 < uval y) by lia.
    pose proof (Z.log2_spec (uval x) X0) as (_ & Lx). pose proof (Z.log2_spec (uval y) Y0) as (_ & Ly).
    pose proof (Z.log2_nonneg (uval x)). pose proof (Z.log2_nonneg (uval y)).
    assert (2 ^ (Z.succ (Z.log2 (uval x)) + Z.succ (Z.log2 (uval y))) <= 2 ^ BITS) by (apply Z.pow_le_mono_r; lia).
    rewrite Z.pow_add_r in * by lia. nia.
  - rewrite !(is_negative_ok HV) by assumption. intros E1 E2. inversion E1 as [F1]. inversion E2 as [F2]. apply Z.ltb_ge in F1, F2. apply S2. lia.
  - rewrite !(is_negative_ok HV) by assumption. intros sx sy E1 E2 D. inversion E1; inversion E2; subst. apply S1.
    destruct (Z.ltb_spec (sval x) 0), (Z.ltb_spec (sval y) 0); try lia; exfalso; apply D; reflexivity.
  - rewrite (is_negative_ok HV) by assumption. intros E1. inversion E1 as [F1]. apply Z.ltb_ge in F1. apply G. lia.
Qed.

(** ** The transmutes: the sizes agree, and for which widths they would *)

Theorem C105_transmutes : forall (c : Cfg), Valid ->
  forallb same_size (endian_transmutes BITS (W / 8)) = true /\ same_size (wide_transmute (W / 8)) = true /\ same_size u128_transmute = true.
Proof.
  intros c HV. split; [|split; [|reflexivity]].
  - destruct HV as (HW & (k & Hk & E) & _). unfold BITS in *. rewrite E.
    unfold endian_transmutes, t_limbs, t_wide, t_u32_len, t_u64_len, t_bytes. 
    assert (E8 : 128 * k / 8 = 16 * k) by (replace (128 * k) with (16 * k * 8) by lia; apply Z.div_mul; lia). rewrite E8.
    assert (D : forall d, (d | 16) -> 0 < d -> d * (16 * k / d) = 16 * k).
    { intros d (e & He) Hd. rewrite He. replace (e * d * k) with (e * k * d) by lia. rewrite Z.div_mul by lia. lia. }
    assert (D4 : (4 | 16)) by (exists 4; reflexivity). assert (D8 : (8 | 16)) by (exists 2; reflexivity). assert (D16 : (16 | 16)) by (exists 1; reflexivity).
    cbn [forallb same_size].
    destruct HW as [HW|HW]; rewrite HW.
    + change (32 / 8) with 4. change (2 * 4) with 8. rewrite (D 4), (D 8), (Z.mul_1_l) by (auto; lia). rewrite Z.eqb_refl. reflexivity.
    + change (64 / 8) with 8. change (2 * 8) with 16. rewrite (D 4), (D 8), (D 16), (Z.mul_1_l) by (auto; lia). rewrite Z.eqb_refl. reflexivity.
  - unfold wide_transmute, same_size. apply Z.eqb_eq. lia.
Qed.
(** A type of another width would compile exactly when its bytes are a multiple
    of the wide type's: the crate's widths all are. *)
Theorem C105_widths : forall bits limb, 0 <= bits -> limb = 4 \/ limb = 8 ->
  (forallb same_size (endian_transmutes bits limb) = true <-> (bits / 8) mod (2 * limb) = 0).
Proof.
  intros bits limb Hb Hl. unfold endian_transmutes, t_limbs, t_wide, t_u32_len, t_u64_len, t_bytes.
  set (b := bits / 8). assert (0 <= b) by (apply Z.div_pos; lia). cbn [forallb same_size]. rewrite !andb_true_iff, !Z.eqb_eq.
  assert (D : forall d, 0 < d -> (d * (b / d) = b <-> b mod d = 0)) by (intros d Hd; pose proof (Z.div_mod b d ltac:(lia)); lia).
  assert (Z8 : b mod 8 = 0 -> b mod 4 = 0).
  { intros E. apply Z.mod_divide in E; [|lia]. apply Z.mod_divide; [lia|]. destruct E as (k & ->). exists (k * 2). lia. }
  assert (Z16 : b mod 16 = 0 -> b mod 8 = 0).
  { intros E. apply Z.mod_divide in E; [|lia]. apply Z.mod_divide; [lia|]. destruct E as (k & ->). exists (k * 2). lia. }
  pose proof (D 4 ltac:(lia)). pose proof (D 8 ltac:(lia)). pose proof (D 16 ltac:(lia)).
  destruct Hl as [-> | ->]; [change (2 * 4) with 8|change (2 * 8) with 16]; intuition lia.
Qed.

Example C105_ex1 : @unsafe_add c256_64 false (E64 (2 ^ 256 - 1)) (E64 1) = Undefined
  /\ @unsafe_add c256_64 true (E64 (-5)) (E64 3) = Returns (E64 (-2)) /\ @unsafe_sub c256_64 false (E64 3) (E64 5) = Undefined
  /\ @unsafe_mul c256_64 false (E64 (2 ^ 128)) (E64 (2 ^ 128)) = Undefined /\ @unsafe_mul c256_64 false (E64 7) (E64 6) = Returns (E64 42).
Proof. vm_compute. repeat split; reflexivity. Qed.
Example C105_ex2 : @unsafe_mul c256_64 true (E64 (-1 - 2 ^ 254)) (E64 2) = Returns (E64 (2 ^ 255 - 2))
  /\ @unsafe_mul c256_64 true (E64 (- 2 ^ 254)) (E64 2) = Returns (E64 (- 2 ^ 255)) /\ @unsafe_mul c256_64 true (E64 (2 ^ 254)) (E64 2) = Undefined.
Proof. vm_compute. repeat split; reflexivity. Qed.
Example C105_ex3 : @unsafe_shl c256_64 (E64 3) 255 = Returns (E64 (2 ^ 255)) /\ @unsafe_shl c256_64 (E64 3) 256 = Undefined
  /\ @unsafe_shr c256_64 true (E64 (-3)) 1 = Returns (E64 (-2)) /\ @unsafe_shr c256_64 true (E64 (-3)) 256 = Undefined
  /\ @unsafe_neg c256_64 (E64 (- 2 ^ 255)) = Undefined /\ @unsafe_neg c256_64 (E64 5) = Returns (E64 (-5)).
Proof. vm_compute. repeat split; reflexivity. Qed.
Example C105_ex4 : @leading_zeros c256_64 (E64 (2 ^ 100)) = Ok 155 /\ @leading_zeros c256_64 (E64 (2 ^ 154)) = Ok 101
  /\ @unsafe_mul c256_64 false (E64 (2 ^ 100)) (E64 (2 ^ 154)) = Returns (E64 (2 ^ 254)).
Proof. vm_compute. repeat split; reflexivity. Qed.
Example C105_ex5 : forallb same_size (endian_transmutes 192 4) = true /\ forallb same_size (endian_transmutes 192 8) = false
  /\ forallb same_size (endian_transmutes 384 8) = true.
Proof. vm_compute. auto. Qed.

(** ** Assumptions (each must print "Closed under the global context") *)

Print Assumptions C105_add_sub.
Print Assumptions C105_mul_unsigned.
Print Assumptions C105_mul_signed.
Print Assumptions C105_mul_signed_refuted.
Print Assumptions C105_shifts.
Print Assumptions C105_neg.
Print Assumptions C105_no_panic.
Print Assumptions C105_model.
Print Assumptions C105_guards.
Print Assumptions C105_transmutes.
Print Assumptions C105_widths.
