(** * One-limb helpers, equality and hashing, remaining num-traits forwards *)

Require Import ZArith List Bool Lia.
From Verif Require Import Prim Spec Facts MAdd MCore MArith MLayout MLimb PRet PAdd PCore PWide PArith PLayout PropsArith PropsLayout.
Import ListNotations.
Local Open Scope Z_scope.
Local Notation E64 := (@ofZ c256_64).
Local Notation E32 := (@ofZ c256_32).

(** ** C73 *)

(** Carries and borrows of one limb are exact. *)
Theorem C73_carry : forall (c : Cfg) x y b, W = 32 \/ W = 64 -> fits_u W x -> fits_u W y ->
  let r := carrying_add x y b in let s := borrowing_sub x y b in
  fits_u W (fst r) /\ fst r + 2 ^ W * b2z (snd r) = x + y + b2z b /\
  fits_u W (fst s) /\ fst s - 2 ^ W * b2z (snd s) = x - y - b2z b.
Proof.
  intros c x y b HW Hx Hy r s. unfold fits_u in *. assert (W1 : 1 <= W <= 64) by lia.
  destruct r as [v f] eqn:Er, s as [v' f'] eqn:Es. subst r s. cbn [fst snd].
  destruct (carrying_add_spec W1 x y b Hx Hy v f Er). destruct (borrowing_sub_spec W1 x y b Hx Hy v' f' Es). auto.
Qed.
(** Products with carries fill exactly two limbs. *)
Theorem C73_product : forall (c : Cfg) x y z a, W = 32 \/ W = 64 -> fits_u W x -> fits_u W y -> fits_u W z -> fits_u W a ->
  (exists lo hi, carrying_mul_limb x y z = Ok (lo, hi) /\ fits_u W lo /\ fits_u W hi /\ lo + 2 ^ W * hi = x * y + z) /\
  (exists lo hi, mac a x y z = Ok (lo, hi) /\ fits_u W lo /\ fits_u W hi /\ lo + 2 ^ W * hi = a + x * y + z).
Proof.
  intros c x y z a HW Hx Hy Hz Ha. unfold fits_u in *. assert (P : 0 < 2 ^ W) by (apply Z.pow_pos_nonneg; lia).
  assert (PP : 2 ^ (2 * W) = 2 ^ W * 2 ^ W) by (rewrite <- Z.pow_add_r by lia; f_equal; lia).
  assert (XY : 0 <= x * y <= (2 ^ W - 1) * (2 ^ W - 1)) by nia.
  assert (D : forall v, 0 <= v < 2 ^ (2 * W) -> exists lo hi, (let* h := ushr (2 * W) v W in Ok (ucast W v, ucast W h)) = Ok (lo, hi) /\ 0 <= lo < 2 ^ W /\ 0 <= hi < 2 ^ W /\ lo + 2 ^ W * hi = v).
  { intros v Hv. rewrite ushr_ok by lia. cbn [bind]. unfold ucast. assert (0 <= v / 2 ^ W < 2 ^ W) by (split; [apply Z.div_pos; lia|apply Z.div_lt_upper_bound; lia]).
    rewrite (Z.mod_small (v / 2 ^ W)) by lia. exists (v mod 2 ^ W), (v / 2 ^ W). split; [reflexivity|]. split; [apply Z.mod_pos_bound; exact P|]. split; [assumption|]. rewrite Z.add_comm. symmetry. apply Z.div_mod. lia. }
  split.
  - unfold carrying_mul_limb, umul, uadd. rewrite uchk_ok by (unfold fits_u; nia). cbn [bind]. rewrite uchk_ok by (unfold fits_u; nia). cbn [bind]. apply D. nia.
  - unfold mac, umul, uadd. rewrite uchk_ok by (unfold fits_u; nia). cbn [bind]. rewrite uchk_ok by (unfold fits_u; nia). cbn [bind]. rewrite uchk_ok by (unfold fits_u; nia). cbn [bind]. apply D. nia.
Qed.
(** The signed helpers wrap and flag exactly, also when the carry repairs the sum. *)
Lemma two_steps : forall w u k, 1 <= w -> (k = 0 \/ k = 1 \/ k = -1) -> - 2 ^ w <= u <= 2 ^ w - 1 ->
  scast w (scast w u + k) = swrap w (u + k) /\ xorb (negb (in_s w u)) (negb (in_s w (scast w u + k))) = negb (in_s w (u + k)).
Proof.
  intros w u k Hw Hk Hu. rewrite !scast_swrap by auto. pose proof (pow2_half w Hw) as HP. pose proof (pow2_pos (w - 1) ltac:(lia)) as P0.
  split.
  - apply swrap_eq_mod; auto. rewrite <- Zplus_mod_idemp_l. rewrite swrap_mod by auto. apply Zplus_mod_idemp_l.
  - destruct (in_s_reflect w u) as [F|F]; unfold fits_s in F.
    + replace (swrap w u) with u; [destruct (in_s w (u + k)); reflexivity|]. symmetry. apply swrap_unique with (k := 0); auto; unfold fits_s; lia.
    + assert (C : u < - 2 ^ (w - 1) \/ 2 ^ (w - 1) <= u) by lia. destruct C as [C|C].
      * replace (swrap w u) with (u + 2 ^ w) by (symmetry; apply swrap_unique with (k := -1); auto; lia).
        destruct (in_s_reflect w (u + 2 ^ w + k)) as [A|A]; destruct (in_s_reflect w (u + k)) as [A'|A']; unfold fits_s in *; cbn; auto; exfalso; lia.
      * replace (swrap w u) with (u - 2 ^ w) by (symmetry; apply swrap_unique with (k := 1); auto; lia).
        destruct (in_s_reflect w (u - 2 ^ w + k)) as [A|A]; destruct (in_s_reflect w (u + k)) as [A'|A']; unfold fits_s in *; cbn; auto; exfalso; lia.
Qed.
Theorem C73_signed_carry : forall (c : Cfg) x y b, W = 32 \/ W = 64 -> fits_s W x -> fits_s W y ->
  let r := carrying_add_signed x y b in
  fst r = swrap W (x + y + b2z b) /\ (snd r = false <-> fits_s W (x + y + b2z b)).
Proof.
  intros c x y b HW Hx Hy. unfold fits_s in Hx, Hy. assert (W1 : 1 <= W) by lia. pose proof (pow2_half W W1) as HP.
  unfold carrying_add_signed, p_soverflowing_add. cbn [fst snd]. destruct (two_steps W (x + y) (b2z b) W1) as (A & B); [destruct b; cbn; auto|lia|].
  rewrite A, B. split; [reflexivity|]. rewrite negb_false_iff. apply in_s_spec.
Qed.
Theorem C73_signed_borrow : forall (c : Cfg) x y b, W = 32 \/ W = 64 -> fits_s W x -> fits_s W y ->
  let r := borrowing_sub_signed x y b in
  fst r = swrap W (x - y - b2z b) /\ (snd r = false <-> fits_s W (x - y - b2z b)).
Proof.
  intros c x y b HW Hx Hy. unfold fits_s in Hx, Hy. assert (W1 : 1 <= W) by lia. pose proof (pow2_half W W1) as HP.
  unfold borrowing_sub_signed, p_soverflowing_sub. cbn [fst snd]. destruct (two_steps W (x - y) (- b2z b) W1) as (A & B); [destruct b; cbn; auto|lia|].
  replace (x - y - b2z b) with (x - y + - b2z b) by lia. replace (scast W (x - y) - b2z b) with (scast W (x - y) + - b2z b) by lia.
  rewrite A, B. split; [reflexivity|]. rewrite negb_false_iff. apply in_s_spec.
Qed.
Example C73_ex1 : carrying_add (c := c256_64) (2 ^ 64 - 1) (2 ^ 64 - 1) true = (2 ^ 64 - 1, true) /\ carrying_mul_limb (c := c256_64) (2 ^ 64 - 1) (2 ^ 64 - 1) (2 ^ 64 - 1) = Ok (0, 2 ^ 64 - 1) /\
  mac (c := c256_32) 4294967295 4294967295 4294967295 4294967295 = Ok (4294967295, 4294967295) /\
  carrying_add_signed (c := c256_64) (- 2 ^ 63) (-1) true = (- 2 ^ 63, false) /\ borrowing_sub_signed (c := c256_64) (2 ^ 63 - 1) (-1) true = (2 ^ 63 - 1, false) /\
  carrying_add_signed (c := c256_64) (2 ^ 63 - 1) 0 true = (- 2 ^ 63, true).
Proof. vm_compute. repeat split. Qed.

(** Derived equality and hashing look at the stored array: two values are equal, and feed
    the same data to a hasher, exactly when they are the same number. *)
Lemma lenc8_inj : forall (c : Cfg), Valid -> forall x y, wf x -> wf y -> lenc 8 BYTES (uval x) = lenc 8 BYTES (uval y) -> uval x = uval y.
Proof.
  intros c HV x y Hx Hy E. apply (f_equal (lval 8)) in E. rewrite !lval_lenc in E by lia.
  assert (P : 2 ^ (8 * Z.of_nat BYTES) = 2 ^ BITS) by (f_equal; apply (bytes_bits HV)).
  rewrite P in E. rewrite !Z.mod_small in E by (apply (uval_range HV); auto). exact E.
Qed.
Theorem C73_hash : forall (c : Cfg) be m m', Valid -> wf (ord be m) -> wf (ord be m') ->
  (derived_eq m m' = true <-> uval (ord be m) = uval (ord be m')) /\
  (derived_hash be m = derived_hash be m' <-> uval (ord be m) = uval (ord be m')) /\
  (forall b, to_ne_bytes be m = Ok b -> derived_hash be m = [WriteLength N; WriteBytes b]).
Proof.
  intros c be m m' HV Hm Hm'.
  assert (OE : uval (ord be m) = uval (ord be m') -> m = m').
  { intro E. rewrite <- (ord_ord be m), <- (ord_ord be m'). f_equal. rewrite <- (ofZ_uval HV _ Hm), <- (ofZ_uval HV _ Hm'). f_equal. exact E. }
  assert (HE : transmute_to_bytes be limb_bytes m = transmute_to_bytes be limb_bytes m' -> uval (ord be m) = uval (ord be m')).
  { intro E. pose proof (to_ne_bytes_ok HV be (ord be m) Hm) as A. pose proof (to_ne_bytes_ok HV be (ord be m') Hm') as A'. rewrite ord_ord in A, A'. unfold to_ne_bytes in A, A'.
    apply (lenc8_inj c HV); auto. injection A as A. injection A' as A'. rewrite A, A' in E. rewrite <- (ord_ord be (lenc 8 BYTES (uval (ord be m)))), E. apply ord_ord. }
  split; [|split].
  - unfold derived_eq. destruct (list_eq_dec Z.eq_dec m m') as [E|E]; (split; intro H); [subst; reflexivity|reflexivity|discriminate H|exfalso; apply E; auto].
  - unfold derived_hash. split; intro H.
    + injection H as _ H. apply HE. exact H.
    + rewrite (OE H). reflexivity.
  - intros b Hb. unfold to_ne_bytes in Hb. injection Hb as <-. unfold derived_hash. do 2 f_equal. destruct Hm as (HL & _). rewrite <- HL. symmetry. apply length_ord.
Qed.
Example C73_ex2 : derived_hash (c := c256_64) false (E64 258) = [WriteLength 4; WriteBytes (2 :: 1 :: repeat 0 30)] /\
  derived_hash (c := c256_64) true (rev (E64 258)) = [WriteLength 4; WriteBytes (repeat 0 30 ++ [1; 2])].
Proof. vm_compute. auto. Qed.

(** The remaining num-traits forwards. *)
Theorem C73_forwards : forall (c : Cfg) x y, Valid -> wf x -> wf y ->
  returns_u (nt_saturating_add false x y) (Z.max 0 (Z.min (2 ^ BITS - 1) (uval x + uval y))) /\
  returns_u (nt_saturating_sub false x y) (Z.max 0 (uval x - uval y)) /\
  returns_s (nt_saturating_add true x y) (Z.max (- 2 ^ (BITS - 1)) (Z.min (2 ^ (BITS - 1) - 1) (sval x + sval y))) /\
  returns_s (nt_saturating_sub true x y) (Z.max (- 2 ^ (BITS - 1)) (Z.min (2 ^ (BITS - 1) - 1) (sval x - sval y))).
Proof.
  intros c x y HV Hx Hy. split; [apply C02_saturating_add; auto|]. split; [|split; [apply C05_saturating_add; auto|apply C05_saturating_sub; auto]].
  destruct (C02_saturating_sub c x y HV Hx Hy) as (r & E & Wr & V). exists r. split; [exact E|]. split; [exact Wr|]. rewrite V. pose proof (uval_range HV x Hx). pose proof (uval_range HV y Hy). lia.
Qed.
Theorem C73_bytes : forall (c : Cfg) be, Valid ->
  digits_out be false 8 (nt_to_le_bytes be) /\ digits_out be true 8 (nt_to_be_bytes be) /\ digits_in be false 8 (nt_from_le_bytes be) /\ digits_in be true 8 (nt_from_be_bytes be).
Proof. intros c be HV. destruct (C22_to_bytes c be HV) as (A & B & _). destruct (C22_from_bytes c be HV) as (C & D & _). auto. Qed.
Theorem C73_as_from : forall (c : Cfg) code b, Valid -> 0 <= code <= 0x10FFFF ->
  returns_u (as_from_char code) code /\ returns_s (as_from_char code) code /\ returns_u (as_from_bool b) (b2z b) /\ returns_s (as_from_bool b) (b2z b).
Proof.
  intros c code b HV Hc. pose proof (pB HV) as PB. assert (BG : 2 ^ 255 <= 2 ^ (BITS - 1)) by (apply Z.pow_le_mono_r; pose proof (BITS_ge HV); lia).
  assert (U : forall v, 0 <= v < 2 ^ 255 -> forall r, r = Ok (ofZ v) -> returns_u r v /\ returns_s r v).
  { intros v Hv r ->. assert (HP : 2 ^ BITS = 2 * 2 ^ (BITS - 1)) by (rewrite <- Z.pow_succ_r by (pose proof (BITS_ge HV); lia); f_equal; lia).
    split; exists (ofZ v); (split; [reflexivity|]; split; [apply (wf_ofZ HV)|]).
    - rewrite (uval_ofZ HV). apply Z.mod_small. lia.
    - rewrite (sval_ofZ HV). apply swrap_small; [pose proof (BITS_ge HV); lia|]. unfold fits_s. lia. }
  destruct (U code ltac:(lia) (as_from_char code)) as (A & B); [apply (from_u32_ok HV); unfold fits_u; lia|].
  destruct (U (b2z b) ltac:(destruct b; cbn; lia) (as_from_bool b)) as (A' & B'); [apply (from_u8_ok HV); unfold fits_u; destruct b; cbn; lia|]. auto.
Qed.
Example C73_ex3 : as_from_char (c := c256_32) 0x1F600 = Ok (E32 128512) /\ as_from_bool (c := c256_64) true = Ok (E64 1) /\
  nt_saturating_sub (c := c256_64) true (E64 (2 ^ 254)) (E64 (- 2 ^ 255)) = Ok (E64 (2 ^ 255 - 1)).
Proof. vm_compute. auto. Qed.

(** ** Assumptions (each must print "Closed under the global context") *)

Print Assumptions C73_carry.
Print Assumptions C73_product.
Print Assumptions C73_signed_carry.
Print Assumptions C73_signed_borrow.
Print Assumptions C73_hash.
Print Assumptions C73_forwards.
Print Assumptions C73_bytes.
Print Assumptions C73_as_from.
