(** * Properties: the array functions of the public [math] module (C69)

    The types of the crate use these functions with their own number of limbs.
    They are generic and public, so they can be called with arrays of any
    length; here they are stated for all lengths, with the shortest length each
    accepts and what happens below it. *)

Require Import ZArith List Bool Lia Znumtheory.
From Verif Require Import Prim Spec DivSpec Facts MAdd MMul MShift MDiv PAdd PAddS PMul PMulS PShift PRot PDiv PDivFull PRet.
Import ListNotations.
Local Open Scope Z_scope.

(** The value of an array in base [2^w], unsigned or two's complement. *)
Definition aval (w : Z) (sg : bool) (x : list Z) : Z :=
  if sg && (2 ^ (w * Z.of_nat (length x) - 1) <=? lval w x)
  then lval w x - 2 ^ (w * Z.of_nat (length x)) else lval w x.
(** The values that [n] digits can hold. *)
Definition afits (w : Z) (sg : bool) (n : nat) (v : Z) : Prop :=
  if sg then fits_s (w * Z.of_nat n) v else fits_u (w * Z.of_nat n) v.
(** "[n] digits, denoting [v] modulo [2^(w*n)]" *)
Definition denotes (w : Z) (n : nat) (r : list Z) (v : Z) : Prop :=
  length r = n /\ digits w r /\ lval w r = v mod 2 ^ (w * Z.of_nat n).
Definition gives (w : Z) (n : nat) (m : res (list Z)) (v : Z) : Prop :=
  exists r, m = Ok r /\ denotes w n r v.
Definition gives_flag (w : Z) (n : nat) (m : res (list Z * bool)) (v : Z) (p : Prop) : Prop :=
  exists r f, m = Ok (r, f) /\ denotes w n r v /\ (f = true <-> p).
Definition limb_widths (w : Z) : Prop := w = 32 \/ w = 64.

Lemma denotes_lenc : forall w n v, 0 <= w -> denotes w n (lenc w n v) v.
Proof. intros. split; [apply length_lenc|]. split; [apply digits_lenc; auto|apply lval_lenc; auto]. Qed.
Lemma denotes_cong : forall w n r v v', v mod 2 ^ (w * Z.of_nat n) = v' mod 2 ^ (w * Z.of_nat n) ->
  denotes w n r v -> denotes w n r v'.
Proof. intros w n r v v' E (H1 & H2 & H3). repeat split; auto. congruence. Qed.

Section M.
Context {c : Cfg}.
Hypothesis HL : limb_widths W.

Let HW : 1 <= W <= 64.
Proof. destruct HL as [-> | ->]; lia. Qed.
Let HW2 : 2 <= W <= 64.
Proof. destruct HL as [-> | ->]; lia. Qed.
Let W0 : 0 <= W.
Proof. lia. Qed.
Local Notation bits n := (W * Z.of_nat n).

Lemma aval_lsval : forall x, (1 <= length x)%nat -> digits W x -> aval W true x = lsval x.
Proof.
  intros x Lx Hx. unfold aval. cbn [andb]. destruct (lsval_cases HW x Lx Hx) as [(A & B & C)|(A & B & C)]; rewrite B.
  - rewrite (proj2 (Z.leb_gt _ _)); auto.
  - rewrite (proj2 (Z.leb_le _ _)); auto.
Qed.
Lemma aval_cong : forall sg x, exists q, aval W sg x = lval W x + q * 2 ^ bits (length x).
Proof. intros. unfold aval. destruct (sg && _); [exists (-1)|exists 0]; ring. Qed.
Lemma cong_mod : forall n a b q, a = b + q * 2 ^ bits n -> a mod 2 ^ bits n = b mod 2 ^ bits n.
Proof. intros n a b q ->. apply Z.mod_add. assert (0 < 2 ^ bits n) by (apply pow2_pos; nia). lia. Qed.

Lemma gives_ok : forall n m v v' q, m = Ok (lenc W n v) -> v' = v + q * 2 ^ bits n -> gives W n m v'.
Proof.
  intros n m v v' q -> E. eexists. split; [reflexivity|]. apply (denotes_cong _ _ _ v); [|apply denotes_lenc; auto].
  symmetry. eapply cong_mod; eauto.
Qed.
Lemma gives_flag_ok : forall n m v v' q p p', (exists f, m = Ok (lenc W n v, f) /\ (f = true <-> p)) ->
  v' = v + q * 2 ^ bits n -> (p <-> p') -> gives_flag W n m v' p'.
Proof.
  intros n m v v' q p p' (f & -> & F) E P. eexists. exists f. split; [reflexivity|].
  split; [|tauto]. apply (denotes_cong _ _ _ v); [|apply denotes_lenc; auto]. symmetry. eapply cong_mod; eauto.
Qed.

Definition add_full (sg : bool) := if sg then sadd_wrapping_full else add_wrapping_full.
Definition add_full_o (sg : bool) := if sg then sadd_overflowing_full else add_overflowing_full.
Definition sub_full (sg : bool) := if sg then ssub_wrapping_full else sub_wrapping_full.
Definition sub_full_o (sg : bool) := if sg then ssub_overflowing_full else sub_overflowing_full.
Definition mul_full (sg : bool) := if sg then smul_wrapping_full else mul_wrapping_full.
Definition mul_full_o (sg : bool) := if sg then smul_overflowing_full else mul_overflowing_full.

Lemma aval_u : forall x, aval W false x = lval W x.
Proof. reflexivity. Qed.
Lemma add_full_gives : forall sg x y, (2 <= length x)%nat -> length y = length x -> digits W x -> digits W y ->
  gives W (length x) (add_full sg x y) (aval W sg x + aval W sg y).
Proof.
  intros sg x y Lx Ly Hx Hy. destruct (aval_cong sg x) as (a & Ea). destruct (aval_cong sg y) as (b & Eb). rewrite Ly in Eb.
  apply (gives_ok _ _ (lval W x + lval W y) _ (a + b)); [|rewrite Ea, Eb; ring].
  destruct sg; [apply sadd_wrapping_full_ok|apply add_wrapping_full_ok]; auto; lia.
Qed.
Lemma add_full_o_gives : forall sg x y, (2 <= length x)%nat -> length y = length x -> digits W x -> digits W y ->
  gives_flag W (length x) (add_full_o sg x y) (aval W sg x + aval W sg y) (~ afits W sg (length x) (aval W sg x + aval W sg y)).
Proof.
  intros sg x y Lx Ly Hx Hy. destruct (aval_cong sg x) as (a & Ea). destruct (aval_cong sg y) as (b & Eb). rewrite Ly in Eb.
  destruct sg; cbn [add_full_o afits].
  - eapply (gives_flag_ok _ _ (lval W x + lval W y) _ (a + b)); [apply (sadd_overflowing_full_ok HW); auto|rewrite Ea, Eb; ring|].
    rewrite !aval_lsval by (auto; lia). reflexivity.
  - eapply (gives_flag_ok _ _ (lval W x + lval W y) _ (a + b)); [apply (add_overflowing_full_ok HW); auto|rewrite Ea, Eb; ring|reflexivity].
Qed.
Lemma sub_full_gives : forall sg x y, (2 <= length x)%nat -> length y = length x -> digits W x -> digits W y ->
  gives W (length x) (sub_full sg x y) (aval W sg x - aval W sg y).
Proof.
  intros sg x y Lx Ly Hx Hy. destruct (aval_cong sg x) as (a & Ea). destruct (aval_cong sg y) as (b & Eb). rewrite Ly in Eb.
  apply (gives_ok _ _ (lval W x - lval W y) _ (a - b)); [|rewrite Ea, Eb; ring].
  destruct sg; apply (sub_wrapping_full_ok HW); auto.
Qed.
Lemma sub_full_o_gives : forall sg x y, (2 <= length x)%nat -> length y = length x -> digits W x -> digits W y ->
  gives_flag W (length x) (sub_full_o sg x y) (aval W sg x - aval W sg y) (~ afits W sg (length x) (aval W sg x - aval W sg y)).
Proof.
  intros sg x y Lx Ly Hx Hy. destruct (aval_cong sg x) as (a & Ea). destruct (aval_cong sg y) as (b & Eb). rewrite Ly in Eb.
  destruct sg; cbn [sub_full_o afits].
  - eapply (gives_flag_ok _ _ (lval W x - lval W y) _ (a - b)); [apply (ssub_overflowing_full_ok HW); auto|rewrite Ea, Eb; ring|].
    rewrite !aval_lsval by (auto; lia). reflexivity.
  - eapply (gives_flag_ok _ _ (lval W x - lval W y) _ (a - b)); [apply (sub_overflowing_full_ok HW); auto|rewrite Ea, Eb; ring|reflexivity].
Qed.

(** Products; a shorter second factor is allowed for unsigned operands. *)
Lemma mul_full_gives : forall x y, (1 <= length y <= length x)%nat -> digits W x -> digits W y ->
  gives W (length x) (mul_wrapping_full x y) (lval W x * lval W y).
Proof. intros x y L Hx Hy. apply (gives_ok _ _ (lval W x * lval W y) _ 0); [apply (mul_wrapping_full_ok HW); auto|ring]. Qed.
Lemma lval_nn : forall x, digits W x -> 0 <= lval W x.
Proof. intros x Hx. apply (lval_range W x W0 Hx). Qed.
Lemma mul_full_o_gives : forall x y, (1 <= length y <= length x)%nat -> digits W x -> digits W y ->
  gives_flag W (length x) (mul_overflowing_full x y) (lval W x * lval W y) (~ afits W false (length x) (lval W x * lval W y)).
Proof.
  intros x y L Hx Hy. eapply (gives_flag_ok _ _ (lval W x * lval W y) _ 0); [apply (mul_overflowing_full_ok HW); auto|ring|].
  cbn [afits]. unfold fits_u. pose proof (lval_nn x Hx). pose proof (lval_nn y Hy).
  assert (0 <= lval W x * lval W y) by nia. lia.
Qed.
Lemma smul_full_gives : forall x y, (1 <= length x)%nat -> length y = length x -> digits W x -> digits W y ->
  gives W (length x) (smul_wrapping_full x y) (aval W true x * aval W true y).
Proof.
  intros x y Lx Ly Hx Hy. destruct (aval_cong true x) as (a & Ea). destruct (aval_cong true y) as (b & Eb). rewrite Ly in Eb.
  apply (gives_ok _ _ (lval W x * lval W y) _ (a * lval W y + b * lval W x + a * b * 2 ^ bits (length x))).
  - apply (mul_wrapping_full_ok HW); auto; lia.
  - rewrite Ea, Eb. ring.
Qed.
Definition seen_overflow (n : nat) (v : Z) : Prop :=
  2 ^ (bits n - 1) <= v \/ v <= - (2 ^ (bits n - 1) + 2 ^ (bits n - W)).
Lemma smul_full_o_gives : forall x y, (2 <= length x)%nat -> length y = length x -> digits W x -> digits W y ->
  gives_flag W (length x) (smul_overflowing_full x y) (aval W true x * aval W true y) (seen_overflow (length x) (aval W true x * aval W true y)).
Proof.
  intros x y Lx Ly Hx Hy. destruct (aval_cong true x) as (a & Ea). destruct (aval_cong true y) as (b & Eb). rewrite Ly in Eb.
  eapply (gives_flag_ok _ _ (lval W x * lval W y) _ (a * lval W y + b * lval W x + a * b * 2 ^ bits (length x)));
    [apply (smul_overflowing_full_ok HW); auto|rewrite Ea, Eb; ring|].
  rewrite !aval_lsval by (auto; lia). set (u := lsval x). set (v := lsval y). unfold seen_overflow.
  assert (P1 : 0 < 2 ^ (bits (length x) - 1)) by (apply pow2_pos; nia).
  assert (P2 : 0 < 2 ^ (bits (length x) - W)) by (apply pow2_pos; nia).
  destruct (Z.ltb_spec u 0), (Z.ltb_spec v 0); cbn [xorb].
  - assert (0 < u * v) by nia. lia.
  - assert (u * v <= 0) by nia. lia.
  - assert (u * v <= 0) by nia. lia.
  - assert (0 <= u * v) by nia. lia.
Qed.

(** A scalar as an array of the same length. *)
Lemma lenc_val : forall n v, fits_u (bits n) v -> lval W (lenc W n v) = v.
Proof. intros n v H. rewrite lval_lenc by auto. apply Z.mod_small. exact H. Qed.
Lemma lenc_aval : forall n v, (1 <= n)%nat -> fits_s (bits n) v -> aval W true (lenc W n v) = v.
Proof.
  intros n v Hn H. rewrite aval_lsval by (rewrite ?length_lenc; auto; apply digits_lenc; auto).
  rewrite (lsval_lenc HW) by auto. assert (HB : 1 <= bits n) by nia. unfold fits_s in H. pose proof (pow2_half (bits n) HB).
  apply (swrap_unique _ _ v 0); lia.
Qed.
Lemma digits_enc : forall n v, digits W (lenc W n v).
Proof. intros. apply digits_lenc; auto. Qed.
Lemma fits_s_up : forall (a : Z) (n : nat) v, 1 <= a <= bits n -> fits_s a v -> fits_s (bits n) v.
Proof.
  intros a n v Ha H. unfold fits_s in *. assert (2 ^ (a - 1) <= 2 ^ (bits n - 1)) by (apply Z.pow_le_mono_r; lia). lia.
Qed.
Lemma fits_us_up : forall (a : Z) (n : nat) v, 0 <= a < bits n -> fits_u a v -> fits_s (bits n) v.
Proof.
  intros a n v Ha H. unfold fits_s, fits_u in *. assert (2 ^ a <= 2 ^ (bits n - 1)) by (apply Z.pow_le_mono_r; lia). lia.
Qed.

(** The kinds of scalar operand: limb or wide (two limbs), signed or not. *)
Definition scalar_arg (ss wide : bool) (v : Z) : Prop :=
  let b := if wide then 2 * W else W in if ss then fits_s b v else fits_u b v.
Definition sadd_scalar (ss wide : bool) : list Z -> Z -> res (list Z) :=
  match ss, wide with
  | false, false => sadd_wrapping_ulimb | true, false => sadd_wrapping_ilimb
  | false, true => sadd_wrapping_uwide | true, true => sadd_wrapping_iwide end.
Definition sadd_scalar_o (ss wide : bool) : list Z -> Z -> res (list Z * bool) :=
  match ss, wide with
  | false, false => sadd_overflowing_ulimb | true, false => sadd_overflowing_ilimb
  | false, true => sadd_overflowing_uwide | true, true => sadd_overflowing_iwide end.
Definition ssub_scalar (ss wide : bool) : list Z -> Z -> res (list Z) :=
  match ss, wide with
  | false, false => ssub_wrapping_ulimb | true, false => ssub_wrapping_ilimb
  | false, true => ssub_wrapping_uwide | true, true => ssub_wrapping_iwide end.
Definition ssub_scalar_o (ss wide : bool) : list Z -> Z -> res (list Z * bool) :=
  match ss, wide with
  | false, false => ssub_overflowing_ulimb | true, false => ssub_overflowing_ilimb
  | false, true => ssub_overflowing_uwide | true, true => ssub_overflowing_iwide end.
Definition smul_scalar (ss wide : bool) : list Z -> Z -> res (list Z) :=
  match ss, wide with
  | false, false => smul_wrapping_ulimb | true, false => smul_wrapping_ilimb
  | false, true => smul_wrapping_uwide | true, true => smul_wrapping_iwide end.
Definition smul_scalar_o (ss wide : bool) : list Z -> Z -> res (list Z * bool) :=
  match ss, wide with
  | false, false => smul_overflowing_ulimb | true, false => smul_overflowing_ilimb
  | false, true => smul_overflowing_uwide | true, true => smul_overflowing_iwide end.

(** The shortest array on which the flag is right: an unsigned wide scalar
    needs a third limb to keep its sign. *)
Definition scalar_room (ss wide : bool) (n : nat) : Prop := (2 <= n)%nat /\ (ss = false -> wide = true -> (3 <= n)%nat).
Lemma scalar_fits : forall ss wide n v, scalar_room ss wide n -> scalar_arg ss wide v -> fits_s (bits n) v.
Proof.
  intros ss wide n v (R2 & R3) H. unfold scalar_arg in H. destruct ss, wide.
  - apply (fits_s_up (2 * W)); auto. nia.
  - apply (fits_s_up W); auto. nia.
  - specialize (R3 eq_refl eq_refl). apply (fits_us_up (2 * W)); auto. nia.
  - apply (fits_us_up W); auto. nia.
Qed.
Lemma ex_iff : forall (A : Type) (m : res (A * bool)) (r : A) (p p' : Prop), (exists f, m = Ok (r, f) /\ (f = true <-> p)) -> (p <-> p') ->
  exists f, m = Ok (r, f) /\ (f = true <-> p').
Proof. intros A m r p p' (f & E & F) H. exists f. tauto. Qed.

Lemma sadd_scalar_gives : forall ss wide x y, (2 <= length x)%nat -> digits W x -> scalar_arg ss wide y ->
  gives W (length x) (sadd_scalar ss wide x y) (aval W true x + y).
Proof.
  intros ss wide x y Lx Hx Hy. destruct (aval_cong true x) as (a & Ea). apply (gives_ok _ _ (lval W x + y) _ a); [|rewrite Ea; ring].
  destruct ss, wide; unfold scalar_arg, fits_u, fits_s in Hy; cbn [sadd_scalar].
  - unfold sadd_wrapping_iwide. rewrite (iwide_limbs_ok HW) by auto. cbn [bind]. rewrite (sadd_wrapping_full_ok HW) by (rewrite ?length_lenc; auto using digits_enc).
    rewrite (lenc_add_r HW). reflexivity.
  - unfold sadd_wrapping_ilimb. rewrite (ilimb_limbs_ok HW) by (auto; lia). cbn [bind]. rewrite (sadd_wrapping_full_ok HW) by (rewrite ?length_lenc; auto using digits_enc).
    rewrite (lenc_add_r HW). reflexivity.
  - unfold sadd_wrapping_uwide. rewrite (uwide_limbs_ok HW) by auto. cbn [bind]. rewrite (sadd_wrapping_full_ok HW) by (rewrite ?length_lenc; auto using digits_enc).
    rewrite (lenc_add_r HW). reflexivity.
  - apply (add_wrapping_limb_ok HW); auto.
Qed.
Lemma ssub_scalar_gives : forall ss wide x y, (2 <= length x)%nat -> digits W x -> scalar_arg ss wide y ->
  gives W (length x) (ssub_scalar ss wide x y) (aval W true x - y).
Proof.
  intros ss wide x y Lx Hx Hy. destruct (aval_cong true x) as (a & Ea). apply (gives_ok _ _ (lval W x - y) _ a); [|rewrite Ea; ring].
  destruct ss, wide; unfold scalar_arg, fits_u, fits_s in Hy; cbn [ssub_scalar].
  - unfold ssub_wrapping_iwide. rewrite (iwide_limbs_ok HW) by auto. cbn [bind]. unfold ssub_wrapping_full. rewrite (sub_wrapping_full_ok HW) by (rewrite ?length_lenc; auto using digits_enc).
    rewrite (lenc_sub_r HW). reflexivity.
  - unfold ssub_wrapping_ilimb. rewrite (ilimb_limbs_ok HW) by (auto; lia). cbn [bind]. unfold ssub_wrapping_full. rewrite (sub_wrapping_full_ok HW) by (rewrite ?length_lenc; auto using digits_enc).
    rewrite (lenc_sub_r HW). reflexivity.
  - unfold ssub_wrapping_uwide. rewrite (uwide_limbs_ok HW) by auto. cbn [bind]. unfold ssub_wrapping_full. rewrite (sub_wrapping_full_ok HW) by (rewrite ?length_lenc; auto using digits_enc).
    rewrite (lenc_sub_r HW). reflexivity.
  - apply (sub_wrapping_limb_ok HW); auto.
Qed.
Lemma via_limbs : forall (f : list Z -> list Z -> res (list Z * bool)) (mk : nat -> Z -> res (list Z)) n y,
  mk n y = Ok (lenc W n y) -> forall x, (let* rhs := mk n y in f x rhs) = f x (lenc W n y).
Proof. intros f mk n y E x. rewrite E. reflexivity. Qed.
Lemma scalar_limbs : forall ss wide n y, (2 <= n)%nat -> scalar_arg ss wide y ->
  (match ss, wide with
   | false, false => set (repeat 0 n) 0 y | true, false => ilimb_limbs n y
   | false, true => uwide_limbs n y | true, true => iwide_limbs n y end) = Ok (lenc W n y).
Proof.
  intros ss wide n y Hn Hy. destruct ss, wide; unfold scalar_arg, fits_u, fits_s in Hy.
  - apply (iwide_limbs_ok HW); auto.
  - apply (ilimb_limbs_ok HW); auto; lia.
  - apply (uwide_limbs_ok HW); auto.
  - rewrite set_ok by (rewrite repeat_length; lia). f_equal. apply (set0_repeat HW2); auto; lia.
Qed.
Lemma sadd_scalar_o_gives : forall ss wide x y, scalar_room ss wide (length x) -> digits W x -> scalar_arg ss wide y ->
  gives_flag W (length x) (sadd_scalar_o ss wide x y) (aval W true x + y) (~ afits W true (length x) (aval W true x + y)).
Proof.
  intros ss wide x y R Hx Hy. pose proof (scalar_fits _ _ _ _ R Hy) as F. destruct R as (Lx & _).
  assert (G : sadd_scalar_o ss wide x y = sadd_overflowing_full x (lenc W (length x) y) \/ (ss = false /\ wide = false)).
  { pose proof (scalar_limbs ss wide (length x) y Lx Hy) as E. destruct ss, wide; auto; left; cbn [sadd_scalar_o];
      unfold sadd_overflowing_iwide, sadd_overflowing_ilimb, sadd_overflowing_uwide; rewrite E; reflexivity. }
  destruct G as [G|(-> & ->)].
  - rewrite G. pose proof (add_full_o_gives true x (lenc W (length x) y) Lx (length_lenc _ _ _) Hx (digits_enc _ _)) as A.
    rewrite lenc_aval in A by (auto; lia). exact A.
  - destruct (aval_cong true x) as (a & Ea). unfold scalar_arg, fits_u in Hy.
    eapply (gives_flag_ok _ _ (lval W x + y) _ a); [apply (sadd_overflowing_ulimb_ok HW); auto|rewrite Ea; ring|].
    rewrite aval_lsval by (auto; lia). reflexivity.
Qed.
Lemma ssub_scalar_o_gives : forall ss wide x y, scalar_room ss wide (length x) -> digits W x -> scalar_arg ss wide y ->
  gives_flag W (length x) (ssub_scalar_o ss wide x y) (aval W true x - y) (~ afits W true (length x) (aval W true x - y)).
Proof.
  intros ss wide x y R Hx Hy. pose proof (scalar_fits _ _ _ _ R Hy) as F. destruct R as (Lx & _).
  assert (G : ssub_scalar_o ss wide x y = ssub_overflowing_full x (lenc W (length x) y) \/ (ss = false /\ wide = false)).
  { pose proof (scalar_limbs ss wide (length x) y Lx Hy) as E. destruct ss, wide; auto; left; cbn [ssub_scalar_o];
      unfold ssub_overflowing_iwide, ssub_overflowing_ilimb, ssub_overflowing_uwide; rewrite E; reflexivity. }
  destruct G as [G|(-> & ->)].
  - rewrite G. pose proof (sub_full_o_gives true x (lenc W (length x) y) Lx (length_lenc _ _ _) Hx (digits_enc _ _)) as A.
    rewrite lenc_aval in A by (auto; lia). exact A.
  - destruct (aval_cong true x) as (a & Ea). unfold scalar_arg, fits_u in Hy.
    eapply (gives_flag_ok _ _ (lval W x - y) _ a); [apply (ssub_overflowing_ulimb_ok HW); auto|rewrite Ea; ring|].
    rewrite aval_lsval by (auto; lia). reflexivity.
Qed.
Lemma smul_scalar_o_gives : forall ss wide x y, scalar_room ss wide (length x) -> digits W x -> scalar_arg ss wide y ->
  gives_flag W (length x) (smul_scalar_o ss wide x y) (aval W true x * y) (seen_overflow (length x) (aval W true x * y)).
Proof.
  intros ss wide x y R Hx Hy. pose proof (scalar_fits _ _ _ _ R Hy) as F. destruct R as (Lx & _).
  assert (G : smul_scalar_o ss wide x y = smul_overflowing_full x (lenc W (length x) y)).
  { pose proof (scalar_limbs ss wide (length x) y Lx Hy) as E. destruct ss, wide; cbn [smul_scalar_o];
      unfold smul_overflowing_iwide, smul_overflowing_ilimb, smul_overflowing_uwide, smul_overflowing_ulimb; rewrite E; reflexivity. }
  rewrite G. pose proof (smul_full_o_gives x (lenc W (length x) y) Lx (length_lenc _ _ _) Hx (digits_enc _ _)) as A.
  rewrite lenc_aval in A by (auto; lia). exact A.
Qed.
Lemma short_enc : forall y, 0 <= y < 2 ^ W -> lval W [y] = y /\ digits W [y].
Proof. intros y Hy. cbn [lval]. split; [ring|]. constructor; auto. Qed.
Lemma smul_scalar_gives : forall ss wide x y, (2 <= length x)%nat -> digits W x -> scalar_arg ss wide y ->
  gives W (length x) (smul_scalar ss wide x y) (aval W true x * y).
Proof.
  intros ss wide x y Lx Hx Hy. destruct (aval_cong true x) as (a & Ea).
  assert (G : exists v q, gives W (length x) (smul_scalar ss wide x y) v /\ aval W true x * y = v + q * 2 ^ bits (length x)).
  { pose proof (scalar_limbs ss wide (length x) y Lx Hy) as E. destruct ss; unfold scalar_arg in Hy.
    - assert (S : smul_scalar true wide x y = mul_wrapping_full x (lenc W (length x) y)).
      { destruct wide; cbn [smul_scalar]; unfold smul_wrapping_iwide, smul_wrapping_ilimb; rewrite E; reflexivity. }
      rewrite S. set (P := 2 ^ bits (length x)). exists (lval W x * lval W (lenc W (length x) y)), (a * y + lval W x * (y / P)).
      split; [apply mul_full_gives; rewrite ?length_lenc; auto using digits_enc; lia|].
      rewrite lval_lenc by auto. fold P. fold P in Ea.
      assert (0 < P) by (apply pow2_pos; nia). assert (HP : P <> 0) by lia. pose proof (Z.div_mod y P HP) as D.
      rewrite Ea. set (d := y / P) in *. set (m := y mod P) in *. clearbody d m. rewrite D. ring.
    - destruct wide; unfold fits_u in Hy; cbn [smul_scalar].
      + unfold smul_wrapping_uwide. rewrite (wide_limbs_ok HW) by auto. cbn [bind].
        exists (lval W x * y), (a * y). split; [|rewrite Ea; ring].
        rewrite <- (lval_wide_limbs HW y Hy) at 2. apply mul_full_gives; rewrite ?length_lenc; auto using digits_enc; lia.
      + unfold smul_wrapping_ulimb. destruct (short_enc y Hy) as (Ev & Ed). exists (lval W x * y), (a * y). split; [|rewrite Ea; ring].
        rewrite <- Ev at 2. apply mul_full_gives; auto. cbn [length]. lia. }
  destruct G as (v & q & (r & Er & D) & Ev). exists r. split; auto. eapply denotes_cong; [|exact D]. symmetry. eapply cong_mod; eauto.
Qed.

(** Unsigned operand with an unsigned scalar. *)
Definition add_scalar (wide : bool) := if wide then add_wrapping_wide else add_wrapping_limb.
Definition add_scalar_o (wide : bool) := if wide then add_overflowing_wide else add_overflowing_limb.
Definition sub_scalar (wide : bool) := if wide then sub_wrapping_wide else sub_wrapping_limb.
Definition sub_scalar_o (wide : bool) := if wide then sub_overflowing_wide else sub_overflowing_limb.
Definition mul_scalar (wide : bool) := if wide then mul_wrapping_wide else mul_wrapping_limb.
Definition mul_scalar_o (wide : bool) := if wide then mul_overflowing_wide else mul_overflowing_limb.
Lemma u_scalar_gives : forall wide x y, (2 <= length x)%nat -> (wide = true -> 3 <= length x)%nat -> digits W x -> scalar_arg false wide y ->
  gives W (length x) (add_scalar wide x y) (lval W x + y) /\ gives W (length x) (sub_scalar wide x y) (lval W x - y) /\
  gives_flag W (length x) (add_scalar_o wide x y) (lval W x + y) (~ afits W false (length x) (lval W x + y)) /\
  gives_flag W (length x) (sub_scalar_o wide x y) (lval W x - y) (~ afits W false (length x) (lval W x - y)).
Proof.
  intros wide x y Lx L3 Hx Hy. unfold scalar_arg, fits_u in Hy. destruct wide; cbn [add_scalar sub_scalar add_scalar_o sub_scalar_o]; try specialize (L3 eq_refl).
  - split; [|split; [|split]].
    + apply (gives_ok _ _ (lval W x + y) _ 0); [apply (add_wrapping_wide_ok HW); auto|ring].
    + apply (gives_ok _ _ (lval W x - y) _ 0); [apply (sub_wrapping_wide_ok HW); auto|ring].
    + eapply (gives_flag_ok _ _ (lval W x + y) _ 0); [apply (add_overflowing_wide_ok HW); auto|ring|reflexivity].
    + eapply (gives_flag_ok _ _ (lval W x - y) _ 0); [apply (sub_overflowing_wide_ok HW); auto|ring|reflexivity].
  - split; [|split; [|split]].
    + apply (gives_ok _ _ (lval W x + y) _ 0); [apply (add_wrapping_limb_ok HW); auto|ring].
    + apply (gives_ok _ _ (lval W x - y) _ 0); [apply (sub_wrapping_limb_ok HW); auto|ring].
    + eapply (gives_flag_ok _ _ (lval W x + y) _ 0); [apply (add_overflowing_limb_ok HW); auto|ring|reflexivity].
    + eapply (gives_flag_ok _ _ (lval W x - y) _ 0); [apply (sub_overflowing_limb_ok HW); auto|ring|reflexivity].
Qed.
Lemma u_mul_scalar_gives : forall (wide : bool) x y, ((if wide then 2 else 1) <= length x)%nat -> digits W x -> scalar_arg false wide y ->
  gives W (length x) (mul_scalar wide x y) (lval W x * y) /\
  gives_flag W (length x) (mul_scalar_o wide x y) (lval W x * y) (~ afits W false (length x) (lval W x * y)).
Proof.
  intros wide x y Lx Hx Hy. unfold scalar_arg, fits_u in Hy. destruct wide; cbn [mul_scalar mul_scalar_o].
  - unfold mul_wrapping_wide, mul_overflowing_wide. rewrite (wide_limbs_ok HW) by auto. cbn [bind].
    pose proof (mul_full_gives x (lenc W 2 y)) as A. pose proof (mul_full_o_gives x (lenc W 2 y)) as B.
    rewrite (lval_wide_limbs HW y Hy), length_lenc in *. split; [apply A|apply B]; auto using digits_enc; lia.
  - destruct (short_enc y Hy) as (Ev & Ed). pose proof (mul_full_gives x [y]) as A. pose proof (mul_full_o_gives x [y]) as B.
    rewrite Ev in *. cbn [length] in *. split; [apply A|apply B]; auto; lia.
Qed.

(** Operands of different lengths. *)
Lemma mn_gives : forall x y, (2 <= length y < length x)%nat -> digits W x -> digits W y ->
  gives W (length x) (add_wrapping_mn x y) (lval W x + lval W y) /\ gives W (length x) (sub_wrapping_mn x y) (lval W x - lval W y) /\
  gives_flag W (length x) (add_overflowing_mn x y) (lval W x + lval W y) (~ afits W false (length x) (lval W x + lval W y)) /\
  gives_flag W (length x) (sub_overflowing_mn x y) (lval W x - lval W y) (~ afits W false (length x) (lval W x - lval W y)).
Proof.
  intros x y L Hx Hy. split; [|split; [|split]].
  - apply (gives_ok _ _ (lval W x + lval W y) _ 0); [apply (add_wrapping_mn_ok HW); auto|ring].
  - apply (gives_ok _ _ (lval W x - lval W y) _ 0); [apply (sub_wrapping_mn_ok HW); auto|ring].
  - eapply (gives_flag_ok _ _ (lval W x + lval W y) _ 0); [apply (add_overflowing_mn_ok HW); auto|ring|reflexivity].
  - eapply (gives_flag_ok _ _ (lval W x - lval W y) _ 0); [apply (sub_overflowing_mn_ok HW); auto|ring|reflexivity].
Qed.

(** The full product. *)
Lemma widening_gives : forall x y, (1 <= length x)%nat -> length y = length x -> digits W x -> digits W y ->
  exists lo hi, mul_widening x y = Ok (lo, hi) /\ length lo = length x /\ length hi = length x /\ digits W lo /\ digits W hi /\
    lval W lo + 2 ^ bits (length x) * lval W hi = lval W x * lval W y.
Proof.
  intros x y Lx Ly Hx Hy. rewrite (mul_widening_ok HW) by auto. eexists. eexists. split; [reflexivity|].
  rewrite !length_lenc. do 2 (split; auto). split; [apply digits_enc|]. split; [apply digits_enc|].
  pose proof (lval_range W x W0 Hx) as Rx. pose proof (lval_range W y W0 Hy) as Ry. rewrite Ly in Ry.
  set (P := 2 ^ bits (length x)) in *. assert (0 < P) by lia.
  rewrite !lval_lenc by auto. fold P. rewrite (Z.mod_small (_ / P)).
  - pose proof (Z.div_mod (lval W x * lval W y) P). lia.
  - split; [apply Z.div_pos; nia|]. apply Z.div_lt_upper_bound; nia.
Qed.

(** Negation of an array. *)
Lemma negate_gives : forall x, (2 <= length x)%nat -> digits W x -> gives W (length x) (negate x) (- lval W x).
Proof. intros x Lx Hx. apply (gives_ok _ _ (- lval W x) _ 0); [apply (negate_ok HW); auto|ring]. Qed.

(** ** Division *)

(** As [div_outcome], for a numerator of [m] limbs and a divisor of [n]. *)
Definition array_div_outcome (m n : nat) (x y : Z) : option (Z * Z) :=
  if x <? y then Some (0, x)
  else if x =? y then Some (1, 0)
  else if y =? 0 then None
  else if y <? 2 ^ W then Some (x / y, x mod y)
  else if (2 ^ (W * (Z.of_nat n - 1)) <=? y) && has_correction W x y then None
  else Some (x / y, x mod y + stray W m x y).
Definition array_div (m n : nat) (r : res (list Z * list Z)) (o : option (Z * Z)) : Prop :=
  match o with
  | Some (q, s) => exists quo rem, r = Ok (quo, rem) /\ denotes W m quo q /\ denotes W n rem s
  | None => r = Panic
  end.
Lemma array_div_ok : forall m n r q s, r = Ok (lenc W m q, lenc W n s) -> array_div m n r (Some (q, s)).
Proof. intros m n r q s ->. eexists. eexists. split; [reflexivity|]. split; apply denotes_lenc; auto. Qed.

Lemma div_full_gives : forall x y, (2 <= length y <= length x)%nat -> digits W x -> digits W y ->
  array_div (length x) (length y) (div_full x y) (array_div_outcome (length x) (length y) (lval W x) (lval W y)).
Proof.
  intros x y L Hx Hy. unfold div_full, array_div_outcome.
  replace (length y =? 1)%nat with false by (symmetry; apply Nat.eqb_neq; lia).
  rewrite (div_cmp_ok HW2) by auto. cbn [bind]. pose proof (Bp2 HW2) as HB.
  destruct (Z.compare_spec (lval W x) (lval W y)) as [E|E|E].
  - rewrite (proj2 (Z.ltb_ge _ _)), (proj2 (Z.eqb_eq _ _)) by lia. apply array_div_ok.
    rewrite (scalar1_ok HW2) by lia. cbn [bind]. rewrite (scalar1_ok HW2) by lia. reflexivity.
  - rewrite (proj2 (Z.ltb_lt _ _)) by lia. apply array_div_ok. rewrite (truncate_ok HW2) by (auto; lia). cbn [bind].
    rewrite (repeat0_lenc HW2). reflexivity.
  - rewrite (proj2 (Z.ltb_ge _ _)), (proj2 (Z.eqb_neq _ _)) by lia. rewrite (is_zero_ok HW2) by (auto; lia). cbn [bind skipn].
    pose proof (lval_nn y Hy). rewrite (proj2 (Z.eqb_neq (lval W x) 0)) by lia.
    destruct (Z.eqb_spec (lval W y) 0) as [Z0|Z0]; [apply (full_gt_zero HW2); auto; lia|].
    destruct (Z.ltb_spec (lval W y) (2 ^ W)).
    + apply array_div_ok. apply (full_gt_limb HW2); auto; lia.
    + destruct (full_gt_ok HW2 x y Hx Hy) as (P1 & P2); try lia.
      assert (EP : 2 ^ (W * (Z.of_nat (length y) - 1)) = 2 ^ bits (length y - 1)) by (f_equal; nia). rewrite EP.
      destruct (Z.leb_spec (2 ^ bits (length y - 1)) (lval W y)); cbn [andb].
      * destruct (has_correction W (lval W x) (lval W y)) eqn:C; [apply P1; auto|]. apply array_div_ok. apply P2. auto.
      * apply array_div_ok. apply P2. lia.
Qed.
Lemma div_full_short : forall x d, (1 <= length x)%nat -> digits W x -> 0 <= d < 2 ^ W ->
  array_div (length x) 1 (div_full x [d]) (if d =? 0 then None else Some (lval W x / d, lval W x mod d)).
Proof.
  intros x d Lx Hx Hd. unfold div_full. cbn [length Nat.eqb]. cbn [get nth_error bind].
  destruct (Z.eqb_spec d 0) as [->|D0].
  - unfold limb_padded. rewrite (div_limb_0 HW2) by auto. reflexivity.
  - apply array_div_ok. apply (limb_padded_ok HW2); auto; lia.
Qed.
(** A divisor longer than the numerator. *)
Lemma div_full_long : forall x y, (2 <= length y)%nat -> (length x < length y)%nat -> digits W x -> digits W y ->
  lval W x < lval W y -> div_full x y = Panic.
Proof.
  intros x y L2 L Hx Hy E. unfold div_full. replace (length y =? 1)%nat with false by (symmetry; apply Nat.eqb_neq; lia).
  rewrite (div_cmp_ok HW2) by auto. cbn [bind]. rewrite (proj2 (Z.compare_lt_iff _ _) E). unfold truncate.
  replace (length y <=? length x)%nat with false by (symmetry; apply Nat.leb_gt; lia). reflexivity.
Qed.

(** Two limbs by two limbs: the estimate is never wrong. *)
Lemma two_by_two : forall x y, 0 < x < 2 ^ (2 * W) -> 2 ^ W <= y <= x -> has_correction W x y = false.
Proof.
  intros x y Hx Hy. unfold has_correction.
  assert (P2 : 2 ^ (2 * W) = 2 ^ W * 2 ^ W) by (rewrite <- Z.pow_add_r by lia; f_equal; lia).
  assert (LB : forall v, 2 ^ W <= v < 2 ^ (2 * W) -> W <= Z.log2 v < 2 * W /\ limbs_of W v = 2).
  { intros v Hv. assert (0 < 2 ^ W) by (apply pow2_pos; lia).
    assert (LO : W <= Z.log2 v) by (apply Z.log2_le_pow2; lia). assert (HI : Z.log2 v < 2 * W) by (apply Z.log2_lt_pow2; lia).
    split; auto. unfold limbs_of. assert (Z.log2 v / W = 1); [|lia]. symmetry. apply (Z.div_unique _ _ 1 (Z.log2 v - W)); lia. }
  destruct (LB x ltac:(lia)) as (Lx & ->). destruct (LB y ltac:(lia)) as (Ly & E2). rewrite E2.
  change (Z.to_nat 2) with 2%nat. cbn [Nat.sub Nat.add seq existsb]. rewrite orb_false_r.
  unfold norm_shift. rewrite E2. set (s := W * 2 - 1 - Z.log2 y).
  assert (Hs : 0 <= s <= W - 1) by (unfold s; lia).
  assert (P0 : 0 < 2 ^ s) by (apply pow2_pos; lia). assert (PB : 0 < 2 ^ W) by (apply pow2_pos; lia).
  set (A := x * 2 ^ s). set (D := y * 2 ^ s).
  assert (HD : 2 ^ (2 * W - 1) <= D).
  { unfold D, s. pose proof (Z.log2_spec y ltac:(lia)) as (L & _).
    replace (2 * W - 1) with (Z.log2 y + (W * 2 - 1 - Z.log2 y)) by lia. rewrite Z.pow_add_r by lia.
    apply Z.mul_le_mono_nonneg_r; lia. }
  unfold overestimated, window. rewrite Z.mul_0_r, Z.pow_0_r, Z.div_1_r.
  assert (PW : 2 ^ s <= 2 ^ (W - 1)) by (apply Z.pow_le_mono_r; lia).
  assert (EW : 2 ^ W = 2 * 2 ^ (W - 1)) by (apply pow2_half; lia).
  assert (HA : 0 <= A < D * 2 ^ W).
  { unfold A. split; [nia|]. assert (x * 2 ^ s < 2 ^ (2 * W) * 2 ^ (W - 1)) by nia.
    replace (2 ^ (2 * W) * 2 ^ (W - 1)) with (2 ^ (2 * W - 1) * 2 ^ W) in H; [nia|]. rewrite <- !Z.pow_add_r by lia. f_equal. lia. }
  rewrite Z.mod_small by exact HA.
  unfold digit_estimate. change (Z.of_nat 2) with 2. change (2 - 2) with 0. change (2 - 1) with 1. rewrite Z.mul_0_r, Z.pow_0_r, !Z.div_1_r, Z.mul_1_r.
  replace (W * 2) with (2 * W) by lia.
  assert (TA : A / 2 ^ (2 * W) < 2 ^ (W - 1)).
  { apply Z.div_lt_upper_bound; [apply pow2_pos; lia|]. unfold A. nia. }
  assert (TD : 2 ^ (W - 1) <= D / 2 ^ W).
  { apply Z.div_le_lower_bound; auto. rewrite <- Z.pow_add_r by lia. replace (W + (W - 1)) with (2 * W - 1) by lia. exact HD. }
  rewrite (proj2 (Z.ltb_lt (A / 2 ^ (2 * W)) (D / 2 ^ W))) by lia. apply Z.ltb_irrefl.
Qed.

(** Division by a scalar. *)
Lemma div_limb_gives : forall x d, (1 <= length x)%nat -> digits W x -> 0 < d < 2 ^ W ->
  exists q, div_limb x d = Ok (q, lval W x mod d) /\ denotes W (length x) q (lval W x / d).
Proof. intros x d Lx Hx Hd. rewrite (div_limb_ok HW2) by auto. eexists. split; [reflexivity|]. apply denotes_lenc; auto. Qed.
Lemma div_wide_gives : forall x d, (2 <= length x)%nat -> digits W x -> 0 < d < 2 ^ (2 * W) ->
  if (2 ^ (2 * W) <=? lval W x) && (2 ^ W <=? d) && has_correction W (lval W x) d then div_wide x d = Panic
  else exists q, div_wide x d = Ok (q, lval W x mod d) /\ denotes W (length x) q (lval W x / d).
Proof.
  intros x d Lx Hx Hd. rewrite (pow_2W' HW2) in *. destruct (Z.leb_spec (2 ^ W * 2 ^ W) (lval W x)) as [E|E]; cbn [andb].
  - rewrite (div_wide_big HW2) by (auto; lia). rewrite (proj2 (Z.eqb_neq d 0)) by lia.
    destruct ((2 ^ W <=? d) && has_correction W (lval W x) d); [reflexivity|].
    eexists. split; [reflexivity|]. apply denotes_lenc; auto.
  - rewrite (div_wide_small HW2) by (auto; lia). rewrite (proj2 (Z.eqb_neq d 0)) by lia.
    destruct (Z.eqb_spec (lval W x) 0) as [->|Z0].
    + eexists. rewrite Z.mod_0_l by lia. split; [reflexivity|]. rewrite Z.div_0_l by lia. apply denotes_lenc; auto.
    + eexists. split; [reflexivity|]. apply denotes_lenc; auto.
Qed.
End M.

(** ** Shifts and rotations: elements of 32, 64 or 128 bits *)
Section S.
Context {c : Cfg}.
Variable w : Z.
Hypothesis Hw : w = 32 \/ w = 64 \/ w = 128.
Let Hk : exists k, 1 <= k <= 7 /\ w = 2 ^ k.
Proof. destruct Hw as [-> | [-> | ->]]; [exists 5|exists 6|exists 7]; (split; [lia|reflexivity]). Qed.
Let w0 : 0 <= w.
Proof. lia. Qed.

Lemma top_sign : forall x, (1 <= length x)%nat -> digits w x ->
  (scast w (nth (length x - 1) x 0) <? 0) = (2 ^ (w * Z.of_nat (length x) - 1) <=? lval w x).
Proof.
  intros x Lx Hx. destruct (length x) as [|n] eqn:E; [lia|]. replace (S n - 1)%nat with n by lia.
  assert (EV : lval w x = pv w x n + nth n x 0 * 2 ^ (w * Z.of_nat n)).
  { rewrite <- (pv_all w x (S n)) by exact E. apply pv_S; [exact w0|]. rewrite E. lia. }
  assert (Ln : (n <= length x)%nat) by (rewrite E; lia). pose proof (pv_range w x n w0 Hx Ln) as R.
  assert (HN : 0 <= nth n x 0 < 2 ^ w) by (apply digits_nth; auto).
  assert (EP : 2 ^ (w * Z.of_nat (S n) - 1) = 2 ^ (w - 1) * 2 ^ (w * Z.of_nat n)).
  { rewrite <- Z.pow_add_r by lia. f_equal. lia. }
  rewrite EP, EV. assert (P : 0 < 2 ^ (w * Z.of_nat n)) by (apply pow2_pos; nia).
  assert (EW : 2 ^ w = 2 * 2 ^ (w - 1)) by (apply pow2_half; lia).
  set (t := nth n x 0) in *. set (p := 2 ^ (w * Z.of_nat n)) in *. set (h := 2 ^ (w - 1)) in *.
  assert (ES : scast w t = if t <? h then t else t - 2 ^ w).
  { rewrite scast_swrap by lia. destruct (Z.ltb_spec t h); [apply (swrap_unique _ _ _ 0)|apply (swrap_unique _ _ _ 1)]; unfold h in *; lia. }
  rewrite ES. destruct (Z.ltb_spec t h).
  - rewrite (proj2 (Z.ltb_ge _ _)), (proj2 (Z.leb_gt _ _)) by nia. reflexivity.
  - rewrite (proj2 (Z.ltb_lt _ _)), (proj2 (Z.leb_le _ _)) by nia. reflexivity.
Qed.
Lemma aval_sgn : forall sg x, (1 <= length x)%nat -> digits w x ->
  lval w x - sgn_of w sg x * 2 ^ (w * Z.of_nat (length x)) = aval w sg x.
Proof.
  intros sg x Lx Hx. unfold sgn_of, aval. rewrite top_sign by auto. destruct (sg && _); ring.
Qed.
Lemma shl_gives : forall x s, (2 <= length x)%nat -> digits w x -> 0 <= s < Z.of_nat (length x) * w ->
  gives w (length x) (shl_array w x s) (lval w x * 2 ^ s).
Proof. intros x s Lx Hx Hs. eexists. split; [apply (shl_array_ok w Hk); auto|]. apply denotes_lenc; auto. Qed.
Lemma shr_gives : forall sg x s, (2 <= length x)%nat -> digits w x -> 0 <= s < Z.of_nat (length x) * w ->
  gives w (length x) (shr_array w sg x s) (aval w sg x / 2 ^ s).
Proof.
  intros sg x s Lx Hx Hs. eexists. split; [apply (shr_array_ok w Hk); auto|]. rewrite aval_sgn by (auto; lia). apply denotes_lenc; auto.
Qed.
Lemma rot_cong : forall m v s, 0 < m -> rotv m v s mod m = (v * 2 ^ s + v * 2 ^ s / m) mod m.
Proof. intros m v s Hm. unfold rotv. rewrite Z.add_mod_idemp_l by lia. reflexivity. Qed.
Lemma rot_gives : forall x s, (2 <= length x)%nat -> digits w x -> Z.of_nat (length x) * w < 2 ^ 32 -> 0 <= s ->
  let m := 2 ^ (w * Z.of_nat (length x)) in
  let k := s mod (w * Z.of_nat (length x)) in let k' := (- s) mod (w * Z.of_nat (length x)) in
  gives w (length x) (rotl_array w x s) (lval w x * 2 ^ k + lval w x * 2 ^ k / m) /\
  gives w (length x) (rotr_array w x s) (lval w x * 2 ^ k' + lval w x * 2 ^ k' / m).
Proof.
  intros x s Lx Hx Hl Hs m k k'. assert (0 < m) by (apply pow2_pos; nia). split.
  - eexists. split; [apply (rotl_array_ok w Hk); auto|]. eapply denotes_cong; [|apply denotes_lenc; auto]. fold m k. apply rot_cong; auto.
  - eexists. split; [apply (rotr_array_ok w Hk); auto|]. eapply denotes_cong; [|apply denotes_lenc; auto]. fold m k'. apply rot_cong; auto.
Qed.
End S.

(** ** C69: the array functions for every length *)

(** The library's two limb widths; the configuration's own length is not used. *)
Local Notation limbs32 := {| W := 32; N := 8; chk := true; dbg := true |}.
Local Notation limbs64 := {| W := 64; N := 4; chk := false; dbg := false |}.

Theorem C69_add_sub : forall (c : Cfg) sg x y, limb_widths W -> (2 <= length x)%nat -> length y = length x -> digits W x -> digits W y ->
  gives W (length x) (add_full sg x y) (aval W sg x + aval W sg y) /\
  gives W (length x) (sub_full sg x y) (aval W sg x - aval W sg y) /\
  gives_flag W (length x) (add_full_o sg x y) (aval W sg x + aval W sg y) (~ afits W sg (length x) (aval W sg x + aval W sg y)) /\
  gives_flag W (length x) (sub_full_o sg x y) (aval W sg x - aval W sg y) (~ afits W sg (length x) (aval W sg x - aval W sg y)).
Proof.
  intros c sg x y HL Lx Ly Hx Hy. split; [apply add_full_gives|split; [apply sub_full_gives|split; [apply add_full_o_gives|apply sub_full_o_gives]]]; auto.
Qed.
(** A second operand that is shorter, or an unsigned scalar. *)
Theorem C69_add_sub_short : forall (c : Cfg) x y, limb_widths W -> (2 <= length y < length x)%nat -> digits W x -> digits W y ->
  gives W (length x) (add_wrapping_mn x y) (lval W x + lval W y) /\ gives W (length x) (sub_wrapping_mn x y) (lval W x - lval W y) /\
  gives_flag W (length x) (add_overflowing_mn x y) (lval W x + lval W y) (~ afits W false (length x) (lval W x + lval W y)) /\
  gives_flag W (length x) (sub_overflowing_mn x y) (lval W x - lval W y) (~ afits W false (length x) (lval W x - lval W y)).
Proof. intros. apply mn_gives; auto. Qed.
Theorem C69_add_sub_scalar : forall (c : Cfg) wide x y, limb_widths W -> (2 <= length x)%nat -> (wide = true -> 3 <= length x)%nat ->
  digits W x -> scalar_arg false wide y ->
  gives W (length x) (add_scalar wide x y) (lval W x + y) /\ gives W (length x) (sub_scalar wide x y) (lval W x - y) /\
  gives_flag W (length x) (add_scalar_o wide x y) (lval W x + y) (~ afits W false (length x) (lval W x + y)) /\
  gives_flag W (length x) (sub_scalar_o wide x y) (lval W x - y) (~ afits W false (length x) (lval W x - y)).
Proof. intros. apply u_scalar_gives; auto. Qed.
(** A signed operand with a scalar of either sign. *)
Theorem C69_signed_scalar : forall (c : Cfg) ss wide x y, limb_widths W -> (2 <= length x)%nat -> digits W x -> scalar_arg ss wide y ->
  gives W (length x) (sadd_scalar ss wide x y) (aval W true x + y) /\
  gives W (length x) (ssub_scalar ss wide x y) (aval W true x - y) /\
  gives W (length x) (smul_scalar ss wide x y) (aval W true x * y).
Proof. intros. split; [apply sadd_scalar_gives|split; [apply ssub_scalar_gives|apply smul_scalar_gives]]; auto. Qed.
Theorem C69_signed_scalar_flag : forall (c : Cfg) ss wide x y, limb_widths W -> scalar_room ss wide (length x) -> digits W x -> scalar_arg ss wide y ->
  gives_flag W (length x) (sadd_scalar_o ss wide x y) (aval W true x + y) (~ afits W true (length x) (aval W true x + y)) /\
  gives_flag W (length x) (ssub_scalar_o ss wide x y) (aval W true x - y) (~ afits W true (length x) (aval W true x - y)) /\
  gives_flag W (length x) (smul_scalar_o ss wide x y) (aval W true x * y) (seen_overflow (length x) (aval W true x * y)).
Proof. intros. split; [apply sadd_scalar_o_gives|split; [apply ssub_scalar_o_gives|apply smul_scalar_o_gives]]; auto. Qed.
(** Without a third limb an unsigned wide scalar is read as negative. *)
Theorem C69_signed_scalar_flag_refuted : exists (c : Cfg) x y r, limb_widths W /\ length x = 2%nat /\ digits W x /\ scalar_arg false true y /\
  sadd_overflowing_uwide x y = Ok (r, false) /\ ~ afits W true 2 (aval W true x + y).
Proof.
  exists limbs32, [0; 0], (2 ^ 64 - 1), [2 ^ 32 - 1; 2 ^ 32 - 1]. split; [left; reflexivity|]. split; [reflexivity|].
  split; [repeat constructor; discriminate|]. split; [vm_compute; intuition discriminate|]. split; [vm_compute; reflexivity|].
  vm_compute. intros (_ & H). discriminate.
Qed.
Example C69_ex1 : add_full_o (c := limbs64) true [2 ^ 64 - 1; 2 ^ 64 - 1; 2 ^ 63 - 1] [1; 0; 0] = Ok ([0; 0; 2 ^ 63], true) /\
  aval 64 true [0; 0; 2 ^ 63] = - 2 ^ 191 /\ ~ afits 64 true 3 (2 ^ 191) /\
  sub_wrapping_mn (c := limbs32) [0; 0; 0; 1] [1; 0] = Ok [2 ^ 32 - 1; 2 ^ 32 - 1; 2 ^ 32 - 1; 0] /\
  ssub_scalar_o (c := limbs32) true true [0; 2 ^ 31] 1 = Ok ([2 ^ 32 - 1; 2 ^ 31 - 1], true) /\ scalar_room true true 2 /\
  add_scalar (c := limbs32) true [2 ^ 32 - 1; 5; 7] (2 ^ 64 - 1) = Ok [2 ^ 32 - 2; 5; 8].
Proof.
  split; [vm_compute; reflexivity|]. split; [vm_compute; reflexivity|]. split; [vm_compute; intros (_ & H); discriminate|].
  split; [vm_compute; reflexivity|]. split; [vm_compute; reflexivity|]. split; [split; [lia|discriminate]|vm_compute; reflexivity].
Qed.

(** Products. *)
Theorem C69_mul : forall (c : Cfg) x y, limb_widths W -> (1 <= length y <= length x)%nat -> digits W x -> digits W y ->
  gives W (length x) (mul_wrapping_full x y) (lval W x * lval W y) /\
  gives_flag W (length x) (mul_overflowing_full x y) (lval W x * lval W y) (~ afits W false (length x) (lval W x * lval W y)).
Proof. intros. split; [apply mul_full_gives|apply mul_full_o_gives]; auto. Qed.
Theorem C69_mul_scalar : forall (c : Cfg) (wide : bool) x y, limb_widths W -> ((if wide then 2 else 1) <= length x)%nat -> digits W x -> scalar_arg false wide y ->
  gives W (length x) (mul_scalar wide x y) (lval W x * y) /\
  gives_flag W (length x) (mul_scalar_o wide x y) (lval W x * y) (~ afits W false (length x) (lval W x * y)).
Proof. intros. apply u_mul_scalar_gives; auto. Qed.
Theorem C69_mul_signed : forall (c : Cfg) x y, limb_widths W -> (2 <= length x)%nat -> length y = length x -> digits W x -> digits W y ->
  gives W (length x) (smul_wrapping_full x y) (aval W true x * aval W true y) /\
  gives_flag W (length x) (smul_overflowing_full x y) (aval W true x * aval W true y) (seen_overflow (length x) (aval W true x * aval W true y)).
Proof. intros. split; [apply smul_full_gives|apply smul_full_o_gives]; auto; lia. Qed.
(** The full statement has [~ afits] for [seen_overflow]; it fails already on
    64-bit numbers. *)
Theorem C69_mul_signed_refuted : exists (c : Cfg) x y r, limb_widths W /\ length x = 2%nat /\ length y = 2%nat /\ digits W x /\ digits W y /\
  smul_overflowing_full x y = Ok (r, false) /\ ~ afits W true 2 (aval W true x * aval W true y).
Proof.
  exists limbs32, [2 ^ 32 - 3; 2 ^ 32 - 1], [2863311531; 715827882], [2 ^ 32 - 1; 2 ^ 31 - 1].
  split; [left; reflexivity|]. split; [reflexivity|]. split; [reflexivity|]. split; [repeat constructor; discriminate|].
  split; [repeat constructor; discriminate|]. split; [vm_compute; reflexivity|]. vm_compute. intros (H & _). apply H. reflexivity.
Qed.
Theorem C69_widening : forall (c : Cfg) x y, limb_widths W -> (1 <= length x)%nat -> length y = length x -> digits W x -> digits W y ->
  exists lo hi, mul_widening x y = Ok (lo, hi) /\ length lo = length x /\ length hi = length x /\ digits W lo /\ digits W hi /\
    lval W lo + 2 ^ (W * Z.of_nat (length x)) * lval W hi = lval W x * lval W y.
Proof. intros. apply widening_gives; auto. Qed.
Theorem C69_negate : forall (c : Cfg) x, limb_widths W -> (2 <= length x)%nat -> digits W x -> gives W (length x) (negate x) (- lval W x).
Proof. intros. apply negate_gives; auto. Qed.
Example C69_ex2 : mul_overflowing_full (c := limbs32) [2 ^ 32 - 1; 2 ^ 32 - 1; 3] [2 ^ 32 - 1] = Ok ([1; 2 ^ 32 - 1; 2 ^ 32 - 5], true) /\
  mul_widening (c := limbs64) [2 ^ 64 - 1] [2 ^ 64 - 1] = Ok ([1], [2 ^ 64 - 2]) /\
  smul_overflowing_full (c := limbs64) [2 ^ 64 - 1; 2 ^ 64 - 1] [0; 2 ^ 63] = Ok ([0; 2 ^ 63], true) /\
  seen_overflow (c := limbs64) 2 (2 ^ 127) /\ negate (c := limbs64) [0; 0; 5] = Ok [0; 0; 2 ^ 64 - 5].
Proof. split; [vm_compute; reflexivity|]. split; [vm_compute; reflexivity|]. split; [vm_compute; reflexivity|]. split; [left; vm_compute; discriminate|vm_compute; reflexivity]. Qed.

(** Shifts and rotations, on elements of 32, 64 or 128 bits. *)
Theorem C69_shift : forall (c : Cfg) w sg x s, w = 32 \/ w = 64 \/ w = 128 -> (2 <= length x)%nat -> digits w x ->
  0 <= s < w * Z.of_nat (length x) ->
  gives w (length x) (shl_array w x s) (lval w x * 2 ^ s) /\ gives w (length x) (shr_array w sg x s) (aval w sg x / 2 ^ s).
Proof. intros. split; [apply shl_gives|apply shr_gives]; auto; lia. Qed.
Theorem C69_rotate : forall (c : Cfg) w x s, w = 32 \/ w = 64 \/ w = 128 -> (2 <= length x)%nat -> digits w x ->
  w * Z.of_nat (length x) < 2 ^ 32 -> 0 <= s ->
  let m := 2 ^ (w * Z.of_nat (length x)) in
  let k := s mod (w * Z.of_nat (length x)) in let k' := (- s) mod (w * Z.of_nat (length x)) in
  gives w (length x) (rotl_array w x s) (lval w x * 2 ^ k + lval w x * 2 ^ k / m) /\
  gives w (length x) (rotr_array w x s) (lval w x * 2 ^ k' + lval w x * 2 ^ k' / m).
Proof. intros. apply rot_gives; auto; lia. Qed.
Example C69_ex3 : shr_array (c := limbs32) 32 true [7; 0; 2 ^ 31] 65 = Ok [2 ^ 30 + 2 ^ 31; 2 ^ 32 - 1; 2 ^ 32 - 1] /\
  shl_array (c := limbs64) 128 [3; 2 ^ 127] 127 = Ok [2 ^ 127; 1] /\ rotr_array (c := limbs64) 64 [1; 2; 3] 65 = Ok [2 ^ 63 + 1; 2 ^ 63 + 1; 0].
Proof. vm_compute. auto. Qed.

(** Division: quotient and remainder for every pair of lengths, with the
    deviations of [array_div_outcome]. *)
Theorem C69_div : forall (c : Cfg) x y, limb_widths W -> (2 <= length y <= length x)%nat -> digits W x -> digits W y ->
  array_div (length x) (length y) (div_full x y) (array_div_outcome (length x) (length y) (lval W x) (lval W y)).
Proof. intros. apply div_full_gives; auto. Qed.
Theorem C69_div_one : forall (c : Cfg) x d, limb_widths W -> (1 <= length x)%nat -> digits W x -> 0 <= d < 2 ^ W ->
  array_div (length x) 1 (div_full x [d]) (if d =? 0 then None else Some (lval W x / d, lval W x mod d)).
Proof. intros. apply div_full_short; auto. Qed.
Theorem C69_div_two : forall (c : Cfg) x y, limb_widths W -> length x = 2%nat -> length y = 2%nat -> digits W x -> digits W y -> lval W y <> 0 ->
  array_div 2 2 (div_full x y) (Some (lval W x / lval W y, lval W x mod lval W y)).
Proof.
  intros c x y HL Lx Ly Hx Hy Z0. pose proof (C69_div c x y HL ltac:(lia) Hx Hy) as D. rewrite Lx, Ly in D.
  assert (W0 : 0 <= W) by (destruct HL as [-> | ->]; lia).
  pose proof (lval_range W x W0 Hx) as Rx. pose proof (lval_range W y W0 Hy) as Ry. rewrite Lx in Rx. rewrite Ly in Ry.
  assert (E : array_div_outcome 2 2 (lval W x) (lval W y) = Some (lval W x / lval W y, lval W x mod lval W y)); [|rewrite E in D; exact D].
  unfold array_div_outcome. set (a := lval W x) in *. set (b := lval W y) in *.
  destruct (Z.ltb_spec a b); [rewrite Z.div_small, Z.mod_small by lia; reflexivity|].
  destruct (Z.eqb_spec a b) as [->|]; [rewrite Z.div_same, Z.mod_same by auto; reflexivity|].
  rewrite (proj2 (Z.eqb_neq b 0)) by auto. destruct (Z.ltb_spec b (2 ^ W)); [reflexivity|].
  assert (C : has_correction W a b = false). { change (Z.of_nat 2) with 2 in *. rewrite Z.mul_comm in Rx. apply (two_by_two HL); lia. }
  rewrite C, andb_false_r. assert (H2 : 2 <= W <= 64) by (destruct HL as [-> | ->]; lia). rewrite stray_0 by auto. rewrite Z.add_0_r. reflexivity.
Qed.
Theorem C69_div_exact_partial : forall (c : Cfg) x y, limb_widths W -> (2 <= length y <= length x)%nat -> digits W x -> digits W y -> lval W y <> 0 ->
  lval W x <= lval W y \/ lval W y < 2 ^ W \/ has_correction W (lval W x) (lval W y) = false ->
  array_div (length x) (length y) (div_full x y) (Some (lval W x / lval W y, lval W x mod lval W y)).
Proof.
  intros c x y HL L Hx Hy Z0 HE. pose proof (C69_div c x y HL L Hx Hy) as D.
  assert (W0 : 0 <= W) by (destruct HL as [-> | ->]; lia). pose proof (lval_range W x W0 Hx) as Rx. pose proof (lval_range W y W0 Hy) as Ry.
  assert (H2 : 2 <= W <= 64) by (destruct HL as [-> | ->]; lia).
  assert (E : array_div_outcome (length x) (length y) (lval W x) (lval W y) = Some (lval W x / lval W y, lval W x mod lval W y)); [|rewrite E in D; exact D].
  unfold array_div_outcome. set (a := lval W x) in *. set (b := lval W y) in *.
  destruct (Z.ltb_spec a b); [rewrite Z.div_small, Z.mod_small by lia; reflexivity|].
  destruct (Z.eqb_spec a b) as [->|]; [rewrite Z.div_same, Z.mod_same by auto; reflexivity|].
  rewrite (proj2 (Z.eqb_neq b 0)) by auto. destruct (Z.ltb_spec b (2 ^ W)); [reflexivity|].
  destruct HE as [?|[?|C]]; try lia. rewrite C, andb_false_r, stray_0, Z.add_0_r by auto. reflexivity.
Qed.
(** The full statement drops the last hypothesis; three limbs are enough to
    break it. *)
Theorem C69_div_exact_refuted : exists (c : Cfg) x y, limb_widths W /\ length x = 3%nat /\ length y = 3%nat /\ digits W x /\ digits W y /\ lval W y <> 0 /\
  div_full x y = Panic.
Proof.
  exists limbs32, [1; 0; 2], [1; 0; 1]. split; [left; reflexivity|]. do 2 (split; [reflexivity|]).
  do 2 (split; [repeat constructor; discriminate|]). split; [vm_compute; discriminate|]. vm_compute. reflexivity.
Qed.
Theorem C69_div_limb : forall (c : Cfg) x d, limb_widths W -> (1 <= length x)%nat -> digits W x -> 0 < d < 2 ^ W ->
  exists q, div_limb x d = Ok (q, lval W x mod d) /\ denotes W (length x) q (lval W x / d).
Proof. intros. apply div_limb_gives; auto. Qed.
Theorem C69_div_wide : forall (c : Cfg) x d, limb_widths W -> (2 <= length x)%nat -> digits W x -> 0 < d < 2 ^ (2 * W) ->
  if (2 ^ (2 * W) <=? lval W x) && (2 ^ W <=? d) && has_correction W (lval W x) d then div_wide x d = Panic
  else exists q, div_wide x d = Ok (q, lval W x mod d) /\ denotes W (length x) q (lval W x / d).
Proof. intros. apply div_wide_gives; auto. Qed.
Example C69_ex4 : div_full (c := limbs32) [5; 6; 7; 8; 9] [3; 1] = Ok ([4294967110; 63; 4294967277; 8; 0], [563; 0]) /\
  div_full (c := limbs32) [7; 5] [2; 1] = Ok ([4; 0], [4294967295; 0]) /\ div_wide (c := limbs32) [5; 6; 7; 8; 9] (3 + 2 ^ 32) = Ok ([4294967110; 63; 4294967277; 8; 0], 563) /\
  has_correction 32 (lval 32 [5; 6; 7; 8; 9]) (3 + 2 ^ 32) = false.
Proof. vm_compute. auto. Qed.

(** Arrays below the accepted length. *)
Theorem C69_too_short : forall (c : Cfg) x y, limb_widths W -> (length x < 2)%nat ->
  sub_wrapping_full x y = Panic /\ sub_overflowing_full x y = Panic /\ sadd_wrapping_full x y = Panic /\ sadd_overflowing_full x y = Panic /\
  ssub_wrapping_full x y = Panic /\ ssub_overflowing_full x y = Panic /\
  (forall v, add_wrapping_limb x v = Panic /\ add_overflowing_limb x v = Panic /\ sub_wrapping_limb x v = Panic /\ sub_overflowing_limb x v = Panic) /\
  (forall w s, shl_array w x s = Panic /\ (forall sg, shr_array w sg x s = Panic) /\ rotl_array w x s = Panic /\ rotr_array w x s = Panic).
Proof.
  intros c x y HL L. assert (E : (2 <=? length x)%nat = false) by (apply Nat.leb_gt; auto).
  unfold sub_wrapping_full, sub_overflowing_full, sadd_wrapping_full, sadd_overflowing_full, ssub_wrapping_full, ssub_overflowing_full, sub_wrapping_full,
    add_wrapping_limb, add_overflowing_limb, sub_wrapping_limb, sub_overflowing_limb, shl_array, shr_array, rotl_array, rotr_array.
  rewrite E. cbn [assert_ bind]. repeat split; reflexivity.
Qed.
Theorem C69_lengths : forall (c : Cfg) x y,
  ((length x < length y)%nat -> mul_wrapping_full x y = Panic /\ mul_overflowing_full x y = Panic) /\
  (~ (2 <= length y < length x)%nat -> add_wrapping_mn x y = Panic /\ add_overflowing_mn x y = Panic /\ sub_wrapping_mn x y = Panic /\ sub_overflowing_mn x y = Panic) /\
  (limb_widths W -> (2 <= length y)%nat -> (length x < length y)%nat -> digits W x -> digits W y -> lval W x < lval W y -> div_full x y = Panic).
Proof.
  intros c x y. split; [|split].
  - intros L. assert (E : (length y <=? length x)%nat = false) by (apply Nat.leb_gt; auto).
    unfold mul_wrapping_full, mul_overflowing_full. rewrite E. auto.
  - intros L. assert (E : ((2 <=? length y) && (length y <? length x))%nat = false).
    { destruct (Nat.leb_spec 2 (length y)), (Nat.ltb_spec (length y) (length x)); auto; lia. }
    unfold add_wrapping_mn, add_overflowing_mn, sub_wrapping_mn, sub_overflowing_mn. rewrite E. auto.
  - intros. apply (div_full_long H); auto.
Qed.
Example C69_ex5 : sub_wrapping_full (c := limbs32) [5] [3] = Panic /\ add_wrapping_full (c := limbs32) [5] [3] = Ok [8] /\
  add_wrapping_wide (c := limbs64) [5; 5] 1 = Panic /\ div_full (c := limbs64) [5; 5] [0; 0; 1] = Panic /\
  div_full (c := limbs64) [5; 5] [3; 0; 0] = Ok ([12297829382473034412; 1], [1; 0; 0]).
Proof. vm_compute. auto. Qed.

(** ** Assumptions (each must print "Closed under the global context") *)

Print Assumptions C69_add_sub.
Print Assumptions C69_add_sub_short.
Print Assumptions C69_add_sub_scalar.
Print Assumptions C69_signed_scalar.
Print Assumptions C69_signed_scalar_flag.
Print Assumptions C69_signed_scalar_flag_refuted.
Print Assumptions C69_mul.
Print Assumptions C69_mul_scalar.
Print Assumptions C69_mul_signed.
Print Assumptions C69_mul_signed_refuted.
Print Assumptions C69_widening.
Print Assumptions C69_negate.
Print Assumptions C69_shift.
Print Assumptions C69_rotate.
Print Assumptions C69_div.
Print Assumptions C69_div_one.
Print Assumptions C69_div_two.
Print Assumptions C69_div_exact_partial.
Print Assumptions C69_div_exact_refuted.
Print Assumptions C69_div_limb.
Print Assumptions C69_div_wide.
Print Assumptions C69_too_short.
Print Assumptions C69_lengths.
