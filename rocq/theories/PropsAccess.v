(** * Properties: reading single limbs, and the strict negation (C106) *)

Require Import ZArith List Bool Lia.
From Verif Require Import Prim Spec Facts MAdd MMul MShift MCore PCore PBits PWide MArith PArith PArith2 PPow PMisc PBits2 PRet PMul MScalar PScalar MLayout PLayout.
Import ListNotations.
Local Open Scope Z_scope.
Local Notation E64 := (@ofZ c256_64).
Local Notation E32 := (@ofZ c256_32).

(** [limb_at x i]: bits [W i] to [W i + W - 1] of the number. *)
Definition limb_at {c : Cfg} (v : Z) (i : nat) : Z := v / 2 ^ (W * Z.of_nat i) mod 2 ^ W.

(** [get_limb] (shared/extensions.rs 19-21) returns the bits at that index,
    counted from the low end, and panics past the last limb. *)
Theorem C106_get_limb : forall (c : Cfg) x i, Valid -> wf x ->
  (W * Z.of_nat i < BITS -> get_limb x i = Ok (limb_at (uval x) i)) /\
  (BITS <= W * Z.of_nat i -> get_limb x i = Panic).
Proof.
  intros c x i HV (HL & D). pose proof (W_pos HV) as HW. pose proof (BITS_alt (c := c)) as HB. unfold get_limb, limb_at, uval. split; intros H.
  - assert (Hi : (i < N)%nat) by nia. rewrite get_ok by lia. f_equal. rewrite <- (nth_lenc W N) by lia.
    rewrite <- HL. rewrite lenc_lval by (auto; lia). reflexivity.
  - unfold get. assert (Hi : (N <= i)%nat) by nia. rewrite (proj2 (nth_error_None x i)) by lia. reflexivity.
Qed.
(** The sign does not matter: the same bits of the signed number. *)
Theorem C106_get_limb_signed : forall (c : Cfg) x i, Valid -> wf x ->
  W * Z.of_nat i < BITS -> get_limb x i = Ok (limb_at (sval x) i).
Proof.
  intros c x i HV Hx H. destruct (C106_get_limb c x i HV Hx) as [G _]. rewrite G by assumption. f_equal. unfold limb_at.
  pose proof (W_pos HV) as HW. pose proof (BITS_alt (c := c)) as HB. assert (Hi : (i < N)%nat) by nia.
  assert (E : exists k, sval x = uval x + k * 2 ^ BITS).
  { unfold sval, swrap. destruct (_ <? _); [exists 0; lia|exists (-1); lia]. }
  destruct E as [k ->]. replace (2 ^ BITS) with (2 ^ (BITS - W * Z.of_nat i - W) * 2 ^ W * 2 ^ (W * Z.of_nat i)).
  2: { rewrite <- !Z.pow_add_r by nia. f_equal. lia. }
  rewrite !Z.mul_assoc, Z.div_add by (apply Z.pow_nonzero; nia). rewrite Z.mod_add by (apply Z.pow_nonzero; lia). reflexivity.
Qed.

(** The lowest limb is the number modulo [2^W]; the highest, as the type of its
    sign (extensions.rs 53-61), is the number divided by [2^(BITS-W)] and
    rounded down. *)
Theorem C106_ends : forall (c : Cfg) x, Valid -> wf x ->
  least_significant_limb x = Ok (uval x mod 2 ^ W) /\
  most_significant_limb false x = Ok (uval x / 2 ^ (BITS - W)) /\
  most_significant_limb true x = Ok (sval x / 2 ^ (BITS - W)).
Proof.
  intros c x HV Hx. pose proof (W_pos HV) as HW. pose proof (BITS_alt (c := c)) as HB. pose proof (N1 HV) as HN.
  split; [apply (lsl_ok HV); assumption|]. unfold most_significant_limb, get_limb.
  destruct Hx as (HL & D). rewrite get_ok by lia. cbn [bind].
  replace (BITS - W) with (W * Z.of_nat (N - 1)) by nia.
  assert (W0 : 0 <= W) by lia.
  pose proof (pv_range W x (N - 1) W0 D ltac:(lia)) as R. set (q := 2 ^ (W * Z.of_nat (N - 1))) in *.
  split; f_equal; symmetry.
  - assert (E : uval x = pv W x (N - 1) + q * nth (N - 1) x 0).
    { unfold uval, q. rewrite (Z.mul_comm (2 ^ _)). rewrite <- pv_S by lia. replace (S (N - 1)) with N by lia. symmetry. apply pv_all. assumption. }
    symmetry. apply (Z.div_unique_pos (uval x) q _ (pv W x (N - 1))); lia.
  - pose proof (sval_top HV x (conj HL D)) as T. fold q in T. symmetry. apply (Z.div_unique_pos (sval x) q _ (pv W x (N - 1))); lia.
Qed.

(** The limbs determine the number: it is the sum of what [get_limb] returns,
    each at its place. *)
Theorem C106_rebuild : forall (c : Cfg) x, Valid -> wf x ->
  exists ls, length ls = N /\ (forall i, (i < N)%nat -> get_limb x i = Ok (nth i ls 0)) /\
    uval x = fold_right (fun l a => l + 2 ^ W * a) 0 ls.
Proof.
  intros c x HV (HL & D). exists x. split; [assumption|]. split.
  - intros i Hi. unfold get_limb. apply get_ok. lia.
  - unfold uval. clear. induction x; cbn [lval fold_right]; [reflexivity|]. rewrite <- IHx. reflexivity.
Qed.

(** A limb is also the lowest limb of the number shifted down by whole limbs;
    in particular [get_limb] agrees with the shift operator. *)
Theorem C106_shift : forall (c : Cfg) sg x i, Valid -> wf x -> W * Z.of_nat i < BITS ->
  (let* y := wrapping_shr sg x (W * Z.of_nat i) in least_significant_limb y) = get_limb x i.
Proof.
  intros c sg x i HV Hx H. pose proof (W_pos HV) as HW. pose proof (BITS_lt HV) as HL.
  rewrite (wrapping_shr_ok HV) by (auto; nia). cbn [bind]. rewrite (lsl_ok HV) by apply (wf_ofZ HV).
  rewrite (uval_ofZ HV), (Z.mod_small _ BITS) by nia.
  assert (G : get_limb x i = Ok (limb_at (val sg x) i)).
  { destruct sg; [apply (C106_get_limb_signed c x i HV Hx H)|apply (proj1 (C106_get_limb c x i HV Hx) H)]. }
  rewrite G. unfold limb_at. f_equal. pose proof (BITS_alt (c := c)) as HB. pose proof (N1 HV) as HN.
  symmetry. apply Znumtheory.Zmod_div_mod; try (apply Z.pow_pos_nonneg; nia).
  exists (2 ^ (BITS - W)). rewrite <- Z.pow_add_r by nia. f_equal. lia.
Qed.

(** [strict_neg] of an unsigned number (uint/strict.rs 125-130) returns zero
    for zero and panics otherwise, whatever the build. *)
Theorem C106_strict_neg : forall (c : Cfg) x, Valid -> wf x ->
  (fits_u BITS (- uval x) -> exists r, u_strict_neg x = Ok r /\ wf r /\ uval r = - uval x) /\
  (~ fits_u BITS (- uval x) <-> u_strict_neg x = Panic) /\ (fits_u BITS (- uval x) <-> uval x = 0).
Proof.
  intros c x HV Hx. pose proof (uval_range HV x Hx) as R. unfold u_strict_neg. rewrite (u_checked_neg_ok HV) by assumption. unfold fits_u.
  pose proof (wf_ofZ HV 0) as W0. pose proof (uval_ofZ HV 0) as U0. rewrite Z.mod_0_l in U0 by lia.
  destruct (Z.eqb_spec (uval x) 0) as [E|E]; cbn [some_if unwrap bind]; split; [|split| |split].
  - intros _. exists (ofZ 0). repeat (split; auto). lia.
  - split; [intros H; exfalso; apply H; lia|discriminate].
  - lia.
  - intros H. exfalso. lia.
  - split; auto. intros _ H. lia.
  - lia.
Qed.

(** Examples: the third limb of a number; the top limb of a negative number
    read both ways; an index past the end; the two outcomes of [strict_neg]. *)
Example C106_ex : (let x := E64 (- 5 * 2 ^ 192 + 7 * 2 ^ 128 + 3) in
  get_limb x 2 = Ok 7 /\ get_limb x 4 = Panic /\ least_significant_limb x = Ok 3 /\
  @most_significant_limb c256_64 true x = Ok (- 5) /\ @most_significant_limb c256_64 false x = Ok (2 ^ 64 - 5)) /\
  get_limb (E32 (9 * 2 ^ 224)) 7 = Ok 9 /\ get_limb (E32 9) 8 = Panic /\
  @u_strict_neg c256_64 (E64 0) = Ok (E64 0) /\ @u_strict_neg c256_64 (E64 1) = Panic.
Proof. vm_compute. auto 12. Qed.

(** ** Assumptions (each must print "Closed under the global context") *)

Print Assumptions C106_get_limb.
Print Assumptions C106_get_limb_signed.
Print Assumptions C106_ends.
Print Assumptions C106_rebuild.
Print Assumptions C106_shift.
Print Assumptions C106_strict_neg.
