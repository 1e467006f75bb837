(** * Which calls take the same steps whatever the values (C110)

    The documentation calls six comparisons "non-short circuiting"
    (src/shared/ord.rs 45, 74, 88, 103, 118, 124, 130) and the algorithms as a
    whole variable-time (src/lib.rs 11, 70).  The steps are those of MTrace.v:
    elements read and written, and outcomes of conditions, in the source. *)

Require Import ZArith List Bool Lia.
From Verif Require Import Prim Spec MAdd MMul MShift MCore MArith MTrace Facts PAdd PMul PCore PWide PBits PArith PLayout PLayout2
  PropsLayout PRet PTrace PTrace2 PTrace3.
Import ListNotations.
Local Open Scope Z_scope.

(** word [i] of a number, two limbs wide, and limb [i] *)
Definition word {c : Cfg} (x : list Z) (i : nat) : Z := uval x / 2 ^ (2 * W * Z.of_nat i) mod 2 ^ (2 * W).
Definition limb {c : Cfg} (x : list Z) (i : nat) : Z := uval x / 2 ^ (W * Z.of_nat i) mod 2 ^ W.
(** how many words *)
Definition words {c : Cfg} : nat := Z.to_nat (BITS / (2 * W)).


Local Notation E64 := (@ofZ c256_64).
Local Notation E32 := (@ofZ c256_32).

(** ** Leaving the steps out gives the functions of the model *)
Theorem C110_same_code : forall (c : Cfg) (sg : bool) (x y : list Z) (n : Z),
  snd (t_wrapping_add sg x y) = wrapping_add sg x y /\ snd (t_wrapping_sub sg x y) = wrapping_sub sg x y /\
  snd (t_wrapping_mul x y) = wrapping_mul sg x y /\
  snd (t_overflowing_add sg x y) = overflowing_add sg x y /\ snd (t_overflowing_sub sg x y) = overflowing_sub sg x y /\
  snd (t_u_overflowing_mul x y) = overflowing_mul false x y /\ snd (t_mul_widening x y) = mul_widening x y /\
  snd (t_checked_add sg x y) = checked_add sg x y /\ snd (t_checked_sub sg x y) = checked_sub sg x y /\
  snd (t_not_const x) = not_const x /\ snd (t_bitwise Z.land x y) = bitand_const x y /\
  snd (t_bitwise Z.lor x y) = bitor_const x y /\ snd (t_bitwise Z.lxor x y) = bitxor_const x y /\
  snd (t_count_ones x) = count_ones x /\ snd (t_count_zeros x) = count_zeros x /\
  snd (t_leading_zeros x) = leading_zeros x /\ snd (t_trailing_zeros x) = trailing_zeros x /\
  snd (t_rotate_left x n) = rotate_left x n /\ snd (t_rotate_right x n) = rotate_right x n /\
  snd (t_wrapping_shl x n) = wrapping_shl x n /\ snd (t_wrapping_shr sg x n) = wrapping_shr sg x n /\
  snd (t_eq_const x y) = eq_const x y /\ snd (t_eq_branched x y) = eq_branched x y /\
  snd (t_lt_const sg x y) = lt_const sg x y /\ snd (t_le_const sg x y) = le_const sg x y /\
  snd (t_gt_const sg x y) = gt_const sg x y /\ snd (t_ge_const sg x y) = ge_const sg x y /\
  snd (t_cmp_const sg x y) = cmp_const sg x y /\
  snd (t_is_negative x) = is_negative x /\ snd (t_is_positive x) = is_positive x.
Proof.
  intros. repeat match goal with |- _ /\ _ => split end;
  auto using te_wrapping_add, te_wrapping_sub, te_wrapping_mul, te_overflowing_add, te_overflowing_sub, te_u_overflowing_mul,
    te_mul_widening, te_checked_add, te_checked_sub, te_not_const, te_bitwise, te_count_ones, te_count_zeros, te_leading_zeros,
    te_trailing_zeros, te_rotate_left, te_rotate_right, te_wrapping_shl, te_wrapping_shr, te_eq_const, te_eq_branched,
    te_lt_const, te_le_const, te_gt_const, te_ge_const, te_cmp_const, te_is_negative, te_is_positive.
  - apply te_bitwise.
  - apply te_bitwise.
  - apply te_bitwise.
Qed.
Example C110_same_code_ex :
  snd (t_wrapping_add (c := c256_64) false (E64 (2 ^ 64 - 1)) (E64 7)) = Ok (E64 (2 ^ 64 + 6)) /\
  snd (t_wrapping_mul (c := c256_32) (E32 (- 3)) (E32 (2 ^ 40))) = Ok (E32 (- 3 * 2 ^ 40)) /\
  snd (t_cmp_const (c := c256_64) true (E64 (-1)) (E64 5)) = Ok Lt.
Proof. vm_compute. repeat split; reflexivity. Qed.

Section Lem.
Context {c : Cfg}.
Hypothesis HV : Valid.
Lemma words_WIDE : words = WIDE.
Proof.
  unfold words. rewrite <- BITS_alt. rewrite (N_wide HV). pose proof (tHW HV).
  replace (W * Z.of_nat (2 * WIDE)) with (Z.of_nat WIDE * (2 * W)) by lia.
  rewrite Z.div_mul by lia. apply Nat2Z.id.
Qed.
Lemma nth_word : forall x i, wf x -> (i < WIDE)%nat -> nth i (to_wide x) 0 = word x i.
Proof.
  intros x i Hx Hi. pose proof (tHW HV). rewrite (to_wide_lenc HV _ Hx). apply nth_lenc; [lia|auto].
Qed.
Lemma nth_limb : forall x i, wf x -> (i < N)%nat -> nth i x 0 = limb x i.
Proof.
  intros x i Hx Hi. pose proof (tHW HV). rewrite <- (lenc_uval HV _ Hx) at 1. apply nth_lenc; [lia|auto].
Qed.
Lemma top_stop_ext : forall (p q : nat -> Prop) n d, (forall i, (i < n)%nat -> p i <-> q i) -> top_stop p n d -> top_stop q n d.
Proof.
  intros p q n d H (H1 & H2 & H3). split; [auto|]. split.
  - intros i Hi. rewrite <- H by lia. auto.
  - destruct H3; auto. right. apply H; auto.
Qed.
Lemma low_stop_ext : forall (p q : nat -> Prop) n d, (forall i, (i < n)%nat -> p i <-> q i) -> low_stop p n d -> low_stop q n d.
Proof.
  intros p q n d H (H1 & H2 & H3). split; [auto|]. split.
  - intros i Hi. rewrite <- H by lia. auto.
  - destruct H3; auto. right. apply H; auto. lia.
Qed.
Lemma eql_wf : forall x y, wf x -> wf y -> eql x y.
Proof. intros x y (H & _) (H' & _). unfold eql. congruence. Qed.
Lemma eql_wide : forall x y, wf x -> wf y -> eql (to_wide x) (to_wide y).
Proof. intros x y Hx Hy. unfold eql. rewrite !(wx_len HV) by auto. reflexivity. Qed.
Lemma dig_wf : forall x y, wf x -> wf y -> dig x y.
Proof. intros x y (H & D) (H' & D'). unfold dig. repeat split; auto; congruence. Qed.
Lemma same_fst : forall A (R : A -> A -> Prop) m m', same R m m' -> fst m = fst m'.
Proof. intros A R m m' H. apply H. Qed.
Lemma fst_quiet : forall A B (m : tr A) (k : A -> res B), fst (tbind m (fun a => quiet (k a))) = fst m.
Proof. intros A B (t & [a| |]) k; cbn; rewrite ?app_nil_r; reflexivity. Qed.
(** a loop whose rounds take known steps *)
Lemma for_steps : forall St (Inv : St -> Prop) g body k i s,
  (forall j s, (i <= j < i + k)%nat -> Inv s -> exists s', body j s = (g j, Ok s') /\ Inv s') -> Inv s ->
  exists s', for_t k i body s = (flat_map g (seq i k), Ok s') /\ Inv s'.
Proof.
  intros St Inv g body k. induction k as [|k IH]; intros i s HB HI; cbn [for_t seq flat_map].
  - exists s. auto.
  - destruct (HB i s) as (s1 & E1 & HI1); [lia|auto|]. destruct (IH (S i) s1) as (s2 & E2 & HI2); auto.
    { intros. apply HB; auto. lia. }
    exists s2. split; auto. rewrite E1. cbn [tbind]. rewrite E2. reflexivity.
Qed.
End Lem.

(** ** Calls that take the same steps on all values *)

(** one limb at a time from the bottom, each read and written once *)
Theorem C110_add_sub : forall (c : Cfg) sg x y, Valid -> wf x -> wf y ->
  let each := flat_map (fun i => [Rd i; Rd i; Wr i]) (seq 0 N) in
  fst (t_wrapping_add sg x y) = each /\ fst (t_wrapping_sub sg x y) = each /\
  fst (t_overflowing_add sg x y) = each /\ fst (t_overflowing_sub sg x y) = each.
Proof.
  intros c sg x y HV Hx Hy each. pose proof Hx as (Lx & _). pose proof Hy as (Ly & _).
  assert (HN : (2 <= N)%nat) by (pose proof (WIDE_ge2 HV); pose proof (N_wide HV); lia).
  assert (HA : (2 <=? N)%nat = true) by (apply Nat.leb_le; lia).
  assert (EN : flat_map (fun i => [Rd i; Rd i; Wr i]) (seq 0 (N - 1)) ++ [Rd (N - 1); Rd (N - 1); Wr (N - 1)] = each).
  { unfold each. replace N with (S (N - 1)) at 5 by lia. rewrite seq_S, flat_map_app. reflexivity. }
  assert (F : forall k f, (k <= N)%nat -> exists s : list Z * bool,
    for_ranget 0 k (fun i '(result, cy) =>
      let% xi := rd x i in let% yi := rd y i in
      let '(vi, cy) := f xi yi cy in
      let% result := wr result i vi in
      quiet (Ok (result, cy))) (repeat 0 N, false) = (flat_map (fun i => [Rd i; Rd i; Wr i]) (seq 0 k), Ok s) /\
    length (fst s) = N).
  { intros k f Hk. unfold for_ranget. rewrite Nat.sub_0_r.
    apply (for_steps _ (fun s => length (fst s) = N)); [|apply repeat_length].
    intros j (r & cy) Hj HL. cbn [fst] in HL. cbn [rd wr tbind]. rewrite !get_ok by lia. cbn [tbind].
    destruct (f (nth j x 0) (nth j y 0) cy) as (v & cy'). rewrite set_ok by lia. cbn [tbind quiet app].
    eexists. split; [reflexivity|]. cbn [fst]. rewrite length_upd. auto. }
  unfold t_wrapping_add, t_wrapping_sub, t_overflowing_add, t_overflowing_sub, t_sadd_wrapping_full, t_add_wrapping_full,
    t_sub_wrapping_full, t_sadd_overflowing_full, t_add_overflowing_full, t_ssub_overflowing_full, t_sub_overflowing_full.
  rewrite Lx, HA. cbn [assert_].
  destruct (F (N - 1)%nat carrying_add) as ((r1 & c1) & E1 & L1); [lia|]. destruct (F (N - 1)%nat borrowing_sub) as ((r2 & c2) & E2 & L2); [lia|].
  destruct (F N carrying_add) as ((r3 & c3) & E3 & L3); [lia|]. destruct (F N borrowing_sub) as ((r4 & c4) & E4 & L4); [lia|].
  cbn [fst] in *. rewrite !E1, !E2, !E3, !E4. cbn [quiet tbind]. cbn [rd wr tbind]. rewrite !get_ok by lia. cbn [tbind].
  rewrite !set_ok by lia. unfold mk.
  assert (HM : (tbits mod 128 =? 0) = true).
  { rewrite tbits_BITS. destruct HV as (_ & (k & _ & ->) & _). rewrite Z.mul_comm, Z.mod_mul by lia. reflexivity. }
  rewrite HM. cbn [assert_ bind].
  repeat split.
  - destruct sg; cbn [tbind quiet fst app]; rewrite ?app_nil_r; exact EN.
  - cbn [tbind quiet fst app]. rewrite ?app_nil_r. exact EN.
  - destruct sg.
    + destruct (p_soverflowing_add _ _ _) as (v & c0). destruct (p_soverflowing_add _ v _) as (v' & c0'). rewrite set_ok by lia.
      cbn [assert_ bind tbind quiet fst app]. rewrite ?app_nil_r. exact EN.
    + cbn [assert_ bind tbind quiet fst app]. rewrite ?app_nil_r. reflexivity.
  - destruct sg.
    + destruct (p_soverflowing_sub _ _ _) as (v & c0). destruct (p_soverflowing_sub _ v _) as (v' & c0'). rewrite set_ok by lia.
      cbn [assert_ bind tbind quiet fst app]. rewrite ?app_nil_r. exact EN.
    + cbn [assert_ bind tbind quiet fst app]. rewrite ?app_nil_r. reflexivity.
Qed.
Example C110_add_sub_ex :
  fst (t_wrapping_add (c := c256_64) true (E64 (-1)) (E64 (2 ^ 200))) =
    [Rd 0; Rd 0; Wr 0; Rd 1; Rd 1; Wr 1; Rd 2; Rd 2; Wr 2; Rd 3; Rd 3; Wr 3] /\
  length (fst (t_overflowing_sub (c := c256_32) false (E32 3) (E32 5))) = 24%nat.
Proof. vm_compute. repeat split; reflexivity. Qed.

(** the bitwise operations and counts of ones and zeros, the sign, and equality *)
Theorem C110_bits : forall (c : Cfg) x x' y y', Valid -> wf x -> wf x' -> wf y -> wf y' ->
  fst (t_not_const x) = fst (t_not_const x') /\
  (forall op, fst (t_bitwise op x y) = fst (t_bitwise op x' y')) /\
  fst (t_count_ones x) = fst (t_count_ones x') /\ fst (t_count_zeros x) = fst (t_count_zeros x') /\
  fst (t_is_negative x) = fst (t_is_negative x').
Proof.
  intros c x x' y y' HV Hx Hx' Hy Hy'. pose proof (eql_wf x x' Hx Hx'). pose proof (eql_wf y y' Hy Hy').
  split; [eapply same_fst, sm_not_const; auto|]. split; [intros; eapply same_fst, sm_bitwise; auto|].
  split; [eapply same_fst, (sm_count_ones HV); auto|]. split.
  - unfold t_count_zeros. rewrite !fst_tbind, !te_not_const.
    rewrite (same_fst _ _ _ _ (sm_not_const x x' ltac:(auto))). f_equal.
    rewrite !(not_const_ok HV) by auto. eapply same_fst, (sm_count_ones HV); apply (wf_ofZ HV).
  - unfold t_is_negative. rewrite !fst_tbind. cbn [rd fst snd]. destruct (get x _), (get x' _); reflexivity.
Qed.
Example C110_bits_ex :
  fst (t_not_const (c := c256_64) (E64 9)) = [Rd 0; Wr 0; Rd 1; Wr 1; Rd 2; Wr 2; Rd 3; Wr 3] /\
  fst (t_count_ones (c := c256_64) (E64 9)) = fst (t_count_ones (c := c256_64) (E64 (-9))) /\
  length (fst (t_count_ones (c := c256_64) (E64 9))) = 8%nat /\
  fst (t_is_negative (c := c256_64) (E64 9)) = [Rd 3].
Proof. vm_compute. repeat split; reflexivity. Qed.

(** the wrapped product and the product of twice the width *)
Theorem C110_mul : forall (c : Cfg) x x' y y', Valid -> wf x -> wf x' -> wf y -> wf y' ->
  fst (t_wrapping_mul x y) = fst (t_wrapping_mul x' y') /\ fst (t_mul_widening x y) = fst (t_mul_widening x' y').
Proof.
  intros c x x' y y' HV Hx Hx' Hy Hy'. pose proof (dig_wf x x' Hx Hx'). pose proof (dig_wf y y' Hy Hy'). split.
  - unfold t_wrapping_mul. rewrite !(fst_quiet _ _ _ (fun l => mk l)). eapply same_fst, (sm_mul_wrapping_full HV); auto.
  - eapply same_fst, (sm_mul_widening HV); auto.
Qed.
Example C110_mul_ex :
  fst (t_wrapping_mul (c := c256_64) (E64 0) (E64 0)) = fst (t_wrapping_mul (c := c256_64) (E64 (-1)) (E64 (-1))) /\
  length (fst (t_wrapping_mul (c := c256_64) (E64 0) (E64 0))) = 64%nat /\
  length (fst (t_mul_widening (c := c256_32) (E32 5) (E32 (-7)))) = 400%nat.
Proof. vm_compute. repeat split; reflexivity. Qed.

(** shifts and rotations by one amount; the arithmetic right shift also looks at
    the sign *)
Theorem C110_shift : forall (c : Cfg) x x' n, Valid -> wf x -> wf x' ->
  fst (t_wrapping_shl x n) = fst (t_wrapping_shl x' n) /\ fst (t_wrapping_shr false x n) = fst (t_wrapping_shr false x' n) /\
  ((sval x < 0 <-> sval x' < 0) -> fst (t_wrapping_shr true x n) = fst (t_wrapping_shr true x' n)) /\
  fst (t_rotate_left x n) = fst (t_rotate_left x' n) /\ fst (t_rotate_right x n) = fst (t_rotate_right x' n).
Proof.
  intros c x x' n HV Hx Hx'. pose proof (eql_wide HV x x' Hx Hx') as HE.
  assert (Q : forall (m m' : Z -> tr (list Z)) k, (forall s, fst (m s) = fst (m' s)) ->
    fst (let% s := quiet (urem n tbits) in let% r := m s in quiet (k r)) =
    fst (let% s := quiet (urem n tbits) in let% r := m' s in quiet (k r) : tr (list Z))).
  { intros m m' k H. rewrite !(fst_tbind _ _ (quiet _)). cbn [quiet fst snd]. destruct (urem n tbits); try reflexivity.
    rewrite !(fst_quiet _ _ _ (fun r => k r)). f_equal. auto. }
  split; [apply (Q (t_shl_array (2 * W) (to_wide x)) (t_shl_array (2 * W) (to_wide x'))); intros; eapply same_fst, sm_shl_array; auto|].
  split; [apply (Q (t_shr_array (2 * W) false (to_wide x)) (t_shr_array (2 * W) false (to_wide x'))); intros;
    eapply same_fst, sm_shr_array; auto; discriminate|].
  split.
  - intros HS. apply (Q (t_shr_array (2 * W) true (to_wide x)) (t_shr_array (2 * W) true (to_wide x'))); intros.
    eapply same_fst, sm_shr_array; auto. intros _.
    assert (A : forall z, wf z -> (scast (2 * W) (nth (length (to_wide x) - 1) (to_wide z) 0) <? 0) = (sval z <? 0)).
    { intros z Hz. rewrite (wx_len HV x Hx). pose proof (val_wide HV z Hz true) as V. cbn [val as_hi] in V.
      assert (W2 : 0 <= 2 * W) by (pose proof (tHW HV); lia).
      assert (HL : (WIDE - 1 <= length (to_wide z))%nat) by (rewrite (wx_len HV z Hz); lia).
      pose proof (pv_range (2 * W) (to_wide z) (WIDE - 1) W2 (wx_dig HV z Hz) HL) as P.
      rewrite V. set (a := scast _ _). destruct (Z.ltb_spec a 0); symmetry; [apply Z.ltb_lt | apply Z.ltb_ge]; nia. }
    rewrite !A by auto. destruct (Z.ltb_spec (sval x) 0), (Z.ltb_spec (sval x') 0); tauto || lia || reflexivity.
  - unfold t_rotate_left, t_rotate_right. rewrite !(fst_quiet _ _ _ (fun r => from_ne_wide r)).
    split; eapply same_fst; [apply sm_rotl_array | apply sm_rotr_array]; auto.
Qed.
Example C110_shift_ex :
  fst (t_wrapping_shl (c := c256_64) (E64 1) 130) = fst (t_wrapping_shl (c := c256_64) (E64 (-1)) 130) /\
  length (fst (t_wrapping_shl (c := c256_64) (E64 1) 130)) = 8%nat /\
  fst (t_wrapping_shr (c := c256_64) true (E64 (-5)) 9) = fst (t_wrapping_shr (c := c256_64) true (E64 (-2 ^ 250)) 9) /\
  fst (t_rotate_left (c := c256_64) (E64 1) 3) <> fst (t_rotate_left (c := c256_64) (E64 1) 130).
Proof. vm_compute. repeat split; try reflexivity. discriminate. Qed.
(** the sign does show in the arithmetic right shift *)
Theorem C110_shr_sign_refuted : exists x x', wf (c := c256_64) x /\ wf (c := c256_64) x' /\
  fst (t_wrapping_shr (c := c256_64) true x 1) <> fst (t_wrapping_shr (c := c256_64) true x' 1).
Proof.
  exists (ofZ (c := c256_64) 5), (ofZ (c := c256_64) (-5)). split; [apply (wf_ofZ valid_c256_64)|].
  split; [apply (wf_ofZ valid_c256_64)|]. vm_compute. discriminate.
Qed.

(** a checked sum or difference adds one condition, whether the exact result fits *)
Theorem C110_checked : forall (c : Cfg) sg x y, Valid -> wf x -> wf y ->
  let each := flat_map (fun i => [Rd i; Rd i; Wr i]) (seq 0 N) in
  exists a s, fst (t_checked_add sg x y) = each ++ [Br a] /\ fst (t_checked_sub sg x y) = each ++ [Br s] /\
    (a = true <-> if sg then fits_s BITS (sval x + sval y) else fits_u BITS (uval x + uval y)) /\
    (s = true <-> if sg then fits_s BITS (sval x - sval y) else fits_u BITS (uval x - uval y)).
Proof.
  intros c sg x y HV Hx Hy each. destruct (C110_add_sub c sg x y HV Hx Hy) as (_ & _ & A & S). fold each in A, S.
  exists (fitsb sg (val sg x + val sg y)), (fitsb sg (val sg x - val sg y)).
  unfold t_checked_add, t_checked_sub, t_opt. rewrite !fst_tbind, te_overflowing_add, te_overflowing_sub, A, S.
  rewrite (overflowing_add_ok HV), (overflowing_sub_ok HV) by auto. cbn [test fst snd tbind quiet app]. rewrite !negb_involutive.
  repeat split; try (intros H; apply (fitsb_spec) in H; destruct sg; exact H); intros H; apply fitsb_spec; destruct sg; exact H.
Qed.
Example C110_checked_ex :
  (exists l, fst (t_checked_add (c := c256_64) false (E64 (-1)) (E64 1)) = l ++ [Br false]) /\
  (exists l, fst (t_checked_add (c := c256_64) true (E64 (-1)) (E64 1)) = l ++ [Br true]).
Proof.
  split; exists [Rd 0; Rd 0; Wr 0; Rd 1; Rd 1; Wr 1; Rd 2; Rd 2; Wr 2; Rd 3; Rd 3; Wr 3]; vm_compute; reflexivity.
Qed.

(** ** Equality *)

(** Below 4096 bits [eq_const] reads every word and tests nothing. *)
Theorem C110_eq_reads_all : forall (c : Cfg) x y, Valid -> wf x -> wf y -> BITS < 4096 ->
  fst (t_eq_const x y) = flat_map (fun i => [Rd i; Rd i]) (seq 0 words).
Proof.
  intros c x y HV Hx Hy HB. unfold t_eq_const. rewrite tbits_BITS. apply Z.ltb_lt in HB. rewrite HB. rewrite (words_WIDE HV).
  unfold t_eq_branchless, for_ranget. rewrite Nat.sub_0_r. pose proof (wx_len HV x Hx). pose proof (wx_len HV y Hy).
  destruct (for_steps bool (fun _ => True) (fun i => [Rd i; Rd i])
    (fun i is_eq => let% a := rd (to_wide x) i in let% b := rd (to_wide y) i in quiet (Ok (is_eq && (a =? b)))) WIDE 0 true)
    as (s & E & _); auto.
  - intros j s Hj _. eexists. split; [|exact I]. cbn [rd tbind]. rewrite !get_ok by lia. reflexivity.
  - rewrite E. reflexivity.
Qed.
Example C110_eq_reads_all_ex :
  fst (t_eq_const (c := c256_64) (E64 1) (E64 2)) = [Rd 0; Rd 0; Rd 1; Rd 1] /\
  fst (t_eq_const (c := c256_64) (E64 3) (E64 3)) = [Rd 0; Rd 0; Rd 1; Rd 1].
Proof. vm_compute. repeat split; reflexivity. Qed.
(** From 4096 bits on, and in [eq_branched], the scan from the bottom stops
    after the first word that differs. *)
Theorem C110_eq_stops : forall (c : Cfg) x y, Valid -> wf x -> wf y ->
  exists e, low_stop (fun i => word x i <> word y i) words e /\
    let steps := Br true :: flat_map (fun i => [Rd i; Rd i; Br (S i <? e)%nat]) (seq 0 e) in
    fst (t_eq_branched x y) = steps /\ (4096 <= BITS -> fst (t_eq_const x y) = steps).
Proof.
  intros c x y HV Hx Hy. rewrite (words_WIDE HV). pose proof (WIDE_ge2 HV).
  destruct (low_stop_ex (fun i => nth i (to_wide x) 0 <> nth i (to_wide y) 0) WIDE) as (e & He); [|lia|].
  - intros i. destruct (Z.eq_dec (nth i (to_wide x) 0) (nth i (to_wide y) 0)); tauto.
  - exists e. split.
    + eapply low_stop_ext; [|exact He]. intros i Hi. cbn beta. rewrite !(nth_word HV) by auto. tauto.
    + pose proof (branched_steps HV x y e Hx Hy He) as E. split; [exact E|].
      intros HB. unfold t_eq_const. rewrite tbits_BITS. apply Z.ltb_ge in HB. rewrite HB. exact E.
Qed.
Example C110_eq_stops_ex :
  fst (t_eq_branched (c := c256_64) (E64 1) (E64 2)) = [Br true; Rd 0; Rd 0; Br false] /\
  fst (t_eq_branched (c := c256_64) (E64 3) (E64 3)) = [Br true; Rd 0; Rd 0; Br true; Rd 1; Rd 1; Br false].
Proof. vm_compute. repeat split; reflexivity. Qed.
(** So from 4096 bits on [eq_const] short-circuits, against its description. *)
Theorem C110_eq_non_short_circuiting_refuted : forall (c : Cfg), Valid -> 4096 <= BITS ->
  exists x y x' y', wf x /\ wf y /\ wf x' /\ wf y' /\
    (length (fst (t_eq_const x' y')) < length (fst (t_eq_const x y)))%nat.
Proof.
  intros c HV HB. set (z := ofZ 0). set (t := ofZ 1).
  assert (Wz : wf z) by apply (wf_ofZ HV). assert (Wt : wf t) by apply (wf_ofZ HV).
  exists z, z, z, t. do 4 (split; [assumption|]).
  destruct (C110_eq_stops c z z HV Wz Wz) as (e & (He & _ & Se) & _ & E).
  destruct (C110_eq_stops c z t HV Wz Wt) as (e' & (He' & Se' & _) & _ & E').
  rewrite (E HB), (E' HB). pose proof (WIDE_ge2 HV) as HW2. pose proof (words_WIDE HV) as HWW. pose proof (tHW HV) as HW.
  assert (e = words) by (destruct Se as [|Se]; tauto). subst e.
  assert (e' = 1)%nat.
  { destruct (Nat.eq_dec e' 1) as [|Hn]; [assumption|]. exfalso.
    apply (Se' 0%nat); [lia|]. intros A. unfold word, z, t in A. rewrite !(uval_ofZ HV) in A.
    assert (1 < 2 ^ (2 * W)) by (apply Z.pow_gt_1; lia). assert (1 < 2 ^ BITS) by (apply Z.pow_gt_1; lia).
    change (2 * W * Z.of_nat 0) with (2 * W * 0) in A. rewrite Z.mul_0_r, Z.pow_0_r, !Z.div_1_r in A.
    rewrite (Z.mod_small 1 (2 ^ BITS)), (Z.mod_small 1) in A by lia. rewrite !Z.mod_0_l in A by lia. discriminate A. }
  subst e'. cbn [length].
  assert (LN : forall k l, length (flat_map (fun i => [Rd i; Rd i; Br (S i <? k)%nat]) l) = (3 * length l)%nat).
  { intros k l. induction l; cbn [flat_map app length]; lia. }
  rewrite !LN, !seq_length. lia.
Qed.
Definition c4096_64 : Cfg := {| W := 64; N := 64; chk := true; dbg := true |}.
Example C110_eq_4096_ex : @Valid c4096_64 /\
  length (fst (t_eq_const (c := c4096_64) (@ofZ c4096_64 0) (@ofZ c4096_64 0))) = 97%nat /\
  length (fst (t_eq_const (c := c4096_64) (@ofZ c4096_64 0) (@ofZ c4096_64 1))) = 4%nat.
Proof.
  split; [|vm_compute; split; reflexivity]. split; [right; reflexivity|]. split; [exists 32; split; [lia|reflexivity]|reflexivity].
Qed.

(** ** Order *)

(** The scan from the top stops at the highest word that differs. *)
Theorem C110_order_stops : forall (c : Cfg) sg x y, Valid -> wf x -> wf y ->
  exists d, top_stop (fun i => word x i <> word y i) words d /\
    let steps := flat_map (fun i => [Rd i; Rd i; Br (d <? i)%nat]) (rev (seq d (words - d))) in
    fst (t_lt_const sg x y) = steps /\ fst (t_le_const sg x y) = steps /\
    fst (t_gt_const sg x y) = steps /\ fst (t_ge_const sg x y) = steps /\
    exists o, cmp_const sg x y = Ok o /\
      fst (t_cmp_const sg x y) =
        steps ++ match o with Lt => [Br true] | Gt => [Br false; Br true] | Eq => [Br false; Br false] end.
Proof.
  intros c sg x y HV Hx Hy. rewrite (words_WIDE HV). pose proof (WIDE_ge2 HV).
  destruct (top_stop_ex (fun i => nth i (to_wide x) 0 <> nth i (to_wide y) 0) WIDE) as (d & Hd); [|lia|].
  - intros i. destruct (Z.eq_dec (nth i (to_wide x) 0) (nth i (to_wide y) 0)); tauto.
  - exists d. split.
    + eapply top_stop_ext; [|exact Hd]. intros i Hi. cbn beta. rewrite !(nth_word HV) by auto. tauto.
    + change (flat_map _ _) with (down_steps (c := c) d). cbn zeta.
      assert (L : fst (t_lt_const sg x y) = down_steps d) by (apply (ord_steps HV); auto using Z.ltb_irrefl).
      assert (E : fst (t_le_const sg x y) = down_steps d) by (apply (ord_steps HV); auto using Z.ltb_irrefl).
      split; [exact L|]. split; [exact E|].
      unfold t_gt_const, t_ge_const. rewrite !(fst_quiet _ _ _ (fun b => Ok (negb b))).
      split; [exact E|]. split; [exact L|]. exact (cmp_steps HV x y d Hx Hy Hd sg).
Qed.
Example C110_order_stops_ex :
  fst (t_lt_const (c := c256_64) false (E64 1) (E64 2)) = [Rd 1; Rd 1; Br true; Rd 0; Rd 0; Br false] /\
  fst (t_ge_const (c := c256_64) true (E64 1) (E64 (-2))) = [Rd 1; Rd 1; Br false] /\
  fst (t_cmp_const (c := c256_64) true (E64 1) (E64 (-2))) = [Rd 1; Rd 1; Br false; Br false; Br true].
Proof. vm_compute. repeat split; reflexivity. Qed.
(** So the comparisons described as non-short-circuiting are not, at any
    width: some two pairs of numbers take different numbers of steps. *)
Theorem C110_order_non_short_circuiting_refuted : forall (c : Cfg) sg, Valid ->
  exists x y x' y', wf x /\ wf y /\ wf x' /\ wf y' /\
    (length (fst (t_lt_const sg x' y')) < length (fst (t_lt_const sg x y)))%nat /\
    (length (fst (t_le_const sg x' y')) < length (fst (t_le_const sg x y)))%nat /\
    (length (fst (t_gt_const sg x' y')) < length (fst (t_gt_const sg x y)))%nat /\
    (length (fst (t_ge_const sg x' y')) < length (fst (t_ge_const sg x y)))%nat /\
    (length (fst (t_cmp_const sg x' y')) < length (fst (t_cmp_const sg x y)))%nat.
Proof.
  intros c sg HV. set (z := ofZ 0). set (t := ofZ (2 ^ (BITS - 1))).
  assert (Wz : wf z) by apply (wf_ofZ HV). assert (Wt : wf t) by apply (wf_ofZ HV).
  exists z, z, z, t. do 4 (split; [assumption|]).
  destruct (C110_order_stops c sg z z HV Wz Wz) as (d & (Hd & _ & Sd) & L & E & G & Q & o & _ & C).
  destruct (C110_order_stops c sg z t HV Wz Wt) as (d' & (Hd' & Sd' & _) & L' & E' & G' & Q' & o' & _ & C').
  pose proof (WIDE_ge2 HV) as HW2. pose proof (words_WIDE HV) as HWW. pose proof (tHW HV) as HW.
  assert (d = 0%nat) by (destruct Sd as [|Sd]; tauto). subst d.
  assert (EB : BITS = 2 * W * Z.of_nat words).
  { rewrite HWW. rewrite <- BITS_alt, (N_wide HV). lia. }
  assert (d' = words - 1)%nat.
  { destruct (Nat.eq_dec d' (words - 1)) as [|Hn]; [assumption|]. exfalso.
    apply (Sd' (words - 1)%nat); [lia|]. intros A. unfold word, z, t in A.
    rewrite !(uval_ofZ HV) in A. pose proof (BITS_pos HV). rewrite Z.mod_0_l in A by (pose proof (pow2_pos BITS); lia).
    rewrite (Z.mod_small (2 ^ (BITS - 1))) in A by (split; [apply Z.pow_nonneg; lia|apply pow2_lt_mono; lia]).
    replace (BITS - 1) with ((2 * W - 1) + 2 * W * Z.of_nat (words - 1)) in A by (rewrite EB; lia).
    rewrite Z.pow_add_r, Z.div_mul in A by first [nia | apply Z.pow_nonzero; nia].
    rewrite Z.mod_small in A by (split; [apply Z.pow_nonneg; lia|apply pow2_lt_mono; lia]). pose proof (pow2_pos (2 * W - 1)). lia. }
  subst d'. cbn zeta in *.
  assert (LN : forall k n, length (flat_map (fun i => [Rd i; Rd i; Br (k <? i)%nat]) (rev (seq k n))) = (3 * n)%nat).
  { intros k n. set (l := rev (seq k n)). replace n with (length l) by (unfold l; rewrite rev_length, seq_length; reflexivity).
    induction l; cbn [flat_map app length]; lia. }
  rewrite L, E, G, Q, C, L', E', G', Q', C', !app_length, !LN.
  destruct o, o'; cbn [length]; lia.
Qed.
Example C110_order_refuted_ex :
  length (fst (t_lt_const (c := c256_32) false (E32 0) (E32 0))) = 12%nat /\
  length (fst (t_lt_const (c := c256_32) false (E32 0) (E32 (2 ^ 255)))) = 3%nat.
Proof. vm_compute. repeat split; reflexivity. Qed.

(** ** Counting zeros, and the sign *)

(** [leading_zeros] reads limbs from the top down to the highest that is not
    zero, [trailing_zeros] from the bottom up to the lowest. *)
Theorem C110_zeros : forall (c : Cfg) x, Valid -> wf x ->
  (exists d, top_stop (fun i => limb x i <> 0) N d /\
     fst (t_leading_zeros x) = Br true :: flat_map (fun i => Rd i :: checks true ++ [Br (d <? i)%nat]) (rev (seq d (N - d)))) /\
  (exists e, low_stop (fun i => limb x i <> 0) N e /\
     fst (t_trailing_zeros x) = Br true :: flat_map (fun i => Rd i :: checks true ++ [Br (S i <? e)%nat]) (seq 0 e)).
Proof.
  intros c x HV Hx. pose proof (WIDE_ge2 HV). pose proof (N_wide HV).
  assert (DEC : forall i, nth i x 0 <> 0 \/ ~ nth i x 0 <> 0) by (intros i; destruct (Z.eq_dec (nth i x 0) 0); tauto).
  split.
  - destruct (top_stop_ex _ N DEC) as (d & Hd); [lia|]. exists d. split; [|exact (lead_steps HV x d Hx Hd)].
    eapply top_stop_ext; [|exact Hd]. intros i Hi. cbn beta. rewrite (nth_limb HV) by auto. tauto.
  - destruct (low_stop_ex _ N DEC) as (e & He); [lia|]. exists e. split; [|exact (trail_steps HV x e Hx He)].
    eapply low_stop_ext; [|exact He]. intros i Hi. cbn beta. rewrite (nth_limb HV) by auto. tauto.
Qed.
Example C110_zeros_ex :
  length (fst (t_leading_zeros (c := c256_64) (E64 (2 ^ 250)))) = 4%nat /\
  length (fst (t_leading_zeros (c := c256_64) (E64 1))) = 13%nat /\
  length (fst (t_trailing_zeros (c := c256_64) (E64 1))) = 4%nat.
Proof. vm_compute. repeat split; reflexivity. Qed.
(** [is_positive] looks at the top limb; at the sign; if that is not negative, at
    whether the limb is zero; and only if it is, at limbs further down to the
    highest that is not zero. *)
Theorem C110_positive : forall (c : Cfg) x, Valid -> wf x ->
  exists d, top_stop (fun i => limb x i <> 0) N d /\
    fst (t_is_positive x) = Rd (N - 1) ::
      if sval x <? 0 then [Br true] else
      Br false :: Br (0 <? limb x (N - 1)) ::
      if 0 <? limb x (N - 1) then [] else flat_map (fun i => [Rd i; Br (0 <? limb x i)]) (rev (seq d (N - 1 - d))).
Proof.
  intros c x HV Hx. pose proof (WIDE_ge2 HV). pose proof (N_wide HV).
  assert (DEC : forall i, nth i x 0 <> 0 \/ ~ nth i x 0 <> 0) by (intros i; destruct (Z.eq_dec (nth i x 0) 0); tauto).
  destruct (top_stop_ex _ N DEC) as (d & Hd); [lia|]. exists d. split.
  - eapply top_stop_ext; [|exact Hd]. intros i Hi. cbn beta. rewrite (nth_limb HV) by auto. tauto.
  - rewrite (positive_steps HV x d Hx Hd). cbn zeta.
    assert (E : (2 ^ (W - 1) <=? nth (N - 1) x 0) = (sval x <? 0)).
    { pose proof (is_negative_ok HV x Hx) as A. unfold is_negative, get_limb in A. pose proof Hx as (HL & D).
      rewrite get_ok in A by lia. cbn [bind] in A. injection A as A. rewrite <- A.
      assert (W0 : 0 <= W) by (pose proof (tHW HV); lia). pose proof (digits_nth W x (N - 1) W0 D).
      assert (P2 : 2 ^ W = 2 * 2 ^ (W - 1)) by (apply pow2_half; pose proof (tHW HV); lia).
      unfold scast. rewrite Z.mod_small by lia.
      destruct (Z.ltb_spec (nth (N - 1) x 0) (2 ^ (W - 1))), (Z.leb_spec (2 ^ (W - 1)) (nth (N - 1) x 0)); lia. }
    rewrite E. destruct (sval x <? 0); [reflexivity|]. rewrite (nth_limb HV x (N - 1)) by (auto; lia).
    do 3 f_equal. destruct (0 <? limb x (N - 1)); [reflexivity|].
    rewrite !flat_map_concat_map. f_equal. apply map_ext_in. intros i Hi. apply in_rev, in_seq in Hi.
    rewrite (nth_limb HV) by (auto; lia). reflexivity.
Qed.
Example C110_positive_ex :
  fst (t_is_positive (c := c256_64) (E64 (-3))) = [Rd 3; Br true] /\
  fst (t_is_positive (c := c256_64) (E64 (2 ^ 200))) = [Rd 3; Br false; Br true] /\
  fst (t_is_positive (c := c256_64) (E64 (2 ^ 64))) = [Rd 3; Br false; Br false; Rd 2; Br false; Rd 1; Br true].
Proof. vm_compute. repeat split; reflexivity. Qed.

(** ** The product with overflow flag *)
Theorem C110_overflowing_mul_refuted : exists x y x' y',
  wf (c := c256_64) x /\ wf (c := c256_64) y /\ wf (c := c256_64) x' /\ wf (c := c256_64) y' /\
  length (fst (t_u_overflowing_mul (c := c256_64) x y)) <> length (fst (t_u_overflowing_mul (c := c256_64) x' y')).
Proof.
  exists (ofZ (c := c256_64) 3), (ofZ (c := c256_64) 5), (ofZ (c := c256_64) (2 ^ 200)), (ofZ (c := c256_64) (2 ^ 200)).
  do 4 (split; [apply (wf_ofZ valid_c256_64)|]). vm_compute. discriminate.
Qed.

(** ** Assumptions (each must print "Closed under the global context") *)

Print Assumptions C110_same_code.
Print Assumptions C110_add_sub.
Print Assumptions C110_bits.
Print Assumptions C110_mul.
Print Assumptions C110_shift.
Print Assumptions C110_shr_sign_refuted.
Print Assumptions C110_checked.
Print Assumptions C110_eq_reads_all.
Print Assumptions C110_eq_stops.
Print Assumptions C110_eq_non_short_circuiting_refuted.
Print Assumptions C110_order_stops.
Print Assumptions C110_order_non_short_circuiting_refuted.
Print Assumptions C110_zeros.
Print Assumptions C110_positive.
Print Assumptions C110_overflowing_mul_refuted.
