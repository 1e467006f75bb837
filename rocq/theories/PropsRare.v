(** * When a division needs a correction step, and how rarely

    C07, C08 and C50 say that a division goes wrong only where a quotient digit
    is overestimated.  Here: what an overestimated step looks like, how few there
    are, and tests on the two numbers that rule it out. *)

Require Import ZArith List Bool Lia.
From Verif Require Import Prim Spec Facts DivSpec MCore MArith MApi PRet PropsDiv.
Import ListNotations.
Local Open Scope Z_scope.
Local Notation E64 := (@ofZ c256_64).

(** ** One step *)
(** a divisor whose top limb (of [n]) has its highest bit set *)
Definition normalised (w : Z) (n : nat) (D : Z) : Prop := 2 ^ (w * Z.of_nat n - 1) <= D < 2 ^ (w * Z.of_nat n).
Definition step_over (w : Z) (n : nat) (D S : Z) : bool := S / D <? digit_estimate w n S D.

Section Step.
Variables (w D S : Z) (n : nat).
Hypothesis Hw : 1 <= w.
Hypothesis Hn : (2 <= n)%nat.
Hypothesis HD : normalised w n D.
Hypothesis HS : 0 <= S < D * 2 ^ w.
Let q := S / D.
Let lowD := D mod 2 ^ (w * (Z.of_nat n - 2)).
Lemma pw : 0 < 2 ^ w /\ 0 < 2 ^ (w * (Z.of_nat n - 2)) /\ 2 ^ (w * (Z.of_nat n - 1)) = 2 ^ w * 2 ^ (w * (Z.of_nat n - 2)) /\
  2 ^ (w * Z.of_nat n) = 2 ^ w * 2 ^ (w * (Z.of_nat n - 1)) /\ 2 ^ (w * Z.of_nat n) = 2 * 2 ^ (w * Z.of_nat n - 1) /\ 0 < D.
Proof.
  clear q lowD HS. repeat split.
  - apply pow2_pos. lia.
  - apply pow2_pos. nia.
  - rewrite <- Z.pow_add_r by nia. f_equal. lia.
  - rewrite <- Z.pow_add_r by nia. f_equal. lia.
  - rewrite <- Z.pow_succ_r by nia. f_equal. lia.
  - destruct HD as (H & _). apply Z.lt_le_trans with (2 := H). apply pow2_pos. nia.
Qed.
Lemma q_range : 0 <= q < 2 ^ w.
Proof.
  destruct pw as (_ & _ & _ & _ & _ & P). split; [apply Z.div_pos; lia|]. apply Z.div_lt_upper_bound; lia.
Qed.
Lemma step_low : S / 2 ^ (w * Z.of_nat n) < D / 2 ^ (w * (Z.of_nat n - 1)) -> step_over w n D S = true -> D - S mod D <= (q + 1) * lowD.
Proof.
  intros HT HO. destruct pw as (P1 & P2 & E1 & E2 & E3 & P). unfold step_over, digit_estimate in HO. cbv zeta in HO. apply Z.ltb_lt in HT. rewrite HT in HO.
  apply Z.ltb_lt in HO. fold q in HO. set (p := 2 ^ (w * (Z.of_nat n - 2))) in *.
  assert (W2 : 2 <= 2 ^ w) by (change 2 with (2 ^ 1) at 1; apply Z.pow_le_mono_r; lia). destruct HD as (HD1 & HD2).
  assert (PD : p <= D) by (assert (4 * p <= 2 ^ w * (2 ^ w * p)) by nia; lia).
  assert (D2 : 0 < D / p) by (apply Z.div_str_pos; lia).
  pose proof (Z.div_mod S p ltac:(lia)) as ES. pose proof (Z.mod_pos_bound S p P2) as RS. pose proof (Z.div_mod D p ltac:(lia)) as ED. fold lowD in ED.
  pose proof (Z.div_mod (S / p) (D / p) ltac:(lia)) as EQ. pose proof (Z.mod_pos_bound (S / p) (D / p) D2) as RQ.
  pose proof (Z.div_mod S D ltac:(lia)) as EM. fold q in EM. pose proof q_range as QR.
  set (S2 := S / p) in *. set (D2v := D / p) in *. set (h := S2 / D2v) in *. set (rm := S mod D) in *. set (Sl := S mod p) in *.
  assert (A : (q + 1) * D2v <= S2) by nia.
  clearbody S2 D2v h rm Sl q lowD p. nia.
Qed.
Lemma step_top : D / 2 ^ (w * (Z.of_nat n - 1)) <= S / 2 ^ (w * Z.of_nat n) -> step_over w n D S = true ->
  q = 2 ^ w - 2 /\ S / 2 ^ (w * Z.of_nat n) = D / 2 ^ (w * (Z.of_nat n - 1)).
Proof.
  intros HT HO. destruct pw as (P1 & P2 & E1 & E2 & E3 & P). unfold step_over, digit_estimate in HO. cbv zeta in HO.
  destruct (Z.ltb_spec (S / 2 ^ (w * Z.of_nat n)) (D / 2 ^ (w * (Z.of_nat n - 1)))); [lia|]. apply Z.ltb_lt in HO. fold q in HO.
  assert (P3 : 0 < 2 ^ (w * (Z.of_nat n - 1))) by nia. set (t := 2 ^ (w * (Z.of_nat n - 1))) in *. rewrite E2 in *.
  pose proof (Z.div_mod D t ltac:(lia)) as ED. pose proof (Z.mod_pos_bound D t P3) as RD. set (v := D / t) in *. set (dl := D mod t) in *.
  assert (PT : 0 < 2 ^ w * t) by nia.
  pose proof (Z.div_mod S (2 ^ w * t) ltac:(lia)) as ES. pose proof (Z.mod_pos_bound S (2 ^ w * t) PT) as RS. set (u := S / (2 ^ w * t)) in *. set (sl := S mod (2 ^ w * t)) in *.
  assert (UV : u = v).
  { assert (S < (v + 1) * (2 ^ w * t)) by nia. assert (u < v + 1) by (apply Z.div_lt_upper_bound; nia). lia. }
  assert (V : 2 ^ w <= 2 * v).
  { assert (HDn : 2 ^ (w * Z.of_nat n - 1) <= D) by apply HD. assert (EE : 2 ^ w = 2 * 2 ^ (w - 1)) by (rewrite <- Z.pow_succ_r by lia; f_equal; lia).
    assert (2 ^ (w - 1) <= v) by (apply Z.div_le_lower_bound; [lia|]; nia). lia. }
  split; [|exact UV]. assert (2 ^ w - 2 <= q) by (apply Z.div_le_lower_bound; [lia|]; nia). lia.
Qed.
End Step.

(** ** Counting *)
(** how many of the [n] integers from [lo] on satisfy [f] *)
Fixpoint count_if (f : Z -> bool) (lo : Z) (n : nat) : Z :=
  match n with O => 0 | S k => (if f lo then 1 else 0) + count_if f (lo + 1) k end.
Lemma count_le : forall f n lo, 0 <= count_if f lo n <= Z.of_nat n.
Proof. intros f n. induction n as [|n IH]; intro lo; cbn [count_if]; [lia|]. specialize (IH (lo + 1)). destruct (f lo); lia. Qed.
Lemma count_app : forall f a b lo, count_if f lo (a + b) = count_if f lo a + count_if f (lo + Z.of_nat a) b.
Proof.
  intros f a. induction a as [|a IH]; intros b lo; cbn [Nat.add count_if]; [rewrite Z.add_0_r; lia|]. rewrite IH. replace (lo + 1 + Z.of_nat a) with (lo + Z.of_nat (S a)) by lia. lia.
Qed.
Lemma count_tail : forall f g n lo, 0 <= g -> (forall z, lo <= z < lo + Z.of_nat n -> f z = true -> lo + Z.of_nat n - g <= z) -> count_if f lo n <= g.
Proof.
  intros f g n. induction n as [|n IH]; intros lo Hg H; cbn [count_if]; [lia|]. destruct (f lo) eqn:E.
  - pose proof (H lo ltac:(lia) E) as L. pose proof (count_le f n (lo + 1)). lia.
  - apply IH; [auto|]. intros z Hz Hf. specialize (H z ltac:(lia) Hf). lia.
Qed.
Lemma count_blocks : forall f D G s k, 0 < D -> 0 <= G ->
  (forall q z, 0 <= q < Z.of_nat k -> q <> s -> q * D <= z < q * D + D -> f z = true -> q * D + D - G <= z) ->
  count_if f 0 (Z.to_nat (D * Z.of_nat k)) <= Z.of_nat k * G + (if s <? Z.of_nat k then D else 0).
Proof.
  intros f D G s k HD HG. induction k as [|k IH]; intro H.
  - cbn. rewrite Z.mul_0_r. cbn. destruct (s <? 0); lia.
  - replace (Z.to_nat (D * Z.of_nat (S k))) with (Z.to_nat (D * Z.of_nat k) + Z.to_nat D)%nat by nia. rewrite count_app.
    assert (IH' := IH ltac:(intros q z Hq; apply H; lia)). rewrite Z2Nat.id by nia. rewrite Z.add_0_l.
    destruct (Z.eq_dec (Z.of_nat k) s) as [E|E].
    + pose proof (count_le f (Z.to_nat D) (D * Z.of_nat k)) as C. destruct (Z.ltb_spec s (Z.of_nat k)); [lia|]. destruct (Z.ltb_spec s (Z.of_nat (S k))); [nia|lia].
    + assert (C : count_if f (D * Z.of_nat k) (Z.to_nat D) <= G).
      { apply count_tail; [auto|]. intros z Hz Hf. rewrite Z2Nat.id in * by lia. specialize (H (Z.of_nat k) z ltac:(lia) E ltac:(lia) Hf). lia. }
      destruct (Z.ltb_spec s (Z.of_nat k)); destruct (Z.ltb_spec s (Z.of_nat (S k))); nia.
Qed.

(** ** C74 *)

(** An overestimated step has a remainder within a [(n-1)]-limb number of the divisor, or
    the same top limb as the divisor and the quotient digit [2^w - 2]. *)
Theorem C74_step : forall w n D S, 1 <= w -> (2 <= n)%nat -> normalised w n D -> 0 <= S < D * 2 ^ w -> step_over w n D S = true ->
  (D - S mod D <= (S / D + 1) * (D mod 2 ^ (w * (Z.of_nat n - 2))) /\ D - S mod D < 2 ^ (w * (Z.of_nat n - 1))) \/
  (S / D = 2 ^ w - 2 /\ S / 2 ^ (w * Z.of_nat n) = D / 2 ^ (w * (Z.of_nat n - 1))).
Proof.
  intros w n D S Hw Hn HD HS HO. destruct (Z.lt_ge_cases (S / 2 ^ (w * Z.of_nat n)) (D / 2 ^ (w * (Z.of_nat n - 1)))) as [L|G].
  - left. pose proof (step_low w D S n Hw Hn HD HS L HO) as A. split; [exact A|].
    destruct (pw w D n Hw Hn HD) as (P1 & P2 & E1 & _ & _ & P). pose proof (q_range w D S n Hw Hn HD HS) as Q. pose proof (Z.mod_pos_bound D _ P2) as M. rewrite E1. nia.
  - right. apply (step_top w D S n); auto.
Qed.
(** Of the [D * 2^w] windows of a step at most [3 * D] are overestimated. *)
Theorem C74_count : forall w n D, 1 <= w -> (2 <= n)%nat -> normalised w n D ->
  count_if (step_over w n D) 0 (Z.to_nat (D * 2 ^ w)) <= 3 * D.
Proof.
  intros w n D Hw Hn HD. destruct (pw w D n Hw Hn HD) as (P1 & P2 & E1 & E2 & E3 & P). destruct HD as (HD1 & HD2).
  pose proof (count_blocks (step_over w n D) D (2 ^ (w * (Z.of_nat n - 1))) (2 ^ w - 2) (Z.to_nat (2 ^ w))) as C. rewrite Z2Nat.id in C by lia.
  assert (C' := C P ltac:(nia)). clear C.
  assert (H : count_if (step_over w n D) 0 (Z.to_nat (D * 2 ^ w)) <= 2 ^ w * 2 ^ (w * (Z.of_nat n - 1)) + (if 2 ^ w - 2 <? 2 ^ w then D else 0)).
  { apply C'. intros q z Hq NE Hz Hf. assert (Eq : z / D = q) by (symmetry; apply Z.div_unique with (z - q * D); [left; lia|lia]).
    assert (Em : z mod D = z - q * D) by (symmetry; apply Z.mod_unique with q; [left; lia|lia]).
    destruct (C74_step w n D z Hw Hn (conj HD1 HD2) ltac:(nia) Hf) as [(_ & A)|(A & _)]; [rewrite Em in A; lia|lia]. }
  destruct (Z.ltb_spec (2 ^ w - 2) (2 ^ w)); [|lia]. lia.
Qed.
(** With only two significant limbs in the scaled divisor the first case is impossible. *)
Theorem C74_two_limbs : forall w n D S, 1 <= w -> (2 <= n)%nat -> normalised w n D -> D mod 2 ^ (w * (Z.of_nat n - 2)) = 0 -> 0 <= S < D * 2 ^ w ->
  step_over w n D S = true -> S / D = 2 ^ w - 2 /\ S / 2 ^ (w * Z.of_nat n) = D / 2 ^ (w * (Z.of_nat n - 1)).
Proof.
  intros w n D S Hw Hn HD H0 HS HO. destruct (C74_step w n D S Hw Hn HD HS HO) as [(A & _)|A]; [|exact A]. exfalso. rewrite H0, Z.mul_0_r in A.
  destruct (pw w D n Hw Hn HD) as (_ & _ & _ & _ & _ & P). pose proof (Z.mod_pos_bound S D P). lia.
Qed.

Lemma scaled_normalised : forall w y, 1 <= w -> 2 ^ w <= y -> let n := Z.to_nat (limbs_of w y) in
  (2 <= n)%nat /\ 0 <= norm_shift w y /\ normalised w n (y * 2 ^ norm_shift w y).
Proof.
  intros w y Hw Hy n. assert (Pw : 0 < 2 ^ w) by (apply pow2_pos; lia). assert (LW : w <= Z.log2 y) by (apply Z.log2_le_pow2; lia).
  pose proof (Z.div_mod (Z.log2 y) w ltac:(lia)) as DM. pose proof (Z.mod_pos_bound (Z.log2 y) w ltac:(lia)) as MB. set (q := Z.log2 y / w) in *.
  assert (q1 : 1 <= q) by nia. assert (Ln : Z.of_nat n = q + 1) by (unfold n, limbs_of; fold q; lia).
  assert (Es : norm_shift w y = w * (q + 1) - 1 - Z.log2 y) by (unfold norm_shift, limbs_of; fold q; lia).
  assert (s0 : 0 <= norm_shift w y) by lia. split; [lia|]. split; [exact s0|]. unfold normalised. rewrite Ln.
  pose proof (Z.log2_spec y ltac:(lia)) as (L & U). pose proof (pow2_pos _ s0) as PS.
  assert (E1 : 2 ^ (w * (q + 1) - 1) = 2 ^ Z.log2 y * 2 ^ norm_shift w y) by (rewrite <- Z.pow_add_r by lia; f_equal; lia).
  assert (E2 : 2 ^ (w * (q + 1)) = 2 ^ Z.succ (Z.log2 y) * 2 ^ norm_shift w y) by (rewrite <- Z.pow_add_r by lia; f_equal; lia).
  rewrite E1, E2. nia.
Qed.
(** The whole division is exact if no step is near: both numbers' windows are given by
    integer arithmetic alone. *)
Definition step_safe (w : Z) (n : nat) (D S : Z) : Prop :=
  ((S / D + 1) * (D mod 2 ^ (w * (Z.of_nat n - 2))) < D - S mod D \/ 2 ^ (w * (Z.of_nat n - 1)) <= D - S mod D) /\
  (S / D <> 2 ^ w - 2 \/ S / 2 ^ (w * Z.of_nat n) <> D / 2 ^ (w * (Z.of_nat n - 1))).
Definition steps_safe (w x y : Z) : Prop :=
  let n := Z.to_nat (limbs_of w y) in let s := norm_shift w y in
  forall j, (j <= Z.to_nat (limbs_of w x) - n)%nat -> step_safe w n (y * 2 ^ s) (window w (x * 2 ^ s) (y * 2 ^ s) j).
Lemma safe_no_correction : forall w x y, 1 <= w -> 2 ^ w <= y -> steps_safe w x y -> has_correction w x y = false.
Proof.
  intros w x y Hw Hy H. destruct (scaled_normalised w y Hw Hy) as (Hn & Hs & HD). unfold steps_safe in H. unfold has_correction. cbv zeta in *.
  destruct (existsb _ _) eqn:E; [exfalso|reflexivity]. apply existsb_exists in E. destruct E as (j & Hj & Ho). apply in_seq in Hj.
  set (n := Z.to_nat (limbs_of w y)) in *. set (D := y * 2 ^ norm_shift w y) in *. specialize (H j ltac:(lia)). unfold overestimated in Ho. set (S := window w (x * 2 ^ norm_shift w y) D j) in *.
  destruct (pw w D n Hw Hn HD) as (P1 & _ & _ & _ & _ & P).
  assert (HS : 0 <= S < D * 2 ^ w) by (apply Z.mod_pos_bound; nia).
  destruct (C74_step w n D S Hw Hn HD HS Ho) as [(A & B)|(A & B)]; destruct H as (H1 & H2); [destruct H1; lia|destruct H2; auto].
Qed.
Theorem C74_exact : forall (c : Cfg) x y, Valid -> wf x -> wf y -> 2 ^ W <= uval y -> steps_safe W (uval x) (uval y) ->
  returns_u2 (wrapping_div_rem false x y) (uval x / uval y) (uval x mod uval y).
Proof.
  intros c x y HV Hx Hy Hb HS. assert (1 <= W) by (destruct (W_cases HV); lia). assert (0 < 2 ^ W) by (apply pow2_pos; lia).
  apply C08_exact_iff_u; auto; [lia|]. right. right. left. apply safe_no_correction; auto.
Qed.
(** The panicking and the wrong results do need an unsafe step. *)
Theorem C74_wrong_needs_unsafe : forall (c : Cfg) x y, Valid -> wf x -> wf y -> uval y <> 0 ->
  ~ returns_u2 (wrapping_div_rem false x y) (uval x / uval y) (uval x mod uval y) -> 2 ^ W <= uval y < uval x /\ ~ steps_safe W (uval x) (uval y).
Proof.
  intros c x y HV Hx Hy H0 HN. assert (G : 2 ^ W <= uval y < uval x).
  { destruct (Z.lt_ge_cases (uval y) (2 ^ W)) as [L|G]; [exfalso; apply HN; apply C08_exact_iff_u; auto; right; left; auto|].
    destruct (Z.le_gt_cases (uval x) (uval y)) as [L|L]; [exfalso; apply HN; apply C08_exact_iff_u; auto; left; auto|]. lia. }
  split; [exact G|]. intro HS. apply HN. apply C74_exact; auto. lia.
Qed.
Example C74_ex1 : count_if (step_over 3 2 35) 0 (Z.to_nat (35 * 2 ^ 3)) = 0 /\ count_if (step_over 3 2 39) 0 (Z.to_nat (39 * 2 ^ 3)) = 17 /\ normalised 3 2 39.
Proof. vm_compute. repeat split; discriminate. Qed.
Example C74_ex2 : steps_safe 64 (2 ^ 255 + 12345) (2 ^ 140 + 2 ^ 70 + 7) /\ 2 ^ 64 <= 2 ^ 140 + 2 ^ 70 + 7 /\ wrapping_div_rem (c := c256_64) false (E64 (2 ^ 255 + 12345)) (E64 (2 ^ 140 + 2 ^ 70 + 7)) =
  Ok (E64 ((2 ^ 255 + 12345) / (2 ^ 140 + 2 ^ 70 + 7)), E64 ((2 ^ 255 + 12345) mod (2 ^ 140 + 2 ^ 70 + 7))).
Proof.
  split; [|split; [vm_compute; discriminate|vm_compute; reflexivity]].
  intros j Hj. change (Z.to_nat (limbs_of 64 (2 ^ 255 + 12345)) - Z.to_nat (limbs_of 64 (2 ^ 140 + 2 ^ 70 + 7)))%nat with 1%nat in Hj.
  assert (C : j = 0%nat \/ j = 1%nat) by lia. destruct C; subst j; split; [right|left|right|left]; vm_compute; discriminate.
Qed.

(** ** Assumptions (each must print "Closed under the global context") *)

Print Assumptions C74_step.
Print Assumptions C74_count.
Print Assumptions C74_two_limbs.
Print Assumptions C74_exact.
Print Assumptions C74_wrong_needs_unsafe.
