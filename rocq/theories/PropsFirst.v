(** * The smallest numerator that goes wrong, for every divisor (C83) *)

Require Import ZArith List Bool Lia.
From Verif Require Import Prim Spec Facts DivSpec MAdd MMul MShift MCore PCore PBits PWide MArith PArith PArith2 PRet MDiv MApi PApi PApi2 PropsDiv PropsRare PropsDivAll PropsBits MScalar PropsScalarAll.
Import ListNotations.
Local Open Scope Z_scope.

(** Scale the divisor so that its top limb has the highest bit set; [d1], [d0] are its two leading
    limbs.  If limbs below these are non-zero, twice the divisor without them goes wrong; if not and
    [d1 < d0], [d1] times a power of the limb does; else nothing does. *)
Definition first_failure (w y : Z) : option Z :=
  let n := limbs_of w y in let s := norm_shift w y in let D := y * 2 ^ s in
  let P := 2 ^ (w * (n - 2)) in let d1 := D / 2 ^ (w * (n - 1)) in let d0 := (D / P) mod 2 ^ w in
  if y <? 2 ^ w then None
  else if negb (D mod P =? 0) then Some (2 * (D / P) * (P / 2 ^ s))
  else if d1 <? d0 then Some (d1 * 2 ^ (w * n - s)) else None.
Definition below (o : option Z) (x : Z) : Prop := match o with Some v => x < v | None => True end.

Lemma est_le : forall D S q r l dP, S = D * q + r -> D = dP + l -> D - r <= (q + 1) * l -> (q + 1) * dP <= S.
Proof. intros. subst. lia. Qed.
Lemma two_le : forall q dP S, (q + 1) * dP <= S -> 1 <= q -> 0 <= dP -> 2 * dP <= S.
Proof. intros q dP S H1 H2 H3. assert (2 * dP <= (q + 1) * dP) by (apply Z.mul_le_mono_nonneg_r; lia). lia. Qed.
Lemma mul_cancel : forall a k p x, 0 < p -> a * (k * p) <= x * p -> a * k <= x.
Proof. intros a k p x Hp H. apply (Z.mul_le_mono_pos_r _ _ p Hp). lia. Qed.
Lemma top_gt : forall B d1 d0 P r, 4 <= B -> 0 < P -> 0 <= d0 < B -> r < (d1 * B + d0) * P -> d1 * (B * (B * P)) <= (d1 * B + d0) * P * (B - 2) + r -> d1 < d0.
Proof.
  intros B d1 d0 P r HB HP H0 Hr H. assert (K : d1 * (B * B) * P < (d1 * B + d0) * (B - 1) * P) by lia.
  apply Z.mul_lt_mono_pos_r in K; auto. nia.
Qed.
Lemma top_lt : forall B d1 d0 P, 4 <= B -> 0 < P -> d1 < d0 < B -> d1 * (B * (B * P)) < (d1 * B + d0) * P * (B - 1).
Proof.
  intros B d1 d0 P HB HP H. assert (K : d1 * (B * B) < (d1 * B + d0) * (B - 1)) by nia. apply (Z.mul_lt_mono_pos_r P) in K; auto. lia.
Qed.
Lemma lead : forall B d1 d0, 4 <= B -> 0 <= d0 < B -> B <= 2 * d1 -> 2 * (d1 * B + d0) < d1 * (B * B).
Proof. intros B d1 d0 HB H0 H1. assert (K1 : 2 * B <= d1 * B) by nia. assert (K2 : d1 * B * 2 <= d1 * B * (B - 2)) by (apply Z.mul_le_mono_nonneg_l; nia). lia. Qed.
Lemma scale_lt : forall a b P l, 0 < P -> 0 <= l < P -> a < b -> a * P + l < b * P.
Proof. intros a b P l HP Hl H. assert ((a + 1) * P <= b * P) by (apply Z.mul_le_mono_nonneg_r; lia). lia. Qed.
Lemma le_mul : forall a k, 0 <= a -> 1 <= k -> a <= a * k.
Proof. intros. nia. Qed.
Lemma pow_split : forall a b, 0 <= b <= a -> 2 ^ (a - b) * 2 ^ b = 2 ^ a.
Proof. intros a b H. rewrite <- Z.pow_add_r by lia. f_equal. lia. Qed.
Lemma pow_div_split : forall a b, 0 <= b <= a -> 2 ^ a = 2 ^ a / 2 ^ b * 2 ^ b.
Proof. intros a b H. rewrite <- (pow_split a b) by auto. rewrite Z.div_mul by (pose proof (pow2_pos b); lia). reflexivity. Qed.
Lemma some_inj : forall a b : Z, Some a = Some b -> b = a.
Proof. congruence. Qed.

Section First.
Variables (w y : Z).
Hypothesis Hw : 2 <= w.
Hypothesis Hy : 2 ^ w <= y.
Let n := Z.to_nat (limbs_of w y).
Let s := norm_shift w y.
Let D := y * 2 ^ s.
Let P := 2 ^ (w * (Z.of_nat n - 2)).
Let B := 2 ^ w.
Let d := D / P.
Let l := D mod P.
Let d1 := d / B.
Let d0 := d mod B.
Lemma first_eq : first_failure w y = (if negb (l =? 0) then Some (2 * d * (P / 2 ^ s)) else if d1 <? d0 then Some (d1 * 2 ^ (w * Z.of_nat n - s)) else None).
Proof.
  assert (w1 : 1 <= w) by lia. destruct (scaled_normalised w y w1 Hy) as (Hn & Hs & HD). fold n in Hn, HD. fold s in Hs, HD. fold D in HD.
  assert (L : limbs_of w y = Z.of_nat n).
  { unfold n. rewrite Z2Nat.id; auto. unfold limbs_of. pose proof (Z.log2_nonneg y). assert (0 <= Z.log2 y / w) by (apply Z.div_pos; lia). lia. }
  unfold first_failure. cbv zeta. rewrite L. destruct (Z.ltb_spec y (2 ^ w)); [lia|]. fold s. fold D. fold P. fold d. fold l. fold B. fold d0.
  replace (D / 2 ^ (w * (Z.of_nat n - 1))) with d1; [reflexivity|]. unfold d1, d. destruct (pw w D n w1 Hn HD) as (P1 & P2 & E1 & _). fold P in E1, P2. fold B in E1, P1.
  rewrite E1, (Z.mul_comm B P). symmetry. rewrite Z.div_div by lia. reflexivity.
Qed.
Record shape : Prop := { sh_n : (2 <= n)%nat; sh_s : 0 <= s < w; sh_B : 4 <= B; sh_P : 0 < P; sh_D : D = (d1 * B + d0) * P + l; sh_d : d = d1 * B + d0;
  sh_l : 0 <= l < P; sh_d0 : 0 <= d0 < B; sh_d1 : B <= 2 * d1 /\ d1 < B; sh_2 : 2 ^ (w * Z.of_nat n) = B * (B * P); sh_1 : 2 ^ (w * (Z.of_nat n - 1)) = B * P;
  sh_top : D / 2 ^ (w * (Z.of_nat n - 1)) = d1; sh_ps : 0 < 2 ^ s; sh_nat : normalised w n D }.
Lemma shaped : shape.
Proof.
  assert (w1 : 1 <= w) by lia. destruct (scaled_normalised w y w1 Hy) as (Hn & Hs & HD). fold n in Hn, HD. fold s in Hs, HD. fold D in HD.
  destruct (pw w D n w1 Hn HD) as (P1 & P2 & E1 & E2 & E3 & PD). fold P in E1, P2. fold B in E1, E2, P1.
  assert (B4 : 4 <= B) by (change 4 with (2 ^ 2); apply Z.pow_le_mono_r; lia).
  assert (SW : s < w).
  { unfold s, norm_shift, limbs_of. pose proof (Z.div_mod (Z.log2 y) w ltac:(lia)). pose proof (Z.mod_pos_bound (Z.log2 y) w ltac:(lia)). lia. }
  assert (ED : D = d * P + l) by (unfold d, l; rewrite (Z.div_mod D P) at 1; lia).
  assert (Ed : d = d1 * B + d0) by (unfold d1, d0; rewrite (Z.div_mod d B) at 1; lia).
  assert (Rl : 0 <= l < P) by (apply Z.mod_pos_bound; lia). assert (R0 : 0 <= d0 < B) by (apply Z.mod_pos_bound; lia).
  pose proof HD as (HD1 & HD2). rewrite E2, E1 in HD2. rewrite E2, E1 in E3.
  assert (R1 : B <= 2 * d1 /\ d1 < B).
  { assert (EB : B = 2 * 2 ^ (w - 1)) by (unfold B; rewrite <- Z.pow_succ_r by lia; f_equal; lia). set (H := 2 ^ (w - 1)) in *. set (HP := 2 ^ (w * Z.of_nat n - 1)) in *.
    rewrite Ed in ED. clearbody d1 d0 l P d s D HP H B. assert (HP = H * (B * P)) by nia. split; [|nia].
    destruct (Z.le_gt_cases H d1); [lia|]. exfalso. assert (d1 * B + d0 + 1 <= H * B) by nia. assert ((d1 * B + d0) * P + l < H * B * P) by nia. nia. }
  constructor; auto; try lia.
  - rewrite E1. unfold d1, d. rewrite Z.div_div by lia. f_equal. lia.
Qed.
(** A step that overestimates needs a numerator at least as large. *)
Lemma first_least : forall x, y < x -> has_correction w x y = true -> exists v, first_failure w y = Some v /\ v <= x.
Proof.
  intros x Hx HC. destruct shaped as [Hn Hs HB HP ED Ed Rl R0 (R1 & R1') E2 E1 ET PS HN]. rewrite first_eq.
  unfold has_correction in HC. cbv zeta in HC. apply existsb_exists in HC. destruct HC as (j & _ & HO). fold n in HO. fold s in HO. fold D in HO. unfold overestimated in HO.
  set (A := x * 2 ^ s) in *. set (S := window w A D j) in *.
  assert (d0P : 0 < d * P) by (apply Z.mul_pos_pos; [rewrite Ed; nia|auto]). assert (PD : 0 < D) by (rewrite ED, <- Ed; lia). assert (PY : 0 < y) by lia.
  assert (EdP : D = d * P + l) by (rewrite ED, <- Ed; reflexivity).
  assert (DB : 0 < D * B) by (apply Z.mul_pos_pos; lia).
  assert (HS : 0 <= S < D * 2 ^ w) by (apply Z.mod_pos_bound; exact DB).
  assert (PJ : 1 <= 2 ^ (w * Z.of_nat j)) by (pose proof (pow2_pos (w * Z.of_nat j) ltac:(lia)); lia).
  assert (A0 : 0 <= A) by (apply Z.mul_nonneg_nonneg; lia).
  assert (SA : S * 2 ^ (w * Z.of_nat j) <= A).
  { assert (M : S <= A / 2 ^ (w * Z.of_nat j)) by (apply Z.mod_le; [apply Z.div_pos; lia|exact DB]).
    pose proof (Z.mul_div_le A (2 ^ (w * Z.of_nat j)) ltac:(lia)). apply (Z.mul_le_mono_nonneg_r _ _ (2 ^ (w * Z.of_nat j))) in M; lia. }
  assert (SA' : S <= A) by (apply Z.le_trans with (S * 2 ^ (w * Z.of_nat j)); auto; rewrite <- (Z.mul_1_r S) at 1; apply Z.mul_le_mono_nonneg_l; lia).
  assert (EP : l <> 0 -> P = P / 2 ^ s * 2 ^ s).
  { intro l0. assert (3 <= Z.of_nat n) by (destruct (Z.eq_dec (Z.of_nat n) 2) as [e|]; [exfalso; apply l0; unfold l, P; rewrite e; replace (w * (2 - 2)) with 0 by lia; apply Z.mod_1_r|lia]).
    apply pow_div_split. pose proof (le_mul w (Z.of_nat n - 2)). lia. }
  destruct (Z.lt_ge_cases (S / 2 ^ (w * Z.of_nat n)) (D / 2 ^ (w * (Z.of_nat n - 1)))) as [L|G].
  - assert (Q := step_low w D S n ltac:(lia) Hn HN HS L HO). fold P in Q. fold l in Q.
    pose proof (Z.mod_pos_bound S D PD) as MB.
    assert (l0 : l <> 0) by (intro Z0; rewrite Z0, Z.mul_0_r in Q; lia). specialize (EP l0).
    destruct (Z.eqb_spec l 0); [contradiction|]. cbn [negb]. eexists. split; [reflexivity|].
    assert (K : 2 * (d * P) <= A).
    { pose proof (Z.div_mod S D ltac:(lia)) as DM. pose proof (Z.div_pos S D ltac:(lia) PD) as Q0.
      assert (QQ := est_le D S (S / D) (S mod D) l (d * P) DM EdP Q).
      destruct (Z.eq_dec (S / D) 0) as [e|N0]; [|apply Z.le_trans with S; auto; apply (two_le (S / D)); auto; lia].
      rewrite e in QQ. assert (dS : d * P <= S) by lia.
      destruct (Nat.eq_dec j 0) as [j0|j0].
      - destruct (Z.lt_ge_cases A (D * B)) as [LA|GA].
        + exfalso. assert (ES : S = A) by (unfold S, window; rewrite j0; cbn [Z.of_nat]; rewrite Z.mul_0_r, Z.pow_0_r, Z.div_1_r; apply Z.mod_small; fold B; lia).
          assert (D < A) by (unfold A, D; apply Z.mul_lt_mono_pos_r; auto). rewrite e in DM. lia.
        + assert (D * 2 <= D * B) by (apply Z.mul_le_mono_nonneg_l; lia). lia.
      - assert (B <= 2 ^ (w * Z.of_nat j)) by (unfold B; apply Z.pow_le_mono_r; [lia|apply le_mul; lia]).
        assert (S * 2 <= S * 2 ^ (w * Z.of_nat j)) by (apply Z.mul_le_mono_nonneg_l; lia). lia. }
    apply (mul_cancel _ _ (2 ^ s)); auto. rewrite <- EP. fold A. lia.
  - destruct (step_top w D S n ltac:(lia) Hn HN HS G HO) as (Q1 & Q2). rewrite ET in Q2. rewrite E2 in Q2.
    assert (BB : 0 < B * (B * P)) by (apply Z.mul_pos_pos; [lia|apply Z.mul_pos_pos; lia]).
    assert (SL : d1 * (B * (B * P)) <= S) by (rewrite <- Q2, Z.mul_comm; apply Z.mul_div_le; auto).
    assert (E3 : 2 ^ (w * Z.of_nat n - s) * 2 ^ s = B * (B * P)) by (rewrite <- E2; apply pow_split; pose proof (le_mul w (Z.of_nat n)); lia).
    destruct (Z.eqb_spec l 0) as [l0|l0]; cbn [negb].
    + fold B in Q1. pose proof (Z.div_mod S D ltac:(lia)) as DM. pose proof (Z.mod_pos_bound S D PD) as MB. rewrite Q1 in DM.
      assert (d1 < d0).
      { rewrite l0, Z.add_0_r in ED. apply (top_gt B d1 d0 P (S mod D)); auto; rewrite <- ED; lia. }
      destruct (Z.ltb_spec d1 d0); [|lia]. eexists. split; [reflexivity|]. apply (mul_cancel _ _ (2 ^ s)); auto. rewrite E3. fold A. lia.
    + eexists. split; [reflexivity|]. apply (mul_cancel _ _ (2 ^ s)); auto. rewrite <- EP by auto. fold A.
      apply Z.le_trans with (d1 * (B * (B * P))); [|lia]. rewrite Ed. pose proof (lead B d1 d0 HB R0 R1) as LD.
      replace (d1 * (B * (B * P))) with (d1 * (B * B) * P) by lia. apply Z.mul_le_mono_nonneg_r; lia.
Qed.
(** At that numerator the lowest step overestimates. *)
Lemma first_wrong : forall v, first_failure w y = Some v -> y < v /\ overestimated w n (v * 2 ^ s) D 0 = true.
Proof.
  intros v. destruct shaped as [Hn Hs HB HP ED Ed Rl R0 (R1 & R1') E2 E1 ET PS HN]. rewrite first_eq.
  assert (dp : 2 <= d) by (rewrite Ed; nia).
  assert (d0P : 0 < d * P) by (apply Z.mul_pos_pos; lia). assert (EdP : D = d * P + l) by (rewrite ED, <- Ed; reflexivity). assert (PD : 0 < D) by lia.
  assert (DB : D * 4 <= D * B) by (apply Z.mul_le_mono_nonneg_l; lia). assert (lP : l < d * P) by (assert (1 * P <= d * P) by (apply Z.mul_le_mono_nonneg_r; lia); lia).
  assert (LD := lead B d1 d0 HB R0 R1). rewrite <- Ed in LD.
  assert (BB : 0 < B * (B * P)) by (apply Z.mul_pos_pos; [lia|apply Z.mul_pos_pos; lia]).
  assert (TT : 2 * d * P < d1 * (B * (B * P))) by (replace (d1 * (B * (B * P))) with (d1 * (B * B) * P) by lia; apply Z.mul_lt_mono_pos_r; auto).
  unfold overestimated, window. cbn [Z.of_nat]. rewrite Z.mul_0_r, Z.pow_0_r, Z.div_1_r. unfold digit_estimate. cbv zeta. rewrite ET. fold B. fold P. fold d.
  destruct (Z.eqb_spec l 0) as [l0|l0]; cbn [negb].
  - destruct (Z.ltb_spec d1 d0) as [L|]; [|discriminate]. intro E. apply some_inj in E. rewrite E.
    assert (E3 : 2 ^ (w * Z.of_nat n - s) * 2 ^ s = B * (B * P)) by (rewrite <- E2; apply pow_split; pose proof (le_mul w (Z.of_nat n)); lia).
    assert (EV : d1 * 2 ^ (w * Z.of_nat n - s) * 2 ^ s = d1 * (B * (B * P))) by (rewrite <- Z.mul_assoc, E3; reflexivity). rewrite EV. assert (TL := top_lt B d1 d0 P HB HP ltac:(lia)). rewrite l0, Z.add_0_r in ED. rewrite <- ED in TL. split.
    + apply (Z.mul_lt_mono_pos_r (2 ^ s)); auto. rewrite EV. fold D. lia.
    + rewrite Z.mod_small by lia. rewrite E2, Z.div_mul by lia. destruct (Z.ltb_spec d1 d1); [lia|]. apply Z.ltb_lt. apply Z.div_lt_upper_bound; auto.
  - intro E. apply some_inj in E. rewrite E.
    assert (EP : P = P / 2 ^ s * 2 ^ s).
    { assert (3 <= Z.of_nat n) by (destruct (Z.eq_dec (Z.of_nat n) 2) as [e|]; [exfalso; apply l0; unfold l, P; rewrite e; replace (w * (2 - 2)) with 0 by lia; apply Z.mod_1_r|lia]).
      apply pow_div_split. pose proof (le_mul w (Z.of_nat n - 2)). lia. }
    assert (EV : 2 * d * (P / 2 ^ s) * 2 ^ s = 2 * d * P) by (rewrite <- Z.mul_assoc, <- EP; reflexivity). rewrite EV. split.
    + apply (Z.mul_lt_mono_pos_r (2 ^ s)); auto. rewrite EV. fold D. lia.
    + rewrite Z.mod_small by lia. assert (T : 2 * d * P / 2 ^ (w * Z.of_nat n) < d1) by (apply Z.div_lt_upper_bound; rewrite E2; lia).
      destruct (Z.ltb_spec (2 * d * P / 2 ^ (w * Z.of_nat n)) d1); [|lia]. rewrite Z.div_mul by lia. apply Z.ltb_lt.
      rewrite (Z.div_mul 2 d) by lia. apply Z.div_lt_upper_bound; lia.
Qed.
End First.

(** ** The divisor decides *)

Lemma short_divisor : forall w a k, 2 <= w -> 0 < a < 2 ^ w -> 0 <= k -> first_failure w (a * 2 ^ k) = None.
Proof.
  intros w a k Hw Ha Hk. set (y := a * 2 ^ k). destruct (Z.lt_ge_cases y (2 ^ w)) as [L|G].
  { unfold first_failure. cbv zeta. destruct (Z.ltb_spec y (2 ^ w)); [reflexivity|lia]. }
  rewrite (first_eq w y Hw G). destruct (shaped w y Hw G) as [Hn Hs HB HP ED Ed Rl R0 (R1 & R1') E2 E1 ET PS HN].
  set (n := Z.to_nat (limbs_of w y)) in *. set (s := norm_shift w y) in *. set (D := y * 2 ^ s) in *. set (P := 2 ^ (w * (Z.of_nat n - 2))) in *.
  assert (EDk : D = a * 2 ^ (k + s)) by (unfold D, y; rewrite Z.pow_add_r by lia; ring).
  assert (K : w * (Z.of_nat n - 1) <= k + s).
  { destruct HN as (H1 & _). assert (H : 2 ^ (w * Z.of_nat n - 1) < 2 ^ (w + (k + s))).
    { apply Z.le_lt_trans with D; auto. rewrite EDk, (Z.pow_add_r 2 w (k + s)) by lia. apply Z.mul_lt_mono_pos_r; [apply pow2_pos; lia|lia]. }
    apply Z.pow_lt_mono_r_iff in H; lia. }
  assert (EB : D = a * 2 ^ (k + s - w * (Z.of_nat n - 1)) * 2 ^ w * P).
  { assert (0 <= w * (Z.of_nat n - 1)) by (apply Z.mul_nonneg_nonneg; lia). rewrite EDk. rewrite <- !Z.mul_assoc. rewrite <- E1. f_equal. rewrite <- Z.pow_add_r by lia. f_equal. lia. }
  assert (l0 : D mod P = 0) by (rewrite EB; apply Z.mod_mul; lia). rewrite l0. cbn [negb Z.eqb].
  assert (d0 : (D / P) mod 2 ^ w = 0) by (rewrite EB, Z.div_mul by lia; apply Z.mod_mul; lia). rewrite d0.
  destruct (Z.ltb_spec (D / P / 2 ^ w) 0); auto. lia.
Qed.

Section F.
Context {c : Cfg}.
Hypothesis HV : Valid.
Lemma W2 : 2 <= W. Proof. destruct (W_cases HV); lia. Qed.
Lemma below_exact : forall x y, below (first_failure W (Z.abs y)) (Z.abs x) -> exact x y.
Proof.
  intros x y H. unfold exact, exact_division. destruct (Z.le_gt_cases (Z.abs x) (Z.abs y)) as [|L]; auto. right.
  destruct (Z.lt_ge_cases (Z.abs y) (2 ^ W)) as [|G]; auto. right. left.
  destruct (has_correction W (Z.abs x) (Z.abs y)) eqn:E; auto. exfalso.
  destruct (first_least W (Z.abs y) W2 G (Z.abs x) L E) as (v & Ev & Hv). rewrite Ev in H. cbn in H. lia.
Qed.
Lemma stray_pos : forall w M x y, (0 < M)%nat -> 2 <= w -> 2 ^ w <= y -> y < 2 ^ (w * (Z.of_nat M - 1)) ->
  overestimated w (Z.to_nat (limbs_of w y)) (x * 2 ^ norm_shift w y) (y * 2 ^ norm_shift w y) 0 = true -> 0 < stray w M x y.
Proof.
  intros w M x y HM Hw Hy Hu HO. destruct (shaped w y Hw Hy) as [Hn Hs HB HP _ _ _ _ _ _ _ _ PS HN]. unfold stray. cbv zeta. set (n := Z.to_nat (limbs_of w y)) in *.
  rewrite Nat.add_1_r. cbn [seq fold_right]. rewrite HO. set (s := norm_shift w y) in *.
  assert (nM : (n < M)%nat).
  { assert (H : 2 ^ (w * Z.of_nat n - 1) < 2 ^ (w * (Z.of_nat M - 1) + s)).
    { apply Z.le_lt_trans with (y * 2 ^ s); [apply HN|]. rewrite Z.pow_add_r by nia. apply Z.mul_lt_mono_pos_r; auto. }
    assert (0 <= w * (Z.of_nat M - 1) + s) by nia. apply Z.pow_lt_mono_r_iff in H; [|lia|lia]. nia. }
  destruct (Nat.ltb_spec (0 + n) M); [|lia]. cbn [andb].
  assert (0 < 2 ^ (w * Z.of_nat (0 + n) - s)) by (apply pow2_pos; nia).
  assert (G : forall l, 0 <= fold_right (fun j acc => (if overestimated w n (x * 2 ^ s) (y * 2 ^ s) j && (j + n <? M)%nat then 2 ^ (w * Z.of_nat (j + n) - s) else 0) + acc) 0 l).
  { induction l as [|j l IH]; cbn [fold_right]; [lia|]. destruct (_ && _); [|lia]. assert (0 < 2 ^ (w * Z.of_nat (j + n) - s)) by (apply pow2_pos; nia). lia. }
  specialize (G (seq 1 (Z.to_nat (limbs_of w x) - n))). lia.
Qed.
Lemma at_wrong : forall x y, first_failure W (Z.abs y) = Some (Z.abs x) -> ~ exact x y.
Proof.
  intros x y H. destruct (Z.lt_ge_cases (Z.abs y) (2 ^ W)) as [L|G].
  { unfold first_failure in H. cbv zeta in H. destruct (Z.ltb_spec (Z.abs y) (2 ^ W)); [discriminate|lia]. }
  destruct (first_wrong W (Z.abs y) W2 G _ H) as (L & HO).
  assert (HC : has_correction W (Z.abs x) (Z.abs y) = true).
  { unfold has_correction. cbv zeta. apply existsb_exists. exists 0%nat. split; [apply in_seq; lia|exact HO]. }
  assert (N0 : (0 < N)%nat) by (pose proof (N_ge4 HV); lia).
  intros [E|[E|[E|(E & F)]]]; [lia|lia|congruence|]. pose proof (stray_pos W N (Z.abs x) (Z.abs y) N0 W2 G E HO). lia.
Qed.
End F.

(** ** C83 *)

(** For every limb width and divisor: [first_failure] is the smallest numerator whose division overestimates a digit. *)
Theorem C83_first : forall w y, 2 <= w -> 2 ^ w <= y ->
  match first_failure w y with
  | Some v => y < v /\ has_correction w v y = true /\ forall x, y < x < v -> has_correction w x y = false
  | None => forall x, y < x -> has_correction w x y = false
  end.
Proof.
  intros w y Hw Hy. pose proof (first_least w y Hw Hy) as L. destruct (first_failure w y) as [v|] eqn:E.
  - destruct (first_wrong w y Hw Hy v E) as (H1 & H2). split; auto. split.
    + unfold has_correction. cbv zeta. apply existsb_exists. exists 0%nat. split; [apply in_seq; lia|exact H2].
    + intros x Hx. destruct (has_correction w x y) eqn:F; auto. destruct (L x ltac:(lia) F) as (v' & Ev & Hv). injection Ev as <-. lia.
  - intros x Hx. destruct (has_correction w x y) eqn:F; auto. destruct (L x ltac:(lia) F) as (v' & Ev & Hv). discriminate.
Qed.
(** Below it every division form is right; … *)
Definition all_right {c : Cfg} (sg : bool) (x y : list Z) : Prop := forall f,
  right sg (quotient f sg x y) (Z.quot (num sg x) (num sg y)) /\ right sg (remainder f sg x y) (Z.rem (num sg x) (num sg y)) /\
  right sg (euclid_quotient f sg x y) (Z.sgn (num sg y) * (num sg x / Z.abs (num sg y))) /\ right sg (euclid_remainder f sg x y) (num sg x mod Z.abs (num sg y)).
Lemma exact_all : forall (c : Cfg) sg x y, Valid -> wf x -> wf y -> divisible sg (num sg x) (num sg y) -> exact (num sg x) (num sg y) -> all_right sg x y.
Proof.
  intros c sg x y HV Hx Hy D E f. destruct (C76_remainder c f sg x y HV Hx Hy D) as (R1 & R2 & _). assert (R := proj2 R1 E).
  assert (NF : ~ division_fails (num sg x) (num sg y)) by (intro F; rewrite (R2 F) in R; destruct R as (r & R & _); discriminate).
  split; [apply (C76_quotient c f sg x y HV Hx Hy D); auto|]. split; auto. split; [apply (C76_euclid_quotient c f sg x y HV Hx Hy D); auto|apply (C76_euclid_remainder c f sg x y HV Hx Hy D); auto].
Qed.
Theorem C83_below : forall (c : Cfg) sg x y, Valid -> wf x -> wf y -> divisible sg (num sg x) (num sg y) ->
  below (first_failure W (Z.abs (num sg y))) (Z.abs (num sg x)) -> all_right sg x y.
Proof. intros c sg x y HV Hx Hy D B. apply exact_all; auto. apply (below_exact HV); auto. Qed.
(** … at it the remainder is wrong or missing. *)
Theorem C83_at : forall (c : Cfg) f sg x y, Valid -> wf x -> wf y -> divisible sg (num sg x) (num sg y) ->
  first_failure W (Z.abs (num sg y)) = Some (Z.abs (num sg x)) ->
  ~ right sg (remainder f sg x y) (Z.rem (num sg x) (num sg y)) /\ ~ right sg (euclid_remainder f sg x y) (num sg x mod Z.abs (num sg y)).
Proof.
  intros c f sg x y HV Hx Hy D E. assert (NE := at_wrong HV _ _ E). split; intro R; apply NE.
  - apply (C76_remainder c f sg x y HV Hx Hy D); auto.
  - apply (C76_euclid_remainder c f sg x y HV Hx Hy D); auto.
Qed.
(** So the divisors that never go wrong are known. *)
Definition largest {c : Cfg} (sg : bool) : Z := if sg then 2 ^ (BITS - 1) else 2 ^ BITS - 1.
Theorem C83_always : forall (c : Cfg) f sg y, Valid -> wf y -> num sg y <> 0 ->
  ((forall x, wf x -> divisible sg (num sg x) (num sg y) -> right sg (remainder f sg x y) (Z.rem (num sg x) (num sg y))) <->
   below (first_failure W (Z.abs (num sg y))) (largest sg)).
Proof.
  intros c f sg y HV Hy H0. split.
  - intro H. destruct (first_failure W (Z.abs (num sg y))) as [v|] eqn:E; [|exact I]. cbn. destruct (Z.lt_ge_cases (largest sg) v) as [|G]; auto. exfalso.
    assert (Y : Z.abs (num sg y) < v).
    { destruct (Z.lt_ge_cases (Z.abs (num sg y)) (2 ^ W)) as [L|G']; [|apply (first_wrong W _ (W2 HV) G' v E)].
      unfold first_failure in E. cbv zeta in E. destruct (Z.ltb_spec (Z.abs (num sg y)) (2 ^ W)); [discriminate|lia]. }
    assert (V2 : 2 ^ W <= Z.abs (num sg y)).
    { destruct (Z.lt_ge_cases (Z.abs (num sg y)) (2 ^ W)) as [L|G']; auto. unfold first_failure in E. cbv zeta in E. destruct (Z.ltb_spec (Z.abs (num sg y)) (2 ^ W)); [discriminate|lia]. }
    assert (W4 : 4 <= 2 ^ W) by (change 4 with (2 ^ 2); apply Z.pow_le_mono_r; pose proof (W2 HV); lia).
    pose proof (pBh HV) as PH. set (x := ofZ (if sg then - v else v)). assert (Hx : wf x) by apply (wf_ofZ HV).
    assert (Vx : num sg x = if sg then - v else v).
    { unfold x, num. destruct sg; [apply (val_ofZ_small HV true)|apply (val_ofZ_small HV false)]; cbn; unfold fits_s, fits_u, largest in *; lia. }
    assert (D : divisible sg (num sg x) (num sg y)) by (split; auto; intros (_ & _ & M); lia).
    assert (A : Z.abs (num sg x) = v) by (rewrite Vx; destruct sg; lia).
    destruct (C83_at c f sg x y HV Hx Hy D) as (N & _); [rewrite A; auto|]. apply N. auto.
  - intros B x Hx D. apply (C83_below c sg x y HV Hx Hy D). destruct (first_failure W (Z.abs (num sg y))) as [v|]; [|exact I]. cbn in *.
    assert (Z.abs (num sg x) <= largest sg); [|lia]. pose proof (pBh HV). destruct sg; cbn [num largest].
    + pose proof (sval_range HV x Hx). lia.
    + pose proof (uval_range HV x Hx). lia.
Qed.
(** Among them: every divisor of at most one limb times a power of two, so the powers of ten with [5^k < 2^W]. *)
Theorem C83_short : forall (c : Cfg) sg x y a k, Valid -> wf x -> wf y -> divisible sg (num sg x) (num sg y) ->
  Z.abs (num sg y) = a * 2 ^ k -> 0 < a < 2 ^ W -> 0 <= k -> all_right sg x y.
Proof.
  intros c sg x y a k HV Hx Hy D E Ha Hk. apply C83_below; auto. rewrite E, (short_divisor W a k) by (auto; apply (W2 HV)). exact I.
Qed.
Theorem C83_ten : forall (c : Cfg) sg x y k, Valid -> wf x -> wf y -> divisible sg (num sg x) (num sg y) ->
  Z.abs (num sg y) = 10 ^ k -> 0 <= k -> 5 ^ k < 2 ^ W -> all_right sg x y.
Proof.
  intros c sg x y k HV Hx Hy D E Hk H5. apply (C83_short c sg x y (5 ^ k) k); auto.
  - rewrite E. change 10 with (5 * 2). apply Z.pow_mul_l.
  - split; auto. apply Z.pow_pos_nonneg; lia.
Qed.
(** Scalars wider than a limb behave in the same way. *)
Lemma no_stray : forall w M x y, has_correction w x y = false -> stray w M x y = 0.
Proof.
  intros w M x y H. unfold has_correction, stray in *. cbv zeta in *. induction (seq 0 (Z.to_nat (limbs_of w x) - Z.to_nat (limbs_of w y) + 1)) as [|j l IH]; [reflexivity|].
  cbn [existsb fold_right] in *. apply orb_false_iff in H. destruct H as (H1 & H2). rewrite H1. cbn [andb]. rewrite IH; auto.
Qed.
Theorem C83_scalar : forall (c : Cfg) f k x n, Valid -> wf x -> fits_u (kbits k) n -> n <> 0 -> below (first_failure W n) (uval x) ->
  right false (quot_of (div_us f k false x n)) (uval x / n) /\ rem_of (div_us f k false x n) = Ok (uval x mod n).
Proof.
  intros c f k x n HV Hx Hn H0 B. pose proof (uval_range HV x Hx) as Rx. assert (Pn : 0 < n) by (destruct Hn; lia).
  assert (SR : scalar_right k (uval x) n).
  { unfold scalar_right, exact_scalar. rewrite (Z.abs_eq (uval x)), (Z.abs_eq n) by lia. destruct (Z.le_gt_cases (kbits k) W) as [|K]; auto. right. right.
    destruct (Z.lt_ge_cases n (2 ^ W)) as [|G]; auto. right. destruct (Z.le_gt_cases (uval x) n) as [|L]; auto. right.
    assert (HC : has_correction W (uval x) n = false).
    { destruct (has_correction W (uval x) n) eqn:E; auto. destruct (first_least W n (W2 HV) G (uval x) L E) as (v & Ev & Hv). rewrite Ev in B. cbn in B. lia. }
    destruct (Z.le_gt_cases (kbits k) (2 * W)); [left; auto|]. right. rewrite no_stray by auto. split; auto. }
  destruct (C78_unsigned c f k x n HV Hx Hn H0) as (F & Q & R & _). assert (RR := proj2 R SR). split; auto. apply Q. intro FF. rewrite (F FF) in RR. discriminate.
Qed.
(** Dividing by a power of two is shifting and masking. *)
Lemma right_eq : forall (c : Cfg) sg m v, Valid -> right sg m v -> m = Ok (ofZ v).
Proof. intros c sg m v HV (r & -> & Hr & <-). f_equal. symmetry. exact (ofZ_val HV sg r Hr). Qed.
Theorem C83_power_of_two_unsigned : forall (c : Cfg) f x k, Valid -> wf x -> 0 <= k < BITS ->
  quotient f false x (ofZ (2 ^ k)) = wrapping_shr false x k /\ remainder f false x (ofZ (2 ^ k)) = bitand_const x (ofZ (2 ^ k - 1)).
Proof.
  intros c f x k HV Hx Hk. pose proof (uval_range HV x Hx) as Rx. assert (Pk : 0 < 2 ^ k) by (apply pow2_pos; lia).
  assert (PB : 2 ^ k < 2 ^ BITS) by (apply Z.pow_lt_mono_r; lia).
  assert (Ey : uval (ofZ (2 ^ k)) = 2 ^ k) by (apply (val_ofZ_small HV false); split; lia).
  assert (Em : uval (ofZ (2 ^ k - 1)) = 2 ^ k - 1) by (apply (val_ofZ_small HV false); split; lia).
  destruct (C83_short c false x (ofZ (2 ^ k)) 1 k HV Hx (wf_ofZ HV _)) with (f := f) as (Q & R & _).
  - split; [cbn [num]; lia|intros (M & _); discriminate].
  - cbn [num]. lia.
  - split; [lia|]. apply Z.lt_le_trans with (2 ^ 1); [lia|]. apply Z.pow_le_mono_r; pose proof (W2 HV); lia.
  - lia.
  - cbn [num] in *. rewrite Ey in *. apply (right_eq c _ _ _ HV) in Q. apply (right_eq c _ _ _ HV) in R. rewrite Q, R. rewrite Z.quot_div_nonneg, Z.rem_mod_nonneg by lia. split.
    + rewrite (wrapping_shr_ok HV) by auto. cbn [val]. rewrite Z.mod_small by lia. reflexivity.
    + rewrite (bitand_ok HV) by (auto; apply (wf_ofZ HV)). rewrite Em. do 2 f_equal. replace (2 ^ k - 1) with (Z.ones k) by (rewrite Z.ones_equiv; lia). rewrite Z.land_ones by lia. reflexivity.
Qed.
Theorem C83_power_of_two_signed : forall (c : Cfg) f x k, Valid -> wf x -> 0 <= k < BITS - 1 ->
  euclid_quotient f true x (ofZ (2 ^ k)) = wrapping_shr true x k /\ s_div_floor x (ofZ (2 ^ k)) = wrapping_shr true x k /\
  euclid_remainder f true x (ofZ (2 ^ k)) = bitand_const x (ofZ (2 ^ k - 1)).
Proof.
  intros c f x k HV Hx Hk. pose proof (sval_range HV x Hx) as Rx. assert (Pk : 0 < 2 ^ k) by (apply pow2_pos; lia).
  assert (PB : 2 ^ k < 2 ^ (BITS - 1)) by (apply Z.pow_lt_mono_r; lia). pose proof (pBh HV) as PH. pose proof (pBhalf HV) as PH2.
  assert (Ey : sval (ofZ (2 ^ k)) = 2 ^ k) by (apply (val_ofZ_small HV true); cbn; unfold fits_s; lia).
  assert (Em : uval (ofZ (2 ^ k - 1)) = 2 ^ k - 1) by (apply (val_ofZ_small HV false); split; lia).
  assert (W1 : 1 < 2 ^ W) by (apply Z.lt_le_trans with (2 ^ 1); [lia|]; apply Z.pow_le_mono_r; pose proof (W2 HV); lia).
  assert (D : divisible true (num true x) (num true (ofZ (2 ^ k)))) by (split; cbn [num]; [lia|intros (_ & _ & M); lia]).
  assert (EX : exact (num true x) (num true (ofZ (2 ^ k)))).
  { apply (below_exact HV). cbn [num]. rewrite Ey. replace (Z.abs (2 ^ k)) with (1 * 2 ^ k) by lia. rewrite (short_divisor W 1 k) by (try apply (W2 HV); lia). exact I. }
  destruct (exact_all c true x (ofZ (2 ^ k)) HV Hx (wf_ofZ HV _) D EX f) as (_ & R0 & Q & R).
  assert (NF : ~ division_fails (num true x) (num true (ofZ (2 ^ k)))).
  { intro F. destruct (C76_remainder c f true x (ofZ (2 ^ k)) HV Hx (wf_ofZ HV _) D) as (_ & R2 & _). rewrite (R2 F) in R0. destruct R0 as (r & R0 & _). discriminate. }
  assert (FL := proj2 (C76_floor c true x (ofZ (2 ^ k)) HV Hx (wf_ofZ HV _) D) (conj NF (or_introl EX))).
  cbn [num] in *. rewrite Ey in *. apply (right_eq c _ _ _ HV) in Q. apply (right_eq c _ _ _ HV) in R. apply (right_eq c _ _ _ HV) in FL. rewrite Q, R, FL.
  rewrite (Z.abs_eq (2 ^ k)), (Z.sgn_pos (2 ^ k)), Z.mul_1_l by lia.
  assert (SH : wrapping_shr true x k = Ok (ofZ (sval x / 2 ^ k))) by (rewrite (wrapping_shr_ok HV) by auto; cbn [val]; rewrite Z.mod_small by lia; reflexivity).
  rewrite SH. split; [reflexivity|]. split; [reflexivity|].
  rewrite (bitand_ok HV) by (auto; apply (wf_ofZ HV)). rewrite Em. do 2 f_equal. replace (2 ^ k - 1) with (Z.ones k) by (rewrite Z.ones_equiv; lia). rewrite Z.land_ones by lia.
  destruct (sval_cong HV x Hx) as (q & ->). replace BITS with (BITS - k + k) by lia. rewrite Z.pow_add_r by lia. rewrite Z.mul_assoc. apply Z.mod_add. lia.
Qed.
(** A multiple of a power of two is a value with that many trailing zeros. *)
Theorem C83_multiple_of_two : forall (c : Cfg) x k, Valid -> wf x -> 0 <= k < BITS ->
  exists t, trailing_zeros x = Ok t /\ u_is_multiple_of x (ofZ (2 ^ k)) = Ok ((k <=? t) || (uval x =? 0)).
Proof.
  intros c x k HV Hx Hk. pose proof (uval_range HV x Hx) as Rx. assert (Pk : 0 < 2 ^ k) by (apply pow2_pos; lia).
  assert (PB : 2 ^ k < 2 ^ BITS) by (apply Z.pow_lt_mono_r; lia).
  assert (Ey : uval (ofZ (2 ^ k)) = 2 ^ k) by (apply (val_ofZ_small HV false); split; lia).
  assert (W1 : 1 < 2 ^ W) by (apply Z.lt_le_trans with (2 ^ 1); [lia|]; apply Z.pow_le_mono_r; pose proof (W2 HV); lia).
  assert (EX : exact (uval x) (uval (ofZ (2 ^ k)))).
  { apply (below_exact HV). rewrite Ey. replace (Z.abs (2 ^ k)) with (1 * 2 ^ k) by lia. rewrite (short_divisor W 1 k) by (try apply (W2 HV); lia). exact I. }
  assert (D : divisible false (num false x) (num false (ofZ (2 ^ k)))) by (split; cbn [num]; [lia|intros (M & _); discriminate]).
  destruct (C76_remainder c Wrapping false x (ofZ (2 ^ k)) HV Hx (wf_ofZ HV _) D) as (R1 & R2 & _). assert (R := proj2 R1 EX).
  assert (NF : ~ division_fails (uval x) (uval (ofZ (2 ^ k)))) by (intro F; rewrite (R2 F) in R; destruct R as (r & R & _); discriminate).
  rewrite (proj2 (C76_is_multiple_of c x (ofZ (2 ^ k)) HV Hx (wf_ofZ HV _) ltac:(lia)) (conj NF (or_introl EX))).
  destruct (C18_trailing_zeros c x HV Hx) as (t & E & R3 & R4 & R5). exists t. split; auto. rewrite Ey. f_equal.
  destruct (Z.eqb_spec (uval x) 0) as [->|N0]; [rewrite orb_true_r, Z.mod_0_l by lia; reflexivity|]. rewrite orb_false_r.
  destruct (Z.leb_spec k t) as [L|G].
  - apply Z.eqb_eq. apply Z.bits_inj'. intros i Hi. rewrite Z.bits_0. destruct (Z.lt_ge_cases i k); [rewrite Z.mod_pow2_bits_low by lia; apply R4; lia|apply Z.mod_pow2_bits_high; lia].
  - apply Z.eqb_neq. intro Z0. assert (T : Z.testbit (uval x mod 2 ^ k) t = true) by (rewrite Z.mod_pow2_bits_low by lia; apply R5; lia). rewrite Z0, Z.bits_0 in T. discriminate.
Qed.

Example C83_ex1 : first_failure 64 (2 ^ 192 + 1) = Some (2 ^ 193) /\
  map (fun k => first_failure 64 (10 ^ k)) [27; 28; 29; 30; 31; 32] = [None; None; None; None; None; Some 1844674407370955161447802699810098207482802071404544] /\
  (let v := 1844674407370955161447802699810098207482802071404544 in
   map (fun x => remainder (c := c256_64) Operator false (E64 x) (E64 (10 ^ 32))) [v - 1; v; v + 1] =
   [Ok (E64 ((v - 1) mod 10 ^ 32)); Ok (E64 (v mod 10 ^ 32 + 2 ^ 107)); Ok (E64 ((v + 1) mod 10 ^ 32 + 2 ^ 107))]).
Proof. vm_compute. auto. Qed.
Example C83_ex2 : 5 ^ 27 < 2 ^ 64 /\ 5 ^ 13 < 2 ^ 32 /\ first_failure 64 (3 * 2 ^ 200) = None /\ largest (c := c256_64) true = 2 ^ 255 /\ divisible (c := c256_64) true (-7) (10 ^ 20) /\ remainder (c := c256_64) Strict false (E64 (2 ^ 193)) (E64 (2 ^ 192 + 1)) = Panic /\ quotient (c := c256_64) Checked true (E64 (- 10 ^ 70)) (E64 (10 ^ 27)) = Ok (E64 (- 10 ^ 43)).
Proof.
  split; [reflexivity|]. split; [reflexivity|]. split; [vm_compute; reflexivity|]. split; [reflexivity|]. split; [split; [discriminate|intros (_ & _ & E); discriminate]|].
  split; vm_compute; reflexivity.
Qed.

(** ** Assumptions (each must print "Closed under the global context") *)

Print Assumptions C83_first.
Print Assumptions C83_below.
Print Assumptions C83_at.
Print Assumptions C83_always.
Print Assumptions C83_short.
Print Assumptions C83_ten.
Print Assumptions C83_scalar.
Print Assumptions C83_power_of_two_unsigned.
Print Assumptions C83_power_of_two_signed.
Print Assumptions C83_multiple_of_two.
