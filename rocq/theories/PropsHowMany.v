(** * How many divisions go wrong (C91)

    C74 counts the windows of one step.  Here: for one divisor, how many numerators make
    the division panic or its remainder wrong, and that there are divisors for which the
    bound is attained up to a small factor. *)

Require Import ZArith Znumtheory List Bool Lia.
From Verif Require Import Prim Spec Facts MAdd MMul MShift MCore PCore PBits PWide MArith PArith PRet
  MDiv DivSpec PDiv PKnuth PDivFull PDivExact MApi PApi PApi2 PropsDiv PropsDivAll PropsRare.
Import ListNotations.
Local Open Scope Z_scope.

(** ** Counting *)

(** distinct numbers below [K] are at most [K] *)
Lemma pigeon : forall A (f : A -> Z) K l, 0 <= K -> NoDup l -> (forall x, In x l -> 0 <= f x < K) ->
  (forall x y, In x l -> In y l -> f x = f y -> x = y) -> Z.of_nat (length l) <= K.
Proof.
  intros A f K l HK ND HR HI.
  assert (N2 : NoDup (map (fun x => Z.to_nat (f x)) l)).
  { clear HK. induction ND as [|a l NI ND IH]; cbn [map]; constructor.
    - intro H. apply in_map_iff in H. destruct H as (b & E & Ib). apply NI. replace a with b; [exact Ib|].
      apply HI; [right; auto|left; auto|]. apply Z2Nat.inj; [apply HR; right; auto|apply HR; left; auto|exact E].
    - apply IH; intros; [apply HR|apply HI]; try right; auto. }
  assert (IN : incl (map (fun x => Z.to_nat (f x)) l) (seq 0 (Z.to_nat K))).
  { intros k H. apply in_map_iff in H. destruct H as (x & <- & Ix). apply in_seq. specialize (HR x Ix). split; [lia|]. cbn [Nat.add]. apply Z2Nat.inj_lt; lia. }
  pose proof (NoDup_incl_length N2 IN) as LE. rewrite map_length, seq_length in LE. apply Nat2Z.inj_le in LE. rewrite Z2Nat.id in LE by lia. exact LE.
Qed.
(** numbers below [T] whose remainder modulo [M] lies in a stretch of length [L] in the
    upper half *)
Lemma stretch : forall T M a L l, 0 < M -> 0 < L -> 0 <= T -> M <= 2 * a -> a + L <= M -> NoDup l ->
  (forall x, In x l -> 0 <= x < T /\ a <= x mod M < a + L) -> Z.of_nat (length l) * M <= 2 * T * L.
Proof.
  intros T M a L l HM HL HT Ha HaL ND H. destruct l as [|x0 l0] eqn:El; [change (0 * M <= 2 * T * L); nia|]. rewrite <- El in *.
  assert (T0 : a < T).
  { destruct (H x0) as (R & R2); [rewrite El; left; auto|]. assert (x0 mod M <= x0) by (apply Z.mod_le; lia). lia. }
  set (k := (T - 1 - a) / M + 1). assert (K0 : 0 <= (T - 1 - a) / M) by (apply Z.div_pos; lia).
  assert (P : Z.of_nat (length l) <= k * L).
  { apply (pigeon _ (fun x => x / M * L + (x mod M - a))); auto; [unfold k; nia| |].
    - intros x Ix. destruct (H x Ix) as (R & R2). assert (D0 : 0 <= x / M) by (apply Z.div_pos; lia).
      assert (D1 : x / M <= (T - 1 - a) / M).
      { apply Z.div_le_lower_bound; [lia|]. pose proof (Z.div_mod x M ltac:(lia)). nia. }
      unfold k. nia.
    - intros x y Ix Iy E. destruct (H x Ix) as (R & R2). destruct (H y Iy) as (S & S2).
      assert (Q : x / M = y / M).
      { transitivity ((x / M * L + (x mod M - a)) / L); [|rewrite E; symmetry].
        - apply (Z.div_unique _ L _ (x mod M - a)); [left|]; lia.
        - apply (Z.div_unique _ L _ (y mod M - a)); [left|]; lia. }
      rewrite Q in E. rewrite (Z.div_mod x M), (Z.div_mod y M) by lia. rewrite Q. lia. }
  assert (KM : k * M <= 2 * T).
  { unfold k. pose proof (Z.mul_div_le (T - 1 - a) M HM). nia. }
  apply Z.le_trans with (k * L * M); [apply Z.mul_le_mono_nonneg_r; lia|]. nia.
Qed.
Lemma filter_split : forall A (p : A -> bool) l, length l = (length (filter p l) + length (filter (fun x => negb (p x)) l))%nat.
Proof. intros A p l. induction l as [|a l IH]; cbn; [reflexivity|]. destruct (p a); cbn [negb length]; lia. Qed.
(** every element satisfies one of [k] conditions, each of which at most [b] satisfy *)
Lemma union_bound : forall A (p : nat -> A -> bool) (b m : Z) k l, NoDup l -> 0 <= b -> 0 <= m ->
  (forall x, In x l -> exists j, (j < k)%nat /\ p j x = true) ->
  (forall j l', (j < k)%nat -> NoDup l' -> incl l' l -> (forall x, In x l' -> p j x = true) -> Z.of_nat (length l') * m <= b) ->
  Z.of_nat (length l) * m <= Z.of_nat k * b.
Proof.
  intros A p b m k. induction k as [|k IH]; intros l ND Hb Hm H1 H2.
  - destruct l as [|a l]; [cbn; lia|]. destruct (H1 a (or_introl eq_refl)) as (j & Hj & _). lia.
  - rewrite (filter_split A (p k) l).
    assert (A1 : Z.of_nat (length (filter (p k) l)) * m <= b).
    { apply (H2 k); [lia|apply NoDup_filter; auto|apply incl_filter|]. intros x Hx. apply filter_In in Hx. tauto. }
    assert (A2 : Z.of_nat (length (filter (fun x => negb (p k x)) l)) * m <= Z.of_nat k * b).
    { apply IH; auto; [apply NoDup_filter; auto| |].
      - intros x Hx. apply filter_In in Hx. destruct Hx as (Hx & Px). destruct (H1 x Hx) as (j & Hj & Pj). exists j. split; [|exact Pj].
        destruct (Nat.eq_dec j k) as [->|]; [rewrite Pj in Px; discriminate|lia].
      - intros j l' Hj N' I' Q. apply (H2 j); auto. intros x Hx. apply I' in Hx. apply filter_In in Hx. tauto. }
    rewrite Nat2Z.inj_add, Nat2Z.inj_succ. lia.
Qed.

(** ** One divisor *)

Section Divisor.
Variables (w y : Z).
Hypothesis Hw : 2 <= w.
Hypothesis Hy : 2 ^ w <= y.
Let n := Z.to_nat (limbs_of w y).
Let s := norm_shift w y.
Let D := y * 2 ^ s.
Let B := 2 ^ w.

Lemma window_scaled : forall x j m, 0 <= x -> 0 < m -> m = D \/ m = D * B ->
  ((x * 2 ^ s) / 2 ^ (w * Z.of_nat j)) mod m = (x * 2 ^ s) mod (m * 2 ^ (w * Z.of_nat j)) / 2 ^ (w * Z.of_nat j).
Proof.
  intros x j m Hx Hm _. set (p := 2 ^ (w * Z.of_nat j)). assert (Pp : 0 < p) by (apply pow2_pos; lia). set (z := x * 2 ^ s).
  pose proof (Z.mod_pos_bound (z / p) m Hm) as R. pose proof (Z.mod_pos_bound z p Pp) as R2.
  rewrite <- (Z.mod_unique z (m * p) (z / p / m) (p * ((z / p) mod m) + z mod p)).
  - rewrite (Z.mul_comm p). rewrite Z.div_add_l by lia. rewrite (Z.div_small (z mod p)) by lia. lia.
  - left. nia.
  - rewrite (Z.div_mod z p) at 1 by lia. rewrite (Z.div_mod (z / p) m) at 1 by lia. ring.
Qed.
Lemma step_count : forall T j l, 0 <= T -> NoDup l ->
  (forall x, In x l -> 0 <= x < T /\ overestimated w n (x * 2 ^ s) D j = true) -> Z.of_nat (length l) * B <= 6 * T.
Proof.
  intros T j l HT ND H. assert (w1 : 1 <= w) by lia. destruct (scaled_normalised w y w1 Hy) as (Hn & Hs & HD). fold n in Hn, HD. fold s in Hs, HD. fold D in HD.
  destruct (pw w D n w1 Hn HD) as (P1 & P2 & E1 & E2 & E3 & PD). fold B in E1, E2, P1.
  assert (B4 : 4 <= B) by (change 4 with (2 ^ 2); apply Z.pow_le_mono_r; lia).
  assert (SW : s < w).
  { unfold s, norm_shift, limbs_of. pose proof (Z.div_mod (Z.log2 y) w ltac:(lia)). pose proof (Z.mod_pos_bound (Z.log2 y) w ltac:(lia)). lia. }
  assert (Py : 0 < y) by lia.
  assert (PDB : 0 < D * B) by (apply Z.mul_pos_pos; lia).
  set (p := 2 ^ (w * Z.of_nat j)). assert (Pp : 0 < p) by (apply pow2_pos; lia). set (t := 2 ^ s). assert (Pt : 0 < t) by (apply pow2_pos; lia).
  assert (Dt : D = y * t) by reflexivity.
  set (L := 2 ^ (w * (Z.of_nat n - 1) - s)). assert (EX : 0 <= w * (Z.of_nat n - 1) - s) by (assert (w * 1 <= w * (Z.of_nat n - 1)) by (apply Z.mul_le_mono_nonneg_l; lia); lia). assert (PL : 0 < L) by (apply pow2_pos; lia).
  assert (EL : L * t = 2 ^ (w * (Z.of_nat n - 1))) by (unfold L, t; rewrite <- Z.pow_add_r by lia; f_equal; lia).
  assert (NB : 2 ^ (w * Z.of_nat n) <= 2 * D) by (destruct HD as (HD1 & _); lia).
  assert (LB : L * B <= 2 * y).
  { apply (Z.mul_le_mono_pos_r _ _ t Pt). rewrite E2, <- EL in NB. rewrite Dt in NB. nia. }
  set (q := fun x => y * p - L * p <=? x mod (y * p)).
  rewrite (filter_split _ q l), Nat2Z.inj_add, Z.mul_add_distr_r.
  assert (A1 : Z.of_nat (length (filter q l)) * B <= 4 * T).
  { assert (C : Z.of_nat (length (filter q l)) * (y * p) <= 2 * T * (L * p)).
    { assert (F2 : 0 < L * p) by (apply Z.mul_pos_pos; lia). assert (F3 : 0 < y * p) by (apply Z.mul_pos_pos; lia).
      assert (F4 : L * 2 <= y) by (assert (L * 4 <= L * B) by (apply Z.mul_le_mono_nonneg_l; lia); lia).
      assert (F5 : L * 2 * p <= y * p) by (apply Z.mul_le_mono_nonneg_r; lia).
      apply (stretch T (y * p) (y * p - L * p) (L * p)); auto; [lia|lia|apply NoDup_filter; auto|].
      intros x Hx. apply filter_In in Hx. destruct Hx as (Hx & Q). split; [apply H; auto|]. apply Z.leb_le in Q.
      pose proof (Z.mod_pos_bound x (y * p) F3). lia. }
    set (len := Z.of_nat (length (filter q l))) in *. assert (L0 : 0 <= len) by (unfold len; lia). clearbody len.
    assert (C2 : len * y <= 2 * T * L) by (apply (Z.mul_le_mono_pos_r _ _ p Pp); lia).
    apply (Z.mul_le_mono_pos_r _ _ y Py). assert (len * y * B <= 2 * T * L * B) by (apply Z.mul_le_mono_nonneg_r; lia).
    assert (2 * T * (L * B) <= 2 * T * (2 * y)) by (apply Z.mul_le_mono_nonneg_l; lia). lia. }
  assert (A2 : Z.of_nat (length (filter (fun x => negb (q x)) l)) * B <= 2 * T).
  { assert (C : Z.of_nat (length (filter (fun x => negb (q x)) l)) * (y * p * B) <= 2 * T * (y * p)).
    { assert (Pyp : 0 < y * p) by (apply Z.mul_pos_pos; lia). assert (F0 : 0 < y * p * B) by (apply Z.mul_pos_pos; lia).
      assert (F1 : y * p * B <= 2 * ((B - 2) * (y * p))) by (assert (y * p * 4 <= y * p * B) by (apply Z.mul_le_mono_nonneg_l; lia); lia).
      apply (stretch T (y * p * B) ((B - 2) * (y * p)) (y * p)); auto; [lia|apply NoDup_filter; auto|].
      intros x Hx. apply filter_In in Hx. destruct Hx as (Hx & Q). destruct (H x Hx) as (R & O). split; [exact R|].
      apply negb_true_iff, Z.leb_gt in Q. unfold overestimated in O. set (S := window w (x * 2 ^ s) D j) in *.
      assert (HS : 0 <= S < D * 2 ^ w) by (apply Z.mod_pos_bound; exact PDB).
      assert (ES : S = (x * t) mod (D * B * p) / p).
      { unfold S, window. apply window_scaled; [lia|exact PDB|right; reflexivity]. }
      assert (EZ : (x * t) mod (D * B * p) = t * (x mod (y * p * B))).
      { rewrite Dt. replace (y * t * B * p) with (t * (y * p * B)) by ring. rewrite (Z.mul_comm x t). apply Z.mul_mod_distr_l; lia. }
      destruct (C74_step w n D S w1 Hn HD HS O) as [(_ & A)|(A & _)].
      - exfalso. assert (EM : S mod D = (x * t) mod (D * p) / p).
        { unfold S, window. rewrite <- Zmod_div_mod; [|exact PD|exact PDB|exists (2 ^ w); ring]. apply window_scaled; [lia|exact PD|left; reflexivity]. }
        assert (EZ2 : (x * t) mod (D * p) = t * (x mod (y * p))).
        { rewrite Dt. replace (y * t * p) with (t * (y * p)) by ring. rewrite (Z.mul_comm x t). apply Z.mul_mod_distr_l; lia. }
        rewrite EM, EZ2, <- EL in A. pose proof (Z.mul_div_le (t * (x mod (y * p))) p Pp) as ML.
        assert (J : p * (D - L * t) < p * (t * (x mod (y * p)) / p)) by (apply Z.mul_lt_mono_pos_l; lia).
        assert (J2 : t * (y * p - L * p) < t * (x mod (y * p))).
        { replace (t * (y * p - L * p)) with (p * (D - L * t)) by (rewrite Dt; ring). exact (Z.lt_le_trans _ _ _ J ML). }
        assert (y * p - L * p < x mod (y * p)) by (apply (Z.mul_lt_mono_pos_l t); auto). lia.
      - assert (F : (B - 2) * D <= S < (B - 1) * D).
        { pose proof (Z.div_mod S D ltac:(lia)) as DM. pose proof (Z.mod_pos_bound S D PD). rewrite A in DM. fold B in DM. lia. }
        rewrite ES, EZ in F. set (v := x mod (y * p * B)) in *. destruct F as (F2 & F3).
        pose proof (Z.mul_div_le (t * v) p Pp) as G1. pose proof (Z.mul_succ_div_gt (t * v) p Pp) as G2.
        assert (I1 : p * ((B - 2) * D) <= t * v) by (assert (p * ((B - 2) * D) <= p * (t * v / p)) by (apply Z.mul_le_mono_nonneg_l; lia); lia).
        assert (I2 : t * v < p * ((B - 1) * D)) by (assert (p * Z.succ (t * v / p) <= p * ((B - 1) * D)) by (apply Z.mul_le_mono_nonneg_l; lia); lia).
        rewrite Dt in I1, I2. split.
        + apply (Z.mul_le_mono_pos_l _ _ t Pt). lia.
        + apply (Z.mul_lt_mono_pos_l t); auto. lia. }
    set (len := Z.of_nat _) in *. assert (L0 : 0 <= len) by (unfold len; lia). clearbody len. assert (Pyp : 0 < y * p) by (apply Z.mul_pos_pos; lia).
    apply (Z.mul_le_mono_pos_r _ _ (y * p) Pyp). lia. }
  lia.
Qed.
(** Numerators of at most [k] limbs. *)
Lemma corrections_count : forall k l, (n <= k)%nat -> NoDup l ->
  (forall x, In x l -> 0 <= x < 2 ^ (w * Z.of_nat k) /\ has_correction w x y = true) ->
  forall T, (forall x, In x l -> x < T) -> 0 <= T -> Z.of_nat (length l) * 2 ^ w <= Z.of_nat (k - n + 1) * (6 * T).
Proof.
  intros k l Hk ND H T HTl HT. apply (union_bound _ (fun j x => overestimated w n (x * 2 ^ s) D j)); [exact ND|lia|apply Z.pow_nonneg; lia| |].
  - intros x Hx. destruct (H x Hx) as (R & C). unfold has_correction in C. cbv zeta in C. fold n s D in C. apply existsb_exists in C. destruct C as (j & Ij & O).
    exists j. split; [|exact O]. apply in_seq in Ij. assert (limbs_of w x <= Z.of_nat k); [|lia].
    assert (0 < Z.of_nat k) by (pose proof (Nat2Z.is_nonneg k); destruct (Z.eq_dec (Z.of_nat k) 0) as [e|]; [|lia];
      assert (n = 0%nat) by lia; destruct (scaled_normalised w y ltac:(lia) Hy) as (Hn & _); fold n in Hn; lia).
    unfold limbs_of. assert (Z.log2 x / w < Z.of_nat k); [|lia]. apply Z.div_lt_upper_bound; [lia|].
    destruct (Z.eq_dec x 0) as [->|]; [cbn; nia|]. apply Z.log2_lt_pow2; lia.
  - intros j l' _ N' I' O. apply (step_count T j); auto. intros x Hx. split; [|apply O; auto]. split; [apply (H x (I' x Hx))|apply HTl, I', Hx].
Qed.
End Divisor.

(** ** The division forms *)

Section Forms.
Context {c : Cfg}.
Hypothesis HV : Valid.
(** Numerators with a digit to correct, by magnitude. *)
Lemma inexact_count : forall y T l, y <> 0 -> Z.abs y < 2 ^ BITS -> NoDup l -> 0 <= T ->
  (forall x, In x l -> 0 <= x < T /\ x < 2 ^ BITS /\ 2 ^ W <= Z.abs y /\ has_correction W x (Z.abs y) = true) ->
  Z.of_nat (length l) * 2 ^ W <= (Z.of_nat N - limbs_of W (Z.abs y) + 1) * (6 * T).
Proof.
  intros y T l Hy Hyb ND HT H. assert (W2 : 2 <= W) by (destruct (W_cases HV); lia). assert (W1 : 1 <= W) by lia. pose proof (limbs_of_pos W (Z.abs y) W1) as L1.
  assert (EB : BITS = W * Z.of_nat N) by (unfold BITS; ring).
  assert (LN : limbs_of W (Z.abs y) <= Z.of_nat N).
  { unfold limbs_of. assert (Z.log2 (Z.abs y) / W < Z.of_nat N); [|lia]. apply Z.div_lt_upper_bound; [lia|]. apply Z.log2_lt_pow2; [lia|]. rewrite <- EB. exact Hyb. }
  assert (C : forall x, In x l -> 2 ^ W <= Z.abs y /\ has_correction W x (Z.abs y) = true) by (intros x Hx; apply (H x Hx)).
  destruct l as [|x0 l0] eqn:El; [change (0 * 2 ^ W <= (Z.of_nat N - limbs_of W (Z.abs y) + 1) * (6 * T)); rewrite Z.mul_0_l; apply Z.mul_nonneg_nonneg; lia|]. rewrite <- El in *.
  assert (Hb : 2 ^ W <= Z.abs y) by (apply (C x0); rewrite El; left; auto).
  pose proof (corrections_count W (Z.abs y) W2 Hb N l) as Q.
  replace (Z.of_nat N - limbs_of W (Z.abs y) + 1) with (Z.of_nat (N - Z.to_nat (limbs_of W (Z.abs y)) + 1)) by lia.
  apply Q; auto; [lia| |].
  - intros x Hx. rewrite <- EB. destruct (H x Hx) as (R & R2 & _). destruct (C x Hx). repeat split; auto; lia.
  - intros x Hx. apply (H x Hx).
Qed.
Definition cap (sg : bool) : Z := if sg then 2 ^ (BITS - 1) + 1 else 2 ^ BITS.
(** values of either sign *)
Lemma correction_count : forall sg y l, y <> 0 -> Z.abs y < 2 ^ BITS -> NoDup l ->
  (forall x, In x l -> wf x /\ 2 ^ W <= Z.abs y /\ has_correction W (Z.abs (num sg x)) (Z.abs y) = true) ->
  Z.of_nat (length l) * 2 ^ W <= (Z.of_nat N - limbs_of W (Z.abs y) + 1) * (6 * (2 ^ BITS + if sg then 2 else 0)).
Proof.
  intros sg y l Hy Hyb ND H. pose proof (pB HV) as PB. pose proof (pBhalf HV) as PH. pose proof (pBh HV) as PBh.
  assert (R : forall x, wf x -> Z.abs (num sg x) < cap sg /\ (sg = false -> 0 <= num sg x)).
  { intros x Wx. unfold cap, num. destruct sg; [pose proof (sval_range HV x Wx)|pose proof (uval_range HV x Wx)]; split; try lia; discriminate. }
  assert (CB : cap sg <= 2 ^ BITS) by (unfold cap; destruct sg; lia).
  assert (P : forall b, Z.of_nat (length (filter (fun x => Bool.eqb b (num sg x <? 0)) l)) * 2 ^ W <= (Z.of_nat N - limbs_of W (Z.abs y) + 1) * (6 * cap sg)).
  { intro b. set (l' := filter _ l). rewrite <- (map_length (fun x => Z.abs (num sg x)) l').
    assert (S : forall x, In x l' -> In x l /\ b = (num sg x <? 0)) by (intros x Hx; apply filter_In in Hx; destruct Hx as (A & E); split; [exact A|apply Bool.eqb_prop, E]).
    apply inexact_count; auto.
    - assert (N' : NoDup l') by (apply NoDup_filter; auto). revert S. clear - N' HV H. induction N' as [|a m NI N' IH]; intro S; cbn [map]; constructor.
      + intro I. apply in_map_iff in I. destruct I as (z & E & Iz). apply NI. destruct (S a) as (Ia & Ba); [left; auto|]. destruct (S z) as (Iz' & Bz); [right; auto|].
        replace a with z; [exact Iz|]. apply (val_inj HV sg); [apply H; auto|apply H; auto|]. change (num sg z = num sg a). rewrite Ba in Bz.
        destruct (num sg a <? 0) eqn:E1; symmetry in Bz; [apply Z.ltb_lt in E1, Bz|apply Z.ltb_ge in E1, Bz]; lia.
      + apply IH. intros x Hx. apply S. right; auto.
    - unfold cap; destruct sg; lia.
    - intros x Hx. apply in_map_iff in Hx. destruct Hx as (z & <- & Iz). destruct (S z Iz) as (Iz' & _). destruct (H z Iz') as (Wz & E). pose proof (R z Wz).
      split; [lia|]. split; [lia|]. exact E. }
  assert (W2 : 2 <= W) by (destruct (W_cases HV); lia). assert (W1 : 1 <= W) by lia. pose proof (limbs_of_pos W (Z.abs y) W1) as L1.
  assert (LN : 0 <= Z.of_nat N - limbs_of W (Z.abs y) + 1).
  { unfold limbs_of. assert (Z.log2 (Z.abs y) / W < Z.of_nat N); [|lia]. apply Z.div_lt_upper_bound; [lia|]. apply Z.log2_lt_pow2; [lia|].
    replace (W * Z.of_nat N) with BITS by (unfold BITS; ring). exact Hyb. }
  destruct sg.
  - rewrite (filter_split _ (fun x => Bool.eqb true (num true x <? 0)) l).
    assert (E : filter (fun x => negb (Bool.eqb true (num true x <? 0))) l = filter (fun x => Bool.eqb false (num true x <? 0)) l) by (apply filter_ext; intro x; destruct (num true x <? 0); reflexivity).
    rewrite E. pose proof (P true) as P1. pose proof (P false) as P2. unfold cap in P1, P2. nia.
  - assert (E : filter (fun x => Bool.eqb false (num false x <? 0)) l = l).
    { clear - H R. induction l as [|a l IH]; cbn [filter]; [reflexivity|]. destruct (R a) as (_ & A); [apply H; left; auto|]. destruct (num false a <? 0) eqn:E; [apply Z.ltb_lt in E; specialize (A eq_refl); lia|].
      cbn [Bool.eqb]. f_equal. apply IH. intros x Hx. apply H. right; auto. }
    pose proof (P false) as P1. rewrite E in P1. unfold cap in P1. rewrite Z.add_0_r. exact P1.
Qed.
Lemma num_abs : forall sg y, wf y -> Z.abs (num sg y) < 2 ^ BITS.
Proof. intros sg y Wy. unfold num. destruct sg; [pose proof (sval_range HV y Wy); pose proof (pBhalf HV); pose proof (pBh HV)|pose proof (uval_range HV y Wy)]; lia. Qed.
Lemma wrong_count : forall sg y l, wf y -> num sg y <> 0 -> NoDup l ->
  (forall x, In x l -> wf x /\ ~ exact (num sg x) (num sg y)) ->
  Z.of_nat (length l) * 2 ^ W <= (Z.of_nat N - limbs_of W (Z.abs (num sg y)) + 1) * (6 * (2 ^ BITS + if sg then 2 else 0)).
Proof.
  intros sg y l Wy Hy ND H. apply correction_count; auto; [apply num_abs; exact Wy|].
  intros x Hx. destruct (H x Hx) as (Wx & E). split; [exact Wx|]. unfold exact, exact_division in E. set (h := has_correction _ _ _) in *. clearbody h.
  split; [destruct (Z.le_gt_cases (2 ^ W) (Z.abs (num sg y))); [auto|exfalso; apply E; auto]|]. destruct h; [reflexivity|exfalso; apply E; auto].
Qed.
End Forms.

(** ** Properties *)

(** Remainders.  For any one divisor the values whose remainder is not the right one, by
    whichever form, are at most [6 (N - n + 1)] in [2^W], [n] being the limbs of the
    divisor. *)
Theorem C91_remainder : forall (c : Cfg) f sg y l, Valid -> wf y -> NoDup l ->
  (forall x, In x l -> wf x /\ divisible sg (num sg x) (num sg y) /\
     ~ right sg (remainder f sg x y) (Z.rem (num sg x) (num sg y))) ->
  Z.of_nat (length l) * 2 ^ W <=
    6 * (Z.of_nat N - limbs_of W (Z.abs (num sg y)) + 1) * (2 ^ BITS + if sg then 2 else 0).
Proof.
  intros c f sg y l HV Wy ND H. destruct (Z.eq_dec (num sg y) 0) as [E|E].
  - destruct l as [|x l]; [|destruct (H x (or_introl eq_refl)) as (_ & (D & _) & _); contradiction].
    change (0 * 2 ^ W <= 6 * (Z.of_nat N - limbs_of W (Z.abs (num sg y)) + 1) * (2 ^ BITS + if sg then 2 else 0)).
    rewrite E. unfold limbs_of. cbn [Z.abs Z.log2]. rewrite Z.div_0_l by (destruct (W_cases HV); lia). pose proof (pB HV). destruct sg; nia.
  - rewrite <- Z.mul_assoc, (Z.mul_comm 6), <- Z.mul_assoc, (Z.mul_comm _ 6). apply (wrong_count HV); auto. intros x Hx. destruct (H x Hx) as (Wx & D & R). split; [exact Wx|].
    intro X. apply R. apply (C76_remainder c f sg x y HV Wx Wy D). exact X.
Qed.
(** Quotients: at most 6 in [2^W]. *)
Theorem C91_quotient : forall (c : Cfg) f sg y l, Valid -> wf y -> NoDup l ->
  (forall x, In x l -> wf x /\ divisible sg (num sg x) (num sg y) /\
     ~ right sg (quotient f sg x y) (Z.quot (num sg x) (num sg y))) ->
  Z.of_nat (length l) * 2 ^ W <= 6 * (2 ^ BITS + if sg then 2 else 0).
Proof.
  intros c f sg y l HV Wy ND H. destruct l as [|x0 l0] eqn:El; [change (0 * 2 ^ W <= 6 * (2 ^ BITS + if sg then 2 else 0)); pose proof (pB HV); destruct sg; lia|]. rewrite <- El in *.
  assert (F : forall x, In x l -> wf x /\ num sg y <> 0 /\ division_fails (num sg x) (num sg y)).
  { intros x Hx. destruct (H x Hx) as (Wx & D & R). split; [exact Wx|]. split; [apply D|]. destruct (outcomes HV (num sg x) (num sg y) (proj1 D)) as [(F & _)|[(F & _)|(F & _)]]; [exact F| |];
    exfalso; apply R; apply (C76_quotient c f sg x y HV Wx Wy D); exact F. }
  destruct (F x0) as (Wx0 & Hy & (Hb & _)); [rewrite El; left; auto|].
  assert (W2 : 2 <= W) by (destruct (W_cases HV); lia). pose proof (N_ge4 HV).
  assert (LN : limbs_of W (Z.abs (num sg y)) = Z.of_nat N).
  { assert (A : Z.abs (num sg y) < 2 ^ BITS) by (unfold num; destruct sg; [pose proof (sval_range HV y Wy); pose proof (pBhalf HV); pose proof (pBh HV)|pose proof (uval_range HV y Wy)]; lia).
    unfold limbs_of. assert (Z.log2 (Z.abs (num sg y)) / W = Z.of_nat N - 1); [|lia]. symmetry. apply (Z.div_unique _ W _ (Z.log2 (Z.abs (num sg y)) - W * (Z.of_nat N - 1))); [left|lia].
    assert (W * (Z.of_nat N - 1) = BITS - W) by (unfold BITS; ring). assert (0 < 2 ^ (BITS - W)) by (apply pow2_pos; unfold BITS; nia).
    split; [assert (BITS - W <= Z.log2 (Z.abs (num sg y))) by (apply Z.log2_le_pow2; lia); lia|assert (Z.log2 (Z.abs (num sg y)) < BITS) by (apply Z.log2_lt_pow2; lia); lia]. }
  pose proof (wrong_count HV sg y l Wy Hy ND) as Q. rewrite LN in Q.
  replace (Z.of_nat N - Z.of_nat N + 1) with 1 in Q by lia. rewrite Z.mul_1_l in Q. apply Q.
  intros x Hx. destruct (F x Hx) as (Wx & _ & DF). split; [exact Wx|]. destruct (outcomes HV (num sg x) (num sg y) Hy) as [(_ & E & _)|[(E & _)|(E & _)]]; [exact E|contradiction|contradiction].
Qed.

(** ** The bound is of the right order *)

Section Attained.
Context {c : Cfg}.
Hypothesis HV : Valid.
Let t := 2 ^ (W - 1).
Let B := 2 ^ W.
Let R := 2 ^ (W * (Z.of_nat N - 3)).
Definition tail : Z := 2 * 2 ^ (W * (Z.of_nat N - 3)) - 1.
Definition bad_divisor : Z := 2 ^ (BITS - W) + tail.
Lemma attained_facts : B = 2 * t /\ 2 ^ 31 <= t /\ 1 <= R /\ 2 ^ (BITS - W) = R * B * B /\ 2 ^ BITS = R * B * B * B /\
  2 ^ (W * (Z.of_nat N - 2)) = R * B /\ tail = 2 * R - 1.
Proof.
  assert (W2 : 32 <= W) by (destruct (W_cases HV); lia). pose proof (N_ge4 HV). unfold B, t, R, BITS.
  repeat split.
  - replace W with (Z.succ (W - 1)) at 1 by lia. rewrite Z.pow_succ_r by lia. reflexivity.
  - apply Z.pow_le_mono_r; lia.
  - assert (0 < 2 ^ (W * (Z.of_nat N - 3))) by (apply pow2_pos; nia). lia.
  - rewrite <- !Z.pow_add_r by nia. f_equal. ring.
  - rewrite <- !Z.pow_add_r by nia. f_equal. ring.
  - rewrite <- Z.pow_add_r by nia. f_equal. ring.
Qed.
Lemma bad_corrects : forall q i, 1 <= q < B -> 0 <= i < q * tail -> has_correction W (q * 2 ^ (BITS - W) + i) bad_divisor = true.
Proof.
  intros q i Hq Hi. destruct attained_facts as (EB & T31 & R1 & E1 & E2 & E3 & ET). assert (W2 : 32 <= W) by (destruct (W_cases HV); lia). pose proof (N_ge4 HV) as N4.
  change (2 ^ 31) with 2147483648 in T31.
  assert (BW : 0 <= BITS - W) by (unfold BITS; replace (Z.of_nat N * W - W) with ((Z.of_nat N - 1) * W) by ring; apply Z.mul_nonneg_nonneg; lia).
  assert (QI : q * tail <= B * (2 * R)) by (rewrite ET; apply Z.mul_le_mono_nonneg; lia).
  assert (RB : B * (2 * R) <= R * B * B) by (replace (R * B * B) with (B * (B * R)) by ring; apply Z.mul_le_mono_nonneg_l; [lia|]; apply Z.mul_le_mono_nonneg_r; lia).
  set (x := q * 2 ^ (BITS - W) + i). set (y := bad_divisor).
  assert (X : 2 ^ (BITS - W) <= x < 2 ^ BITS).
  { unfold x. rewrite E2, E1. assert (1 * (R * B * B) <= q * (R * B * B)) by (apply Z.mul_le_mono_nonneg_r; lia).
    assert (q * (R * B * B) <= (B - 1) * (R * B * B)) by (apply Z.mul_le_mono_nonneg_r; lia). lia. }
  assert (Y : 2 ^ (BITS - W) <= y < 2 ^ (BITS - W + 1)).
  { unfold y, bad_divisor. rewrite (Z.pow_add_r 2 (BITS - W) 1 BW ltac:(lia)), E1, ET. change (2 ^ 1) with 2. assert (1 * (2 * R) <= B * (2 * R)) by (apply Z.mul_le_mono_nonneg_r; lia). lia. }
  assert (LG : Z.log2 y = BITS - W) by (apply Z.log2_unique; [exact BW|lia]).
  assert (LY : limbs_of W y = Z.of_nat N) by (unfold limbs_of; rewrite LG; unfold BITS; replace (Z.of_nat N * W - W) with ((Z.of_nat N - 1) * W) by ring; rewrite Z.div_mul by lia; lia).
  assert (SY : norm_shift W y = W - 1) by (unfold norm_shift; rewrite LY, LG; unfold BITS; ring).
  unfold has_correction. cbv zeta. rewrite LY, SY, Nat2Z.id. apply existsb_exists. exists 0%nat. split; [apply in_seq; lia|].
  unfold overestimated, window. rewrite Z.mul_0_r, Z.pow_0_r, Z.div_1_r. fold t B.
  assert (PY : y = R * B * B + tail) by (unfold y, bad_divisor; rewrite E1; reflexivity).
  assert (SM : x * t < y * t * B).
  { assert (x < y * B); [|replace (y * t * B) with (y * B * t) by ring; apply Z.mul_lt_mono_pos_r; lia].
    assert (R * B * B * B <= y * B) by (apply Z.mul_le_mono_nonneg_r; lia). lia. }
  rewrite Z.mod_small by (split; [apply Z.mul_nonneg_nonneg; lia|exact SM]).
  rewrite (Z.div_mul_cancel_r x y t) by lia. apply Z.ltb_lt. unfold digit_estimate. cbv zeta.
  replace (2 ^ (W * Z.of_nat N)) with (2 ^ BITS) by (f_equal; unfold BITS; ring). replace (2 ^ (W * (Z.of_nat N - 1))) with (2 ^ (BITS - W)) by (f_equal; unfold BITS; ring). rewrite E3, E1, E2.
  assert (TT : tail * t < R * B) by (rewrite ET, EB; lia).
  assert (D1 : y * t / (R * B * B) = t).
  { symmetry. apply (Z.div_unique _ _ _ (tail * t)); [left|rewrite PY; ring]. assert (R * B * 1 <= R * B * B) by (apply Z.mul_le_mono_nonneg_l; lia). split; [apply Z.mul_nonneg_nonneg; lia|lia]. }
  assert (D2 : y * t / (R * B) = B * t).
  { symmetry. apply (Z.div_unique _ _ _ (tail * t)); [left|rewrite PY; ring]. split; [apply Z.mul_nonneg_nonneg; lia|lia]. }
  rewrite D1, D2.
  assert (C1 : x * t / (R * B * B * B) < t) by (apply Z.div_lt_upper_bound; [lia|]; apply Z.mul_lt_mono_pos_r; lia).
  apply Z.ltb_lt in C1. rewrite C1.
  rewrite Z.div_div by lia. replace (R * B * (B * t)) with (R * B * B * t) by ring. rewrite Z.div_mul_cancel_r by lia.
  assert (Q1 : x / (R * B * B) = q) by (symmetry; apply (Z.div_unique _ _ _ i); [left; lia|unfold x; rewrite E1; ring]).
  rewrite Q1. apply Z.div_lt_upper_bound; [lia|]. unfold x. rewrite E1, PY. lia.
Qed.
End Attained.

(** Some divisor fails that often: of the [2^BITS] numerators at least a quarter (signed: a
    sixteenth) of one in [2^W] panic, in every form of the quotient and of the remainder. *)
Theorem C91_attained : forall (c : Cfg) sg, Valid -> exists y l, wf y /\ NoDup l /\
  (forall x, In x l -> wf x /\ divisible sg (num sg x) (num sg y) /\
     forall f, quotient f sg x y = Panic /\ remainder f sg x y = Panic) /\
  2 ^ BITS <= (if sg then 16 else 4) * Z.of_nat (length l) * 2 ^ W.
Proof.
  intros c sg HV. destruct (attained_facts HV) as (EB & T31 & R1 & E1 & E2 & _ & ET). assert (W2 : 32 <= W) by (destruct (W_cases HV); lia). pose proof (N_ge4 HV) as N4.
  change (2 ^ 31) with 2147483648 in T31. set (B := 2 ^ W) in *. set (t := 2 ^ (W - 1)) in *. set (R := 2 ^ (W * (Z.of_nat N - 3))) in *. set (P := 2 ^ (BITS - W)) in *.
  pose proof (pBhalf HV) as PH. pose proof (pBh HV) as PBh.
  set (h := if sg then 2 ^ (W - 2) else t).
  assert (TT : t = 2 * 2 ^ (W - 2)) by (unfold t; rewrite <- Z.pow_succ_r by lia; f_equal; lia).
  assert (H2 : 2 <= h) by (unfold h; destruct sg; lia). assert (HB : 2 * h <= B) by (unfold h; destruct sg; lia).
  assert (PP : 0 < P) by (rewrite E1; apply Z.mul_pos_pos; [apply Z.mul_pos_pos|]; lia).
  assert (TOP : 2 * h * P <= (if sg then 2 ^ (BITS - 1) else 2 ^ BITS)).
  { assert (PB : 2 ^ BITS = B * P) by (rewrite E2, E1; ring). rewrite PH in PB. unfold h. destruct sg; [rewrite <- TT|rewrite <- EB]; [|lia].
    rewrite EB in PB. lia. }
  set (T := tail). assert (T1 : 1 <= T) by (unfold T; lia). set (G := h * T). assert (G1 : 2 <= G) by (unfold G; nia).
  assert (GP : G < P).
  { unfold G. apply Z.le_lt_trans with (B * (2 * R - 1)); [unfold T; rewrite ET; apply Z.mul_le_mono_nonneg_r; lia|].
    rewrite E1. replace (R * B * B) with (B * (B * R)) by ring. apply Z.mul_lt_mono_pos_l; [lia|]. assert (2 * R <= B * R) by (apply Z.mul_le_mono_nonneg_r; lia). lia. }
  set (v := fun k : nat => (h + Z.of_nat k / G) * P + Z.of_nat k mod G).
  assert (V : forall k, (k < Z.to_nat (h * G))%nat -> exists q i, v k = q * P + i /\ h <= q < 2 * h /\ 0 <= i < G).
  { intros k Hk. exists (h + Z.of_nat k / G), (Z.of_nat k mod G). split; [reflexivity|]. pose proof (Z.mod_pos_bound (Z.of_nat k) G ltac:(lia)) as M. split; [|exact M].
    assert (0 <= Z.of_nat k / G) by (apply Z.div_pos; lia). assert (Z.of_nat k / G < h) by (apply Z.div_lt_upper_bound; lia). lia. }
  assert (F : forall k, (k < Z.to_nat (h * G))%nat -> fits sg (v k) /\ P + T < v k).
  { intros k Hk. destruct (V k Hk) as (q & i & -> & Hq & Hi). assert (2 * P <= q * P) by (apply Z.mul_le_mono_nonneg_r; lia). assert (q * P <= (2 * h - 1) * P) by (apply Z.mul_le_mono_nonneg_r; lia).
    assert (T < P) by (assert (1 * T <= G) by (apply Z.mul_le_mono_nonneg_r; lia); lia).
    split; [|lia]. unfold fits, fits_s, fits_u. destruct sg; lia. }
  assert (FY : fits sg bad_divisor).
  { assert (0 < h * G) by nia. destruct (F 0%nat ltac:(lia)) as (F0 & F1). unfold bad_divisor. fold P T. revert F0. unfold fits, fits_s, fits_u. destruct sg; lia. }
  exists (ofZ bad_divisor), (map (fun k => ofZ (v k)) (seq 0 (Z.to_nat (h * G)))).
  assert (NY : num sg (ofZ bad_divisor) = bad_divisor) by (apply (val_ofZ_small HV); exact FY).
  assert (NX : forall k, (k < Z.to_nat (h * G))%nat -> num sg (ofZ (v k)) = v k) by (intros k Hk; apply (val_ofZ_small HV); apply (F k Hk)).
  assert (BD : bad_divisor = P + T) by reflexivity.
  split; [apply (wf_ofZ HV)|]. split; [|split].
  - assert (S : forall k, In k (seq 0 (Z.to_nat (h * G))) -> (k < Z.to_nat (h * G))%nat) by (intros k Hk; apply in_seq in Hk; lia).
    pose proof (seq_NoDup (Z.to_nat (h * G)) 0) as ND. revert S. induction ND as [|a m NI ND IH]; intro S; cbn [map]; constructor.
    + intro I. apply in_map_iff in I. destruct I as (b & E & Ib). apply NI. assert (Sa := S a (or_introl eq_refl)). assert (Sb := S b (or_intror Ib)).
      assert (EV : v b = v a) by (rewrite <- (NX b Sb), <- (NX a Sa), E; reflexivity). replace a with b; [exact Ib|].
      unfold v in EV. pose proof (Z.mod_pos_bound (Z.of_nat a) G ltac:(lia)) as Ma. pose proof (Z.mod_pos_bound (Z.of_nat b) G ltac:(lia)) as Mb.
      assert (Q : h + Z.of_nat b / G = h + Z.of_nat a / G).
      { transitivity (((h + Z.of_nat b / G) * P + Z.of_nat b mod G) / P); [|rewrite EV; symmetry].
        - apply (Z.div_unique _ P _ (Z.of_nat b mod G)); [left|]; lia.
        - apply (Z.div_unique _ P _ (Z.of_nat a mod G)); [left|]; lia. }
      assert (Q2 : Z.of_nat b / G = Z.of_nat a / G) by lia. rewrite Q in EV.
      apply Nat2Z.inj. rewrite (Z.div_mod (Z.of_nat a) G), (Z.div_mod (Z.of_nat b) G) by lia. rewrite Q2. lia.
    + apply IH. intros k Hk. apply S. right; exact Hk.
  - intros x Hx. apply in_map_iff in Hx. destruct Hx as (k & <- & Hk). apply in_seq in Hk. assert (K : (k < Z.to_nat (h * G))%nat) by lia.
    destruct (F k K) as (FX & GT). assert (WX : wf (ofZ (v k))) by apply (wf_ofZ HV). assert (WY : wf (ofZ bad_divisor)) by apply (wf_ofZ HV).
    assert (D : divisible sg (num sg (ofZ (v k))) (num sg (ofZ bad_divisor))) by (rewrite NX, NY by exact K; split; lia).
    assert (DF : division_fails (num sg (ofZ (v k))) (num sg (ofZ bad_divisor))).
    { rewrite NX, NY by exact K. unfold division_fails. rewrite !Z.abs_eq by lia. split; [fold P; lia|]. destruct (V k K) as (q & i & -> & Hq & Hi). apply (bad_corrects HV); [fold B; lia|].
      split; [lia|]. apply Z.lt_le_trans with (h * T); [exact (proj2 Hi)|]. apply Z.mul_le_mono_nonneg_r; fold T; lia. }
    split; [exact WX|]. split; [exact D|]. intro f. split; [apply (C76_quotient c f sg _ _ HV WX WY D); exact DF|apply (C76_remainder c f sg _ _ HV WX WY D); exact DF].
  - rewrite map_length, seq_length, Z2Nat.id by (unfold G; nia).
    assert (BB : (if sg then 16 else 4) * (h * h) = B * B) by (unfold h; destruct sg; rewrite EB, ?TT; ring).
    unfold G. replace ((if sg then 16 else 4) * (h * (h * T)) * B) with (B * B * (T * B)) by (rewrite <- BB; ring).
    rewrite E2. replace (R * B * B * B) with (B * B * (R * B)) by ring. apply Z.mul_le_mono_nonneg_l; [apply Z.mul_nonneg_nonneg; lia|]. apply Z.mul_le_mono_nonneg_r; [lia|]. unfold T. lia.
Qed.

(** Three numerators that panic on the divisor [2^192 + 2^65 - 1], and their bound. *)
Example C91_ex1 : let y := @ofZ c256_64 (2 ^ 192 + 2 ^ 65 - 1) in let l := map (@ofZ c256_64) [2 * 2 ^ 192; 7 * 2 ^ 192 + 5; (2 ^ 64 - 1) * 2 ^ 192 + 2 ^ 128] in
  map (fun x => @quotient c256_64 Checked false x y) l = [Panic; Panic; Panic] /\ map (fun x => @remainder c256_64 Operator false x y) l = [Panic; Panic; Panic].
Proof. split; vm_compute; reflexivity. Qed.
Example C91_ex2 : Z.of_nat 3 * 2 ^ 64 <= 6 * (2 ^ 256 + 0).
Proof.
  apply (C91_quotient c256_64 Checked false (@ofZ c256_64 (2 ^ 192 + 2 ^ 65 - 1)) (map (@ofZ c256_64) [2 * 2 ^ 192; 7 * 2 ^ 192 + 5; (2 ^ 64 - 1) * 2 ^ 192 + 2 ^ 128]) valid_c256_64 (wf_ofZ valid_c256_64 _)).
  - vm_compute. repeat (constructor; [cbn; intuition discriminate|]). constructor.
  - intros x Hx. cbn [map In] in Hx.
    assert (Q : @quotient c256_64 Checked false x (@ofZ c256_64 (2 ^ 192 + 2 ^ 65 - 1)) = Panic) by (destruct Hx as [<-|[<-|[<-|[]]]]; vm_compute; reflexivity).
    split; [destruct Hx as [<-|[<-|[<-|[]]]]; apply (wf_ofZ valid_c256_64)|]. split; [split; [vm_compute; discriminate|intros (A & _); discriminate]|]. rewrite Q. intros (r & E & _). discriminate.
Qed.
(** A three-limb divisor: the remainder comes back off by a stray carry. *)
Example C91_ex3 : let y := @ofZ c256_64 (2 ^ 128 + 1) in let x := @ofZ c256_64 (5 * 2 ^ 128 + 1) in
  limbs_of 64 (@uval c256_64 y) = 3 /\ @remainder c256_64 Wrapping false x y = Ok (@ofZ c256_64 (2 ^ 128 - 3 + 2 ^ 129)).
Proof. split; vm_compute; reflexivity. Qed.
(** Three four-limb numerators with a wrong remainder, and their bound. *)
Example C91_ex4 : Z.of_nat 3 * 2 ^ 64 <= 6 * 2 * (2 ^ 256 + 0).
Proof.
  apply (C91_remainder c256_64 Wrapping false (@ofZ c256_64 (2 ^ 128 + 1)) (map (@ofZ c256_64) [5 * 2 ^ 128 + 1; 6 * 2 ^ 128; 6 * 2 ^ 128 + 1]) valid_c256_64 (wf_ofZ valid_c256_64 _)).
  - vm_compute. repeat (constructor; [cbn; intuition discriminate|]). constructor.
  - intros x Hx. cbn [map In] in Hx. split; [destruct Hx as [<-|[<-|[<-|[]]]]; apply (wf_ofZ valid_c256_64)|]. split; [split; [vm_compute; discriminate|intros (A & _); discriminate]|].
    intros (r & E & _ & V). destruct Hx as [<-|[<-|[<-|[]]]]; vm_compute in E; injection E as <-; vm_compute in V; discriminate.
Qed.

(** ** Assumptions (each must print "Closed under the global context") *)

Print Assumptions C91_remainder.
Print Assumptions C91_quotient.
Print Assumptions C91_attained.
