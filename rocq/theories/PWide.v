(** * Proofs about MCore.v: the wide view, shifts, rotations, comparison *)

Require Import ZArith List Bool Lia.
From Verif Require Import Prim Spec Facts MAdd PAdd PAddS PMul MShift PShift PRot MCore PCore PBits.
Import ListNotations.
Local Open Scope Z_scope.

Lemma list_ind2 : forall (A : Type) (P : list A -> Prop),
  P [] -> (forall a, P [a]) -> (forall a b l, P l -> P (a :: b :: l)) -> forall l, P l.
Proof.
  intros A P H0 H1 H2. fix IH 1. intros [|a [|b l]]; [exact H0|apply H1|apply H2, IH].
Qed.

Section P.
Context {c : Cfg}.
Hypothesis HV : Valid.
Local Notation W0 := (W_nonneg HV).
Local Notation HW := (HW1 HV).

Lemma W2 : 0 <= 2 * W. Proof. pose proof HW. lia. Qed.
Lemma W2' : 1 <= 2 * W. Proof. pose proof HW. lia. Qed.
Lemma W2_pow : exists k, 1 <= k <= 7 /\ 2 * W = 2 ^ k.
Proof. destruct (W_cases HV) as [-> | ->]; [exists 6|exists 7]; cbn; lia. Qed.
Lemma pow_2W : 2 ^ (2 * W) = 2 ^ W * 2 ^ W.
Proof. rewrite <- Z.pow_add_r by apply W0. f_equal. lia. Qed.

Lemma wide_digits : forall l, digits W l -> digits (2 * W) (to_wide l).
Proof.
  induction l using list_ind2; intros Hd; cbn [to_wide]; try apply digits_nil.
  apply digits_inv in Hd. destruct Hd as (Ha & Hd). apply digits_inv in Hd. destruct Hd as (Hb & Hd).
  apply digits_cons; auto. rewrite pow_2W. nia.
Qed.
Lemma wide_lval : forall l k, length l = (2 * k)%nat -> lval (2 * W) (to_wide l) = lval W l.
Proof.
  induction l using list_ind2; intros k HL; cbn [to_wide lval]; auto.
  - cbn [length] in HL. lia.
  - cbn [length] in HL. rewrite (IHl (k - 1)%nat) by lia. rewrite pow_2W. ring.
Qed.
Lemma wide_length : forall l k, length l = (2 * k)%nat -> length (to_wide l) = k.
Proof.
  induction l using list_ind2; intros k HL; cbn [to_wide length] in *; try lia.
  rewrite (IHl (k - 1)%nat) by lia. lia.
Qed.
Lemma from_wide_lenc : forall k v, from_wide (lenc (2 * W) k v) = lenc W (2 * k) v.
Proof.
  induction k; intros v; auto. replace (2 * S k)%nat with (S (S (2 * k))) by lia.
  cbn [lenc from_wide]. rewrite IHk, pow_2W. pose proof (pow2_pos W W0).
  rewrite Z.rem_mul_r by lia. f_equal; [|f_equal].
  - rewrite Z.mul_comm, Z.mod_add by lia. apply Z.mod_mod. lia.
  - rewrite Z.add_comm, Z.mul_comm, Z.div_add_l by lia. rewrite (Z.div_small (v mod 2 ^ W)) by (apply Z.mod_pos_bound; lia). lia.
  - rewrite Z.div_div by lia. reflexivity.
Qed.

Lemma WIDE_N : N = (2 * WIDE)%nat.
Proof. destruct (N_even HV) as (k & Hk & E). unfold WIDE. rewrite E. rewrite Nat.mul_comm, Nat.div_mul by lia. lia. Qed.
Lemma WIDE_ge2 : (2 <= WIDE)%nat.
Proof. pose proof WIDE_N. pose proof (N_ge4 HV). lia. Qed.
Lemma WIDE_BITS : 2 * W * Z.of_nat WIDE = BITS.
Proof. unfold BITS. rewrite WIDE_N at 1. lia. Qed.

Section X.
  Variable x : list Z.
  Hypothesis Hx : wf x.
  Lemma wx_len : length (to_wide x) = WIDE.
  Proof. apply wide_length. destruct Hx as (-> & _). apply WIDE_N. Qed.
  Lemma wx_dig : digits (2 * W) (to_wide x).
  Proof. apply wide_digits. apply Hx. Qed.
  Lemma wx_val : lval (2 * W) (to_wide x) = uval x.
  Proof. apply wide_lval with WIDE. destruct Hx as (-> & _). apply WIDE_N. Qed.

  (** Value of either type as a function of the wide elements. *)
  Lemma val_wide : forall sg, val sg x =
    pv (2 * W) (to_wide x) (WIDE - 1) + 2 ^ (2 * W * Z.of_nat (WIDE - 1)) * as_hi sg (nth (WIDE - 1) (to_wide x) 0).
  Proof.
    intros sg. pose proof WIDE_ge2. pose proof wx_len. pose proof wx_dig. pose proof wx_val. destruct sg; cbn [as_hi val].
    - rewrite <- top_signed by (auto using W2'; lia). replace (S (WIDE - 1)) with WIDE by lia.
      rewrite WIDE_BITS, wx_val. reflexivity.
    - rewrite <- wx_val. rewrite (lval_last (2 * W) _ (WIDE - 1)) by (try apply W2; lia). lia.
  Qed.
End X.

Lemma from_ne_wide_lenc : forall v, from_ne_wide (lenc (2 * W) WIDE v) = Ok (ofZ v).
Proof.
  intros. unfold from_ne_wide. rewrite (mk_ok HV), from_wide_lenc, <- WIDE_N. reflexivity.
Qed.

(** ** Shifts and rotations *)

Lemma urem_tbits : forall r, urem r tbits = Ok (r mod BITS).
Proof.
  intros. unfold urem. rewrite tbits_BITS. pose proof (BITS_pos HV). destruct (Z.eqb_spec BITS 0); [lia|auto].
Qed.
Lemma mod_BITS : forall r, 0 <= r mod BITS < BITS.
Proof. intros. apply Z.mod_pos_bound. pose proof (BITS_pos HV). lia. Qed.

Lemma wrapping_shl_ok : forall x r, wf x -> wrapping_shl x r = Ok (ofZ (uval x * 2 ^ (r mod BITS))).
Proof.
  intros x r Hx. unfold wrapping_shl. rewrite urem_tbits. cbn [bind]. pose proof (mod_BITS r).
  pose proof WIDE_ge2. pose proof WIDE_BITS.
  rewrite (shl_array_ok (2 * W) W2_pow) by (try apply wx_dig; auto; rewrite wx_len by auto; lia).
  cbn [bind]. rewrite wx_len, wx_val by auto. apply from_ne_wide_lenc.
Qed.

Lemma wrapping_shr_ok : forall sg x r, wf x -> wrapping_shr sg x r = Ok (ofZ (val sg x / 2 ^ (r mod BITS))).
Proof.
  intros sg x r Hx. unfold wrapping_shr. rewrite urem_tbits. cbn [bind]. pose proof (mod_BITS r).
  pose proof WIDE_ge2. pose proof WIDE_BITS as WB.
  rewrite (shr_array_ok (2 * W) W2_pow) by (try apply wx_dig; auto; rewrite wx_len by auto; lia).
  cbn [bind]. rewrite wx_len by auto. rewrite from_ne_wide_lenc. do 3 f_equal.
  rewrite WB. unfold sgn_of. rewrite wx_len by auto.
  rewrite (val_wide x Hx sg). rewrite wx_val by auto. rewrite <- (wx_val x Hx).
  rewrite (lval_last (2 * W) _ (WIDE - 1)) by (try apply W2; rewrite wx_len by auto; lia).
  set (t := nth (WIDE - 1) (to_wide x) 0). set (p := pv (2 * W) (to_wide x) (WIDE - 1)).
  assert (Dt : 0 <= t < 2 ^ (2 * W)) by (apply digits_nth; [apply W2|apply wx_dig; auto]).
  assert (HP : 2 ^ BITS = 2 ^ (2 * W) * 2 ^ (2 * W * Z.of_nat (WIDE - 1))).
  { rewrite <- pow2_S by apply W2. f_equal. replace (S (WIDE - 1)) with WIDE by lia. auto. }
  rewrite HP. destruct sg; cbn [andb as_hi]; [|lia]. unfold scast. rewrite Z.mod_small by auto.
  destruct (Z.ltb_spec t (2 ^ (2 * W - 1))).
  - destruct (Z.ltb_spec t 0); lia.
  - destruct (Z.ltb_spec (t - 2 ^ (2 * W)) 0); lia.
Qed.

Lemma rotate_left_ok : forall x n, wf x -> 0 <= n ->
  rotate_left x n = Ok (ofZ (rotv (2 ^ BITS) (uval x) (n mod BITS))).
Proof.
  intros x n Hx Hn. unfold rotate_left. pose proof WIDE_ge2. pose proof WIDE_BITS as WB. pose proof (BITS_lt HV).
  rewrite (rotl_array_ok (2 * W) W2_pow) by (try apply wx_dig; auto; rewrite wx_len by auto; lia).
  cbn [bind]. rewrite wx_len, wx_val by auto. rewrite WB. apply from_ne_wide_lenc.
Qed.
Lemma rotate_right_ok : forall x n, wf x -> 0 <= n ->
  rotate_right x n = Ok (ofZ (rotv (2 ^ BITS) (uval x) ((- n) mod BITS))).
Proof.
  intros x n Hx Hn. unfold rotate_right. pose proof WIDE_ge2. pose proof WIDE_BITS as WB. pose proof (BITS_lt HV).
  rewrite (rotr_array_ok (2 * W) W2_pow) by (try apply wx_dig; auto; rewrite wx_len by auto; lia).
  cbn [bind]. rewrite wx_len, wx_val by auto. rewrite WB. apply from_ne_wide_lenc.
Qed.

(** A rotation moves bit [(i - s) mod b] to position [i]. *)
Lemma rotv_bits : forall b v s i, 0 < b -> 0 <= v < 2 ^ b -> 0 <= s < b -> 0 <= i < b ->
  Z.testbit (rotv (2 ^ b) v s) i = Z.testbit v ((i - s) mod b).
Proof.
  intros b v s i Hb Hv Hs Hi. unfold rotv. pose proof (pow2_pos b ltac:(lia)).
  assert (Es : 2 ^ b = 2 ^ s * 2 ^ (b - s)) by (rewrite <- Z.pow_add_r by lia; f_equal; lia).
  pose proof (pow2_pos s ltac:(lia)). pose proof (pow2_pos (b - s) ltac:(lia)).
  assert (E1 : (v * 2 ^ s) mod 2 ^ b = (v mod 2 ^ (b - s)) * 2 ^ s).
  { rewrite Es, Z.mul_comm. rewrite Z.mul_mod_distr_l by lia. lia. }
  assert (E2 : v * 2 ^ s / 2 ^ b = v / 2 ^ (b - s)).
  { rewrite Es. rewrite (Z.mul_comm v). rewrite Z.div_mul_cancel_l by lia. auto. }
  rewrite E1, E2.
  assert (Hh : 0 <= v / 2 ^ (b - s) < 2 ^ s).
  { split; [apply Z.div_pos; lia|]. apply Z.div_lt_upper_bound; lia. }
  rewrite Z.add_comm, (Z.mul_comm _ (2 ^ s)). rewrite testbit_split by lia.
  destruct (Z.ltb_spec i s).
  - rewrite Z.div_pow2_bits by lia. f_equal.
    rewrite <- (Z.mod_add _ 1) by lia. rewrite Z.mod_small by lia. lia.
  - rewrite Z.mod_pow2_bits_low by lia. f_equal. rewrite Z.mod_small by lia. auto.
Qed.
Lemma rotv_range : forall b v s, 0 <= b -> 0 <= v < 2 ^ b -> 0 <= s <= b -> 0 <= rotv (2 ^ b) v s < 2 ^ b.
Proof.
  intros b v s Hb Hv Hs. unfold rotv. pose proof (pow2_pos b Hb).
  assert (Es : 2 ^ b = 2 ^ s * 2 ^ (b - s)) by (rewrite <- Z.pow_add_r by lia; f_equal; lia).
  pose proof (pow2_pos s ltac:(lia)). pose proof (pow2_pos (b - s) ltac:(lia)).
  assert (E1 : (v * 2 ^ s) mod 2 ^ b = (v mod 2 ^ (b - s)) * 2 ^ s).
  { rewrite Es, Z.mul_comm. rewrite Z.mul_mod_distr_l by lia. lia. }
  assert (E2 : v * 2 ^ s / 2 ^ b = v / 2 ^ (b - s)).
  { rewrite Es. rewrite (Z.mul_comm v). rewrite Z.div_mul_cancel_l by lia. auto. }
  rewrite E1, E2.
  assert (Hh : 0 <= v / 2 ^ (b - s) < 2 ^ s).
  { split; [apply Z.div_pos; lia|]. apply Z.div_lt_upper_bound; lia. }
  pose proof (Z.mod_pos_bound v (2 ^ (b - s)) ltac:(lia)). nia.
Qed.

(** ** Equality and order *)

Lemma eq_branchless_ok : forall x y, wf x -> wf y -> eq_branchless x y = Ok (uval x =? uval y).
Proof.
  intros x y Hx Hy. unfold eq_branchless.
  match goal with |- for_range ?lo ?hi ?bd ?st = _ =>
    destruct (for_range_inv _ (fun k f => f = (pv (2 * W) (to_wide x) k =? pv (2 * W) (to_wide y) k)) bd lo hi st)
      as (r & E & HI) end.
  - lia.
  - intros j f Hj ->. pose proof (wx_len x Hx). pose proof (wx_len y Hy).
    rewrite !get_ok by lia. cbn [bind]. eexists. split; [reflexivity|].
    rewrite !pv_S by (try apply W2; lia).
    pose proof (digits_nth _ _ j W2 (wx_dig x Hx)). pose proof (digits_nth _ _ j W2 (wx_dig y Hy)).
    pose proof (pv_range _ _ j W2 (wx_dig x Hx) ltac:(lia)). pose proof (pv_range _ _ j W2 (wx_dig y Hy) ltac:(lia)).
    set (P := 2 ^ (2 * W * Z.of_nat j)) in *.
    destruct (Z.eqb_spec (pv (2 * W) (to_wide x) j) (pv (2 * W) (to_wide y) j)) as [Ep|Ep];
      destruct (Z.eqb_spec (nth j (to_wide x) 0) (nth j (to_wide y) 0)) as [En|En]; cbn [andb];
      symmetry; [apply Z.eqb_eq|apply Z.eqb_neq|apply Z.eqb_neq|apply Z.eqb_neq].
    + rewrite Ep, En. auto.
    + rewrite Ep. nia.
    + rewrite En. nia.
    + intros A. apply Ep. 
      assert (M : forall a n, 0 <= a < P -> (a + n * P) mod P = a)
        by (intros; rewrite Z.mod_add by lia; apply Z.mod_small; lia).
      rewrite <- (M _ (nth j (to_wide x) 0) H3), A. apply M. auto.
  - rewrite !pv_0. reflexivity.
  - rewrite E, HI. rewrite !pv_all by (apply wx_len; auto). rewrite !wx_val by auto. reflexivity.
Qed.

Lemma eq_branched_ok : forall x y, wf x -> wf y -> eq_branched x y = Ok (uval x =? uval y).
Proof.
  intros x y Hx Hy. unfold eq_branched.
  pose proof (wx_len x Hx) as Lx. pose proof (wx_len y Hy) as Ly.
  match goal with |- (let* _ := while_m ?fu ?cd ?bd ?st in _) = _ =>
    destruct (while_m_inv _ (fun t : bool * nat => (snd t <= WIDE)%nat /\
      if fst t then firstn (snd t) (to_wide x) = firstn (snd t) (to_wide y) else to_wide x <> to_wide y)
      (fun t => WIDE - snd t)%nat cd bd fu st)
      as ((r & i) & E & HI & HC) end.
  - intros (f & i) (Hi & HI) HC. cbn [fst snd] in *. apply andb_true_iff in HC. destruct HC as (C1 & ->).
    apply Nat.ltb_lt in C1. rewrite !get_ok by lia. cbn [bind andb]. eexists. split; [reflexivity|]. cbn [fst snd].
    split; [|lia]. split; [lia|].
    destruct (Z.eqb_spec (nth i (to_wide x) 0) (nth i (to_wide y) 0)) as [En|En].
    + rewrite !(firstn_S_nth _ _ _ 0) by lia. rewrite HI, En. auto.
    + intros A. apply En. rewrite A. auto.
  - cbn. split; [lia|auto].
  - cbn. lia.
  - rewrite E. cbn [bind fst snd] in *. f_equal. destruct HI as (Hi & HI).
    apply andb_false_iff in HC. destruct r; symmetry.
    + destruct HC as [C|C]; [|discriminate]. apply Nat.ltb_ge in C. assert (i = WIDE) by lia. subst i.
      apply Z.eqb_eq. rewrite !firstn_all2 in HI by lia. rewrite <- (wx_val x Hx), <- (wx_val y Hy), HI. auto.
    + apply Z.eqb_neq. intros A. apply HI. rewrite <- (wx_val x Hx), <- (wx_val y Hy) in A.
      apply (lval_inj (2 * W)); auto using W2, wx_dig. lia.
Qed.

Lemma eq_const_ok : forall x y, wf x -> wf y -> eq_const x y = Ok (uval x =? uval y).
Proof.
  intros. unfold eq_const. destruct (_ <? _); [apply eq_branchless_ok|apply eq_branched_ok]; auto.
Qed.
Lemma derived_eq_ok : forall x y, wf x -> wf y -> derived_eq x y = (uval x =? uval y).
Proof.
  intros x y Hx Hy. unfold derived_eq. destruct (list_eq_dec Z.eq_dec x y) as [->|Hn].
  - symmetry. apply Z.eqb_refl.
  - symmetry. apply Z.eqb_neq. intros E. apply Hn. apply (uval_inj HV); auto.
Qed.
Lemma uval_eqb_val : forall sg x y, wf x -> wf y -> (uval x =? uval y) = (val sg x =? val sg y).
Proof.
  intros sg x y Hx Hy. destruct (Z.eqb_spec (uval x) (uval y)) as [E|E]; symmetry.
  - apply (uval_inj HV) in E; auto. subst. apply Z.eqb_refl.
  - apply Z.eqb_neq. intros A. apply (val_inj HV) in A; auto. subst. auto.
Qed.

(** Comparing two digit lists that agree above position [i]. *)
Lemma cmp_at : forall w l1 l2 i, 1 <= w -> digits w l1 -> digits w l2 -> length l1 = length l2 ->
  (i < length l1)%nat -> skipn (S i) l1 = skipn (S i) l2 -> nth i l1 0 <> nth i l2 0 ->
  (lval w l1 <? lval w l2) = (nth i l1 0 <? nth i l2 0) /\ lval w l1 <> lval w l2.
Proof.
  intros w l1 l2 i Hw H1 H2 HL Hi Hs Hn.
  rewrite (lval_split w l1 (S i)), (lval_split w l2 (S i)) by lia. rewrite Hs.
  change (lval w (firstn (S i) l1)) with (pv w l1 (S i)). change (lval w (firstn (S i) l2)) with (pv w l2 (S i)).
  rewrite !pv_S by lia.
  pose proof (pv_range w l1 i ltac:(lia) H1 ltac:(lia)). pose proof (pv_range w l2 i ltac:(lia) H2 ltac:(lia)).
  set (P := 2 ^ (w * Z.of_nat i)) in *. set (R := 2 ^ (w * Z.of_nat (S i)) * lval w (skipn (S i) l2)).
  split; [|nia].
  destruct (Z.ltb_spec (nth i l1 0) (nth i l2 0)); [apply Z.ltb_lt|apply Z.ltb_ge]; nia.
Qed.

Lemma skipn_S_eq : forall (l1 l2 : list Z) i, length l1 = length l2 -> (i < length l1)%nat ->
  skipn (S i) l1 = skipn (S i) l2 -> nth i l1 0 = nth i l2 0 -> skipn i l1 = skipn i l2.
Proof.
  intros l1 l2 i HL Hi Hs Hn. rewrite (skipn_S_nth l1), (skipn_S_nth l2) by lia. congruence.
Qed.

Section Ord.
  Variables (x y : list Z).
  Hypothesis Hx : wf x.
  Hypothesis Hy : wf y.
  Variable sg : bool.
  Local Notation lx := (to_wide x).
  Local Notation ly := (to_wide y).

  (** Order of the two values when the wide elements above [i] agree and
      those at [i] differ. *)
  Lemma val_cmp_top :
    let a := as_hi sg (nth (WIDE - 1) lx 0) in let b := as_hi sg (nth (WIDE - 1) ly 0) in
    a <> b -> (val sg x <? val sg y) = (a <? b) /\ val sg x <> val sg y.
  Proof.
    intros a b Hn. rewrite (val_wide x Hx), (val_wide y Hy). fold a b.
    pose proof WIDE_ge2. pose proof (wx_len x Hx). pose proof (wx_len y Hy).
    pose proof (pv_range _ _ (WIDE - 1) W2 (wx_dig x Hx) ltac:(lia)).
    pose proof (pv_range _ _ (WIDE - 1) W2 (wx_dig y Hy) ltac:(lia)).
    split; [|nia].
    destruct (Z.ltb_spec a b); [apply Z.ltb_lt|apply Z.ltb_ge]; nia.
  Qed.

  Lemma as_hi_inj : forall a b, 0 <= a < 2 ^ (2 * W) -> 0 <= b < 2 ^ (2 * W) -> as_hi sg a = as_hi sg b -> a = b.
  Proof.
    intros a b Ha Hb. unfold as_hi. destruct sg; auto. unfold scast. rewrite !Z.mod_small by auto.
    destruct (_ <? _), (_ <? _); lia.
  Qed.

  Lemma val_cmp_low : forall i, (i < WIDE - 1)%nat -> skipn (S i) lx = skipn (S i) ly ->
    nth i lx 0 <> nth i ly 0 ->
    (val sg x <? val sg y) = (nth i lx 0 <? nth i ly 0) /\ val sg x <> val sg y.
  Proof.
    intros i Hi Hs Hn. pose proof WIDE_ge2. pose proof (wx_len x Hx). pose proof (wx_len y Hy).
    destruct (cmp_at (2 * W) lx ly i) as (A & B); auto using W2', wx_dig; try lia.
    rewrite !wx_val in * by auto.
    (* both have the same top element, hence the same sign adjustment *)
    assert (T : nth (WIDE - 1) lx 0 = nth (WIDE - 1) ly 0).
    { replace (WIDE - 1)%nat with (S i + (WIDE - 1 - S i))%nat by lia. rewrite <- !nth_skipn_add, Hs. auto. }
    pose proof (val_wide x Hx sg) as Vx. pose proof (val_wide y Hy sg) as Vy.
    pose proof (val_wide x Hx false) as Ux. pose proof (val_wide y Hy false) as Uy.
    cbn [as_hi val] in Ux, Uy. rewrite T in *.
    set (D := 2 ^ (2 * W * Z.of_nat (WIDE - 1)) * as_hi sg (nth (WIDE - 1) ly 0)) in *.
    set (D' := 2 ^ (2 * W * Z.of_nat (WIDE - 1)) * nth (WIDE - 1) ly 0) in *.
    split; [rewrite <- A|lia].
    destruct (Z.ltb_spec (uval x) (uval y)); [apply Z.ltb_lt|apply Z.ltb_ge]; lia.
  Qed.

  Lemma ord_macro_ok : forall op2 e,
    (forall a b, a <> b -> op2 a b = (a <? b)) -> (forall a, op2 a a = e) ->
    ord_macro sg Z.ltb op2 x y = Ok (if val sg x =? val sg y then e else val sg x <? val sg y).
  Proof.
    intros op2 e Hop He. unfold ord_macro.
    pose proof WIDE_ge2 as Hw. pose proof (wx_len x Hx) as Lx. pose proof (wx_len y Hy) as Ly.
    rewrite !get_ok by lia. cbn [bind].
    set (a := nth (WIDE - 1) lx 0). set (b := nth (WIDE - 1) ly 0).
    match goal with |- (let* _ := while_m ?fu ?cd ?bd ?st in _) = _ =>
      destruct (while_m_inv _ (fun t : bool * bool * nat => let '(o, q, i) := t in (i <= WIDE - 1)%nat /\
        if q then skipn i lx = skipn i ly /\ o = (if (i =? 0)%nat then e else false)
        else o = (val sg x <? val sg y) /\ val sg x <> val sg y) (fun t => snd t) cd bd fu st)
      as (((r & q) & i) & E & HI & HC) end.
    - intros ((o & q) & i) (Hi & HI) HC. apply andb_true_iff in HC. destruct HC as (HC & ->).
      apply andb_true_iff in HC. destruct HC as (C1 & C2). apply Nat.ltb_lt in C1.
      destruct HI as (HI & _). rewrite !get_ok by lia. cbn [bind]. eexists. split; [reflexivity|]. cbn [snd].
      split; [|lia]. split; [lia|]. set (k := (i - 1)%nat) in *. replace i with (S k) in * by lia.
      destruct (Z.eqb_spec (nth k lx 0) (nth k ly 0)) as [En|En].
      + split; [apply skipn_S_eq; auto; lia|]. rewrite En. destruct (Nat.eqb_spec k 0); auto. apply Z.ltb_irrefl.
      + destruct (val_cmp_low k) as (A & B); auto; try lia. split; auto. rewrite A.
        destruct (_ =? _)%nat; auto.
    - split; [lia|]. fold a b. destruct (Z.eqb_spec (as_hi sg a) (as_hi sg b)) as [En|En].
      + assert (a = b).
        { apply as_hi_inj; auto; apply digits_nth; auto using W2, wx_dig. }
        split.
        * apply skipn_S_eq; auto; try lia. rewrite !skipn_all2 by lia. auto.
        * rewrite En. destruct (Nat.eqb_spec (WIDE - 1) 0); [lia|]. apply Z.ltb_irrefl.
      + destruct val_cmp_top as (A & B); auto.
    - cbn [snd]. lia.
    - rewrite E. cbn [bind]. f_equal. destruct HI as (Hi & HI). destruct q.
      + destruct HI as (HI & Ho). destruct (Nat.eqb_spec i 0) as [->|Hi0].
        * cbn [skipn] in HI. assert (val sg x = val sg y).
          { f_equal. apply (uval_inj HV); auto. rewrite <- (wx_val x Hx), <- (wx_val y Hy), HI. auto. }
          rewrite H, Z.eqb_refl. auto.
        * subst r. rewrite andb_true_r in HC. replace (0 <? i)%nat with true in HC by (symmetry; apply Nat.ltb_lt; lia).
          discriminate.
      + destruct HI as (-> & HI). destruct (Z.eqb_spec (val sg x) (val sg y)); [lia|auto].
  Qed.

  Lemma lt_const_ok : lt_const sg x y = Ok (val sg x <? val sg y).
  Proof.
    unfold lt_const. rewrite (ord_macro_ok Z.ltb false) by (auto using Z.ltb_irrefl). f_equal.
    destruct (Z.eqb_spec (val sg x) (val sg y)) as [->|]; auto. symmetry. apply Z.ltb_irrefl.
  Qed.
  Lemma le_const_ok : le_const sg x y = Ok (val sg x <=? val sg y).
  Proof.
    unfold le_const. rewrite (ord_macro_ok Z.leb true).
    - f_equal. destruct (Z.eqb_spec (val sg x) (val sg y)) as [->|]; [symmetry; apply Z.leb_refl|].
      destruct (Z.ltb_spec (val sg x) (val sg y)), (Z.leb_spec (val sg x) (val sg y)); auto; lia.
    - intros a b Hn. destruct (Z.ltb_spec a b), (Z.leb_spec a b); auto; lia.
    - intros. apply Z.leb_refl.
  Qed.
  Lemma gt_const_ok : gt_const sg x y = Ok (val sg y <? val sg x).
  Proof. unfold gt_const. rewrite le_const_ok. cbn [bind]. f_equal. symmetry. apply Z.ltb_antisym. Qed.
  Lemma ge_const_ok : ge_const sg x y = Ok (val sg y <=? val sg x).
  Proof. unfold ge_const. rewrite lt_const_ok. cbn [bind]. f_equal. symmetry. apply Z.leb_antisym. Qed.

  Lemma cmp_const_ok : cmp_const sg x y = Ok (val sg x ?= val sg y).
  Proof.
    unfold cmp_const.
    pose proof WIDE_ge2 as Hw. pose proof (wx_len x Hx) as Lx. pose proof (wx_len y Hy) as Ly.
    rewrite !get_ok by lia. cbn [bind].
    set (a := nth (WIDE - 1) lx 0). set (b := nth (WIDE - 1) ly 0).
    assert (Gt : forall u v s t, (u <? v) = (s <? t) -> u <> v -> s <> t -> (v <? u) = (t <? s)).
    { intros u v s t. destruct (Z.ltb_spec u v), (Z.ltb_spec s t), (Z.ltb_spec v u), (Z.ltb_spec t s); intros; auto; try lia; discriminate. }
    match goal with |- (let* _ := while_m ?fu ?cd ?bd ?st in _) = _ =>
      destruct (while_m_inv _ (fun t : bool * bool * bool * nat => let '(q, l, g, i) := t in (i <= WIDE - 1)%nat /\
        if q then skipn i lx = skipn i ly /\ l = false /\ g = false
        else l = (val sg x <? val sg y) /\ g = (val sg y <? val sg x) /\ val sg x <> val sg y) (fun t => snd t) cd bd fu st)
      as ((((q & l) & g) & i) & E & HI & HC) end.
    - intros (((q & l) & g) & i) (Hi & HI) HC. apply andb_true_iff in HC. destruct HC as (HC & ->).
      apply andb_true_iff in HC. destruct HC as (HC & C2).
      apply andb_true_iff in HC. destruct HC as (C1 & C3). apply Nat.ltb_lt in C1.
      destruct HI as (HI & _). rewrite !get_ok by lia. cbn [bind]. eexists. split; [reflexivity|]. cbn [snd].
      split; [|lia]. split; [lia|]. set (k := (i - 1)%nat) in *. replace i with (S k) in * by lia.
      destruct (Z.eqb_spec (nth k lx 0) (nth k ly 0)) as [En|En].
      + split; [apply skipn_S_eq; auto; lia|]. rewrite En. split; apply Z.ltb_irrefl.
      + destruct (val_cmp_low k ltac:(lia) HI En) as (A & B). split; [auto|split; [symmetry; apply Gt; auto|auto]].
    - split; [lia|]. fold a b. destruct (Z.eqb_spec (as_hi sg a) (as_hi sg b)) as [En|En].
      + assert (a = b).
        { apply as_hi_inj; auto; apply digits_nth; auto using W2, wx_dig. }
        split.
        * apply skipn_S_eq; auto; try lia. rewrite !skipn_all2 by lia. auto.
        * rewrite En. split; apply Z.ltb_irrefl.
      + destruct (val_cmp_top En) as (A & B). split; [auto|split; [symmetry; apply Gt; auto|auto]].
    - cbn [snd]. lia.
    - rewrite E. cbn [bind]. f_equal. destruct HI as (Hi & HI). destruct q.
      + destruct HI as (HI & -> & ->). destruct (Nat.eqb_spec i 0) as [->|Hi0].
        * cbn [skipn] in HI. assert (A : val sg x = val sg y).
          { f_equal. apply (uval_inj HV); auto. rewrite <- (wx_val x Hx), <- (wx_val y Hy), HI. auto. }
          rewrite A, Z.compare_refl. auto.
        * replace (0 <? i)%nat with true in HC by (symmetry; apply Nat.ltb_lt; lia). discriminate.
      + destruct HI as (-> & -> & HI).
        destruct (Z.ltb_spec (val sg x) (val sg y)); [symmetry; apply Z.compare_lt_iff; auto|].
        destruct (Z.ltb_spec (val sg y) (val sg x)); [symmetry; apply Z.compare_gt_iff; auto|lia].
  Qed.
End Ord.
End P.
