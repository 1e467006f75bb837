(** * Proofs about rotation (MShift.v) *)

Require Import ZArith List Bool Lia.
From Verif Require Import Prim Spec Facts MAdd PAdd PMul MShift PShift.
Import ListNotations.
Local Open Scope Z_scope.

Lemma nth_skipn_add : forall (l : list Z) k i d, nth i (skipn k l) d = nth (k + i) l d.
Proof. induction l; intros [|k] i d; cbn; auto. destruct i; auto. Qed.

Lemma upd_id : forall (l : list Z) i, (i < length l)%nat -> upd l i (nth i l 0) = l.
Proof. induction l; intros i H; cbn [length] in H; [lia|]. destruct i; cbn; auto. f_equal. apply IHl. lia. Qed.

Section W.
Variable w : Z.
Hypothesis Hw : exists k, 1 <= k <= 7 /\ w = 2 ^ k.

Local Notation B := (2 ^ w).
Local Notation pw n := (2 ^ (w * Z.of_nat n)).
Local Notation w0 := (w0 w Hw).
Local Notation Bp := (Bp w Hw).
Local Notation pwp := (pwp w Hw).

(** The rotated value: what is shifted out at the top comes back at the bottom. *)
Definition rotv (m : Z) (v s : Z) : Z := (v * 2 ^ s) mod m + (v * 2 ^ s) / m.

Lemma rotv_intro : forall m v s lo hi, 0 <= lo < m -> v * 2 ^ s = lo + m * hi -> rotv m v s = lo + hi.
Proof.
  intros m v s lo hi Hlo E. unfold rotv. rewrite E. f_equal.
  - symmetry. apply Z.mod_unique with (q := hi); lia.
  - symmetry. apply Z.div_unique with (r := lo); lia.
Qed.

Section C.
Context {c : Cfg}.

(** First phase: elements that stay below the top; [i] elements done. *)
Definition rot1_inv (x : list Z) (l : nat) (b : Z) (i : nat) (s : list Z * Z) : Prop :=
  shl_inv w x l b (i + l) s /\
  (forall k, (k < l)%nat -> nth k (fst s) 0 = 0) /\
  (exists a, nth l (fst s) 0 = a * 2 ^ b).

(** Second phase: [q] elements wrapped around to the bottom. *)
Definition rot2_inv (x r1 : list Z) (cy1 : Z) (l : nat) (b : Z) (q : nat) (s : list Z * Z) : Prop :=
  length (fst s) = length x /\ digits w (fst s) /\ 0 <= snd s < 2 ^ b /\
  (forall k, (q <= k < l)%nat -> nth k (fst s) 0 = 0) /\
  nth l (fst s) 0 = nth l r1 0 /\
  lval w (fst s) + snd s * pw q
    = lval w r1 + cy1 + pv w (skipn (length x - l) x) q * 2 ^ b.

Lemma rot1_step : forall x l b i r cy v cy', 0 <= b -> digits w x ->
  rot1_inv x l b i (r, cy) -> (i + l < length x)%nat ->
  0 <= v < B -> 0 <= cy' < 2 ^ b -> v + B * cy' = nth i x 0 * 2 ^ b + cy ->
  (i = 0%nat -> exists a, v = a * 2 ^ b) ->
  rot1_inv x l b (S i) (upd r (i + l) v, cy').
Proof.
  intros x l b i r cy v cy' Hb Hx (I & Hz & Ha) Hi Hv Hcy Ev Hfirst.
  pose proof I as (HL & _). cbn [fst] in *.
  split; [|split]; cbn [fst].
  - replace (S i + l)%nat with (S (i + l)) by lia.
    apply (shl_step w Hw _ _ _ _ _ cy); auto; try lia.
    replace (i + l - l)%nat with i by lia. auto.
  - intros k Hk. rewrite nth_upd_other by lia. auto.
  - destruct (Nat.eq_dec i 0) as [->|].
    + cbn [plus]. rewrite nth_upd_same by (cbn in Hi; lia). auto.
    + rewrite nth_upd_other by lia. auto.
Qed.

Lemma rot2_step : forall x r1 cy1 l b q r cy v cy', 0 <= b -> digits w x -> (l < length x)%nat ->
  rot2_inv x r1 cy1 l b q (r, cy) -> (q < l)%nat ->
  0 <= v < B -> 0 <= cy' < 2 ^ b -> v + B * cy' = nth (length x - l + q) x 0 * 2 ^ b + cy ->
  rot2_inv x r1 cy1 l b (S q) (upd r q v, cy').
Proof.
  intros x r1 cy1 l b q r cy v cy' Hb Hx Hl (HL & Hd & Hc & Hz & Hn & E) Hq Hv Hcy Ev.
  cbn [fst snd] in *. unfold rot2_inv. cbn [fst snd]. rewrite length_upd.
  split; auto. split; [apply digits_upd; auto|]. split; auto.
  split; [intros k Hk; rewrite nth_upd_other by lia; apply Hz; lia|].
  split; [rewrite nth_upd_other by lia; auto|].
  rewrite lval_upd by (auto using w0; lia). rewrite Hz by lia.
  rewrite pv_S by (rewrite ?skipn_length; auto using w0; lia).
  rewrite nth_skipn_add.
  rewrite pow2_S by apply w0.
  replace ((pv w (skipn (length x - l) x) q + nth (length x - l + q) x 0 * pw q) * 2 ^ b)
    with (pv w (skipn (length x - l) x) q * 2 ^ b + (nth (length x - l + q) x 0 * 2 ^ b) * pw q) by ring.
  replace (nth (length x - l + q) x 0 * 2 ^ b) with (v + B * cy' - cy) by lia.
  replace (pv w (skipn (length x - l) x) q * 2 ^ b) with (lval w r + cy * pw q - lval w r1 - cy1) by lia. ring.
Qed.

Lemma rot_final : forall x l b r1 cy1 r cy, 0 <= b < w -> digits w x -> (l < length x)%nat ->
  rot1_inv x l b (length x - l) (r1, cy1) ->
  rot2_inv x r1 cy1 l b l (r, cy) ->
  upd r l (Z.lor (nth l r 0) cy) = lenc w (length x) (rotv (pw (length x)) (lval w x) (w * Z.of_nat l + b)).
Proof.
  intros x l b r1 cy1 r cy Hb Hx Hl ((HL1 & Hd1 & Hc1 & Hz1 & E1) & _ & a & Ha) (HL & Hd & Hc & Hz & Hn & E).
  cbn [fst snd] in *. set (n := length x) in *.
  rewrite Hn, Ha, lor_add by lia.
  assert (EB : B = 2 ^ (w - b) * 2 ^ b) by (rewrite <- Z.pow_add_r by lia; f_equal; lia).
  assert (0 < 2 ^ b) by (apply pow2_pos; lia).
  assert (0 < 2 ^ (w - b)) by (apply pow2_pos; lia).
  pose proof (digits_nth w r1 l w0 Hd1) as Rl. rewrite Ha in Rl.
  assert (a < 2 ^ (w - b)) by nia. assert (0 <= a) by nia.
  assert (0 <= a * 2 ^ b + cy < B) by nia.
  replace (n - l + l)%nat with n in * by lia.
  pose proof (lval_range w r1 w0 Hd1) as R1. rewrite HL1 in R1. fold n in R1.
  rewrite (pv_all w (skipn (n - l) x) l) in E by (rewrite skipn_length; fold n; lia).
  rewrite (rotv_intro (pw n) (lval w x) _ (lval w r1) (cy1 + lval w (skipn (n - l) x) * 2 ^ b)); auto.
  - apply lenc_unique; auto using w0; [apply digits_upd; auto | rewrite length_upd; auto|].
    rewrite lval_upd by (auto using w0; lia). rewrite Hn, Ha. f_equal. lia.
  - rewrite Z.pow_add_r by (pose proof w0; lia).
    rewrite (lval_split w x (n - l)) by (auto using w0; fold n; lia).
    assert (Ep : pw n = pw (n - l) * pw l).
    { rewrite <- pow2_add_nat by apply w0. do 3 f_equal. lia. }
    replace (lval w r1) with (pv w x (n - l) * 2 ^ b * pw l - cy1 * pw n) by lia.
    rewrite Ep. ring.
Qed.

Lemma rot_step_val : forall xi b cy, 0 <= xi < B -> 0 <= b < w -> 0 <= cy < 2 ^ b ->
  let v := Z.lor (ucast w (xi * 2 ^ b)) cy in
  0 <= v < B /\ v + B * (xi / 2 ^ (w - b)) = xi * 2 ^ b + cy /\ 0 <= xi / 2 ^ (w - b) < 2 ^ b /\
  (cy = 0 -> exists a, v = a * 2 ^ b).
Proof.
  intros xi b cy Hx Hb Hc v.
  destruct (shl_elem w Hw xi b Hx Hb) as (L0 & C0 & E0 & a & A0 & Ra).
  assert (EB : B = 2 ^ (w - b) * 2 ^ b) by (rewrite <- Z.pow_add_r by lia; f_equal; lia).
  assert (0 < 2 ^ b) by (apply pow2_pos; lia).
  assert (Ev : v = ucast w (xi * 2 ^ b) + cy) by (unfold v; rewrite A0; apply lor_add; lia).
  rewrite Ev. repeat split; try lia.
  - rewrite A0. nia.
  - intros ->. exists a. lia.
Qed.

Lemma rotl_array_ok : forall x s, (2 <= length x)%nat -> digits w x ->
  Z.of_nat (length x) * w < 2 ^ 32 -> 0 <= s ->
  rotl_array w x s = Ok (lenc w (length x)
    (rotv (pw (length x)) (lval w x) (s mod (w * Z.of_nat (length x))))).
Proof.
  intros x s0 Hn Hx Htot Hs0. unfold rotl_array. pose proof (w_range w Hw) as Hwr. pose proof Bp as HB.
  replace (2 <=? length x)%nat with true by (symmetry; apply Nat.leb_le; auto). cbn [assert_ bind].
  unfold umul. rewrite uchk_ok by lia. cbn [bind]. unfold urem.
  destruct (Z.eqb_spec (Z.of_nat (length x) * w) 0); [lia|]. cbn [bind].
  replace (s0 mod (w * Z.of_nat (length x))) with (s0 mod (Z.of_nat (length x) * w)) by (f_equal; lia).
  set (s := s0 mod (Z.of_nat (length x) * w)).
  assert (Hs : 0 <= s < Z.of_nat (length x) * w) by (apply Z.mod_pos_bound; lia).
  destruct (amounts w Hw s _ Hs) as (Hl & Hb & Es & _).
  set (l := limb_amount w s) in *. set (b := bits_amount w s) in *.
  rewrite (inv_ok w Hw) by auto. cbn [bind].
  destruct (Nat.eqb_spec (length x) 2) as [E2|N2].
  - (* two elements *)
    destruct x as [|x0 [|x1 [|? ?]]]; try discriminate. clear Hn E2 n.
    apply digits_inv in Hx. destruct Hx as (H0 & Hx). apply digits_inv in Hx. destruct Hx as (H1 & _).
    cbn [get nth_error bind length] in *.
    destruct (shl_elem w Hw x0 b H0 Hb) as (L0 & C0 & E0 & a0 & A0 & R0).
    destruct (shl_elem w Hw x1 b H1 Hb) as (L1 & C1 & E1 & a1 & A1 & R1).
    assert (EB : B = 2 ^ (w - b) * 2 ^ b) by (rewrite <- Z.pow_add_r by lia; f_equal; lia).
    assert (Pb : 0 < 2 ^ b) by (apply pow2_pos; lia).
    assert (P2 : 2 ^ (w * Z.of_nat 2) = B * B) by apply (pw2 w Hw).
    set (u0 := ucast w (x0 * 2 ^ b)) in *. set (u1 := ucast w (x1 * 2 ^ b)) in *.
    set (c0 := x0 / 2 ^ (w - b)) in *. set (c1 := x1 / 2 ^ (w - b)) in *.
    assert (Hrot : rotv (B * B) (x0 + B * x1) s = if (l =? 0)%nat then u0 + c1 + B * (u1 + c0) else u1 + c0 + B * (u0 + c1)).
    { destruct (Nat.eqb_spec l 0).
      - rewrite (rotv_intro _ _ _ (u0 + B * (u1 + c0)) c1); [lia| |].
        + assert (u1 + c0 < B) by (rewrite A1; nia). nia.
        + replace s with b by lia.
          replace ((x0 + B * x1) * 2 ^ b) with (x0 * 2 ^ b + B * (x1 * 2 ^ b)) by ring.
          rewrite <- E0, <- E1. ring.
      - rewrite (rotv_intro _ _ _ (B * u0) (c0 + u1 + B * c1)); [lia|nia|].
        assert (El : l = 1%nat) by lia. rewrite El in Es. change (Z.of_nat 1) with 1 in Es.
        replace s with (w + b) by lia. rewrite Z.pow_add_r by lia.
        replace ((x0 + B * x1) * (B * 2 ^ b)) with (B * (x0 * 2 ^ b + B * (x1 * 2 ^ b))) by ring.
        rewrite <- E0, <- E1. ring. }
    rewrite P2. rewrite lval2.
    destruct (Nat.eqb_spec l 0) as [l0|ln0]; cbn [negb bind];
    (destruct (Z.eqb_spec b 0) as [b0|bn0]; cbn [bind];
     [ rewrite set_ok by (cbn; lia); cbn [bind]; rewrite set_ok by (cbn; lia); cbn [repeat upd];
       assert (U0 : u0 = x0) by (unfold u0; rewrite b0, Z.pow_0_r, Z.mul_1_r; apply ucast_small; auto);
       assert (U1 : u1 = x1) by (unfold u1; rewrite b0, Z.pow_0_r, Z.mul_1_r; apply ucast_small; auto);
       assert (V0 : c0 = 0) by (rewrite b0, Z.pow_0_r in C0; lia);
       assert (V1 : c1 = 0) by (rewrite b0, Z.pow_0_r in C1; lia);
       rewrite Hrot, U0, U1, V0, V1, !Z.add_0_r; f_equal;
       apply lenc_unique; auto using w0;
         [ repeat apply digits_cons; auto using digits_nil | rewrite (lval2 w); reflexivity ]
     | rewrite ?(ushl_ok' w Hw) by auto; rewrite ?(ushr_ok' w Hw) by lia; cbn [bind];
       rewrite ?(ushl_ok' w Hw) by auto; rewrite ?(ushr_ok' w Hw) by lia; cbn [bind];
       rewrite ?(ushl_ok' w Hw) by auto; rewrite ?(ushr_ok' w Hw) by lia; cbn [bind];
       rewrite ?(ushl_ok' w Hw) by auto; rewrite ?(ushr_ok' w Hw) by lia; cbn [bind];
       rewrite set_ok by (cbn; lia); cbn [bind]; rewrite set_ok by (cbn; lia); cbn [repeat upd];
       fold u0 u1 c0 c1; rewrite Hrot; f_equal;
       rewrite A0, A1, !lor_add by lia; rewrite <- A0, <- A1;
       apply lenc_unique; auto using w0;
         [ repeat apply digits_cons; auto using digits_nil; rewrite ?A0, ?A1; nia
         | rewrite (lval2 w); reflexivity ] ]).
  - assert (Hmod1 : forall i, (i + l < length x)%nat -> ((i + l) mod length x)%nat = (i + l)%nat)
      by (intros; apply Nat.mod_small; auto).
    assert (Hmod2 : forall i, (length x <= i + l < 2 * length x)%nat -> ((i + l) mod length x)%nat = (i + l - length x)%nat).
    { intros. symmetry. apply Nat.mod_unique with (q := 1%nat); lia. }
    assert (I0 : rot1_inv x l b 0 (repeat 0 (length x), 0)).
    { split; [|split].
      - apply shl_init; auto; lia.
      - intros; apply nth_repeat_0.
      - exists 0. cbn [fst]. rewrite nth_repeat_0. reflexivity. }
    assert (I12 : forall r1 cy1, rot1_inv x l b (length x - l) (r1, cy1) -> rot2_inv x r1 cy1 l b 0 (r1, cy1)).
    { intros r1 cy1 ((HL1 & Hd1 & Hc1 & _) & Hz1 & _). cbn [fst snd] in *.
      unfold rot2_inv. cbn [fst snd]. rewrite pv_0. repeat split; auto; try lia.
      - intros; apply Hz1; lia.
      - change (Z.of_nat 0) with 0. rewrite Z.mul_0_r, Z.pow_0_r. lia. }
    destruct (Z.eqb_spec b 0) as [b0|bn0]; cbn [negb].
    + (* whole elements only *)
      unfold for_range. rewrite Nat.sub_0_r.
      match goal with |- for_m (length x) ?lo ?bd ?st = _ =>
        replace (for_m (length x) lo bd st) with (for_m ((length x - l) + l) lo bd st) by (f_equal; lia) end.
      rewrite for_m_app.
      match goal with |- context [for_m (length x - l) ?lo ?bd ?st] =>
        destruct (for_m_inv _ (fun i r => rot1_inv x l b i (r, 0)) bd (length x - l) lo st) as (r1 & Er1 & J1) end; auto.
      { intros i r Hi I. pose proof I as ((HL & _) & _). cbn [fst] in HL.
        rewrite Hmod1 by lia. mstep. eexists; split; [reflexivity|].
        apply (rot1_step _ _ _ _ _ 0); auto; try lia.
        - apply digits_nth; auto using w0.
        - rewrite b0, Z.pow_0_r; lia.
        - intros _. exists (nth i x 0). rewrite b0, Z.pow_0_r; lia. }
      rewrite Er1. cbn [bind]. cbn [plus] in J1 |- *.
      match goal with |- context [for_m l ?lo ?bd ?st] =>
        destruct (for_m_inv _ (fun i r => rot2_inv x r1 0 l b (i - (length x - l)) (r, 0)) bd l lo st) as (r2 & Er2 & J2) end.
      { intros i r Hi I. pose proof I as (HL & _). cbn [fst] in HL.
        rewrite Hmod2 by lia. mstep. eexists; split; [reflexivity|].
        replace (S i - (length x - l))%nat with (S (i + l - length x)) by lia.
        apply (rot2_step _ _ _ _ _ _ _ 0); auto; try lia.
        - replace (i + l - length x)%nat with (i - (length x - l))%nat by lia. auto.
        - apply digits_nth; auto using w0.
        - replace (length x - l + (i + l - length x))%nat with i by lia. rewrite b0, Z.pow_0_r; lia. }
      { rewrite Nat.sub_diag. auto. }
      rewrite Er2. f_equal. replace (length x - l + l - (length x - l))%nat with l in J2 by lia.
      rewrite Es. rewrite <- (rot_final x l b r1 0 r2 0); auto.
      rewrite Z.lor_0_r. symmetry. destruct J2 as (HL2 & _). cbn [fst] in HL2. apply upd_id. lia.
    + unfold for_range. rewrite Nat.sub_0_r.
      match goal with |- context [for_m (length x) ?lo ?bd ?st] =>
        replace (for_m (length x) lo bd st) with (for_m ((length x - l) + l) lo bd st) by (f_equal; lia) end.
      rewrite for_m_app.
      match goal with |- context [for_m (length x - l) ?lo ?bd ?st] =>
        destruct (for_m_inv _ (fun i z => rot1_inv x l b i z /\ (i = 0%nat -> snd z = 0)) bd (length x - l) lo st) as ((r1 & cy1) & Er1 & J1 & _) end; auto.
      { intros i (r & cy) Hi (I & Hc0). pose proof I as ((HL & _ & Hcy & _) & _). cbn [fst snd] in *.
        rewrite Hmod1 by lia. pose proof (digits_nth w x i w0 Hx) as Hxi. mstep.
        rewrite (ushl_ok' w Hw) by auto. mstep. rewrite (ushr_ok' w Hw) by lia. mstep.
        destruct (rot_step_val _ b cy Hxi Hb Hcy) as (Hv & Ev & Hc' & Hm).
        eexists; split; [reflexivity|]. split; [|discriminate].
        apply (rot1_step _ _ _ _ _ cy); auto; lia. }
      rewrite Er1. cbn [bind]. cbn [plus] in J1 |- *.
      match goal with |- context [for_m l ?lo ?bd ?st] =>
        destruct (for_m_inv _ (fun i z => rot2_inv x r1 cy1 l b (i - (length x - l)) z) bd l lo st) as ((r2 & cy2) & Er2 & J2) end.
      { intros i (r & cy) Hi I. pose proof I as (HL & _ & Hcy & _). cbn [fst snd] in *.
        rewrite Hmod2 by lia. pose proof (digits_nth w x i w0 Hx) as Hxi. mstep.
        rewrite (ushl_ok' w Hw) by auto. mstep. rewrite (ushr_ok' w Hw) by lia. mstep.
        destruct (rot_step_val _ b cy Hxi Hb Hcy) as (Hv & Ev & Hc' & Hm).
        eexists; split; [reflexivity|].
        replace (S i - (length x - l))%nat with (S (i + l - length x)) by lia.
        apply (rot2_step _ _ _ _ _ _ _ cy); auto; try lia.
        - replace (i + l - length x)%nat with (i - (length x - l))%nat by lia. auto.
        - replace (length x - l + (i + l - length x))%nat with i by lia. lia. }
      { rewrite Nat.sub_diag. auto. }
      rewrite Er2. cbn [bind]. replace (length x - l + l - (length x - l))%nat with l in J2 by lia.
      pose proof J2 as (HL2 & _). cbn [fst] in HL2. mstep. f_equal. rewrite Es.
      apply (rot_final x l b r1 cy1 r2 cy2); auto.
Qed.

Lemma rotr_array_ok : forall x s, (2 <= length x)%nat -> digits w x ->
  Z.of_nat (length x) * w < 2 ^ 32 -> 0 <= s ->
  rotr_array w x s = Ok (lenc w (length x)
    (rotv (pw (length x)) (lval w x) ((- s) mod (w * Z.of_nat (length x))))).
Proof.
  intros x s Hn Hx Htot Hs. unfold rotr_array. pose proof (w_range w Hw) as Hwr.
  replace (2 <=? length x)%nat with true by (symmetry; apply Nat.leb_le; auto). cbn [assert_ bind].
  unfold umul. rewrite uchk_ok by lia. cbn [bind]. unfold urem.
  destruct (Z.eqb_spec (w * Z.of_nat (length x)) 0); [lia|]. cbn [bind].
  set (m := w * Z.of_nat (length x)) in *.
  pose proof (Z.mod_pos_bound s m ltac:(lia)). unfold usub. rewrite uchk_ok by lia. cbn [bind].
  rewrite rotl_array_ok by (auto; lia). do 3 f_equal. fold m.
  rewrite (Z.mod_eq s) by lia. apply mod_eq_intro with (k := 1 + s / m); [lia|]. ring.
Qed.

End C.
End W.
