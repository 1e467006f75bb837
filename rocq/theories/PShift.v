(** * Proofs about MShift.v *)

Require Import ZArith List Bool Lia.
From Verif Require Import Prim Spec Facts MAdd PAdd PMul MShift.
Import ListNotations.
Local Open Scope Z_scope.

(** ** Joining disjoint bit ranges *)

Lemma land_disjoint : forall b a d, 0 <= b -> 0 <= d < 2 ^ b -> Z.land (a * 2 ^ b) d = 0.
Proof.
  intros b a d Hb Hd. apply Z.bits_inj'. intros i Hi. rewrite Z.land_spec, Z.bits_0.
  destruct (Z.lt_ge_cases i b).
  - rewrite Z.mul_pow2_bits_low by lia. auto.
  - replace (Z.testbit d i) with false; [apply andb_false_r|].
    destruct (Z.eq_dec d 0) as [->|]; [symmetry; apply Z.bits_0|].
    symmetry. apply Z.bits_above_log2; [lia|].
    apply Z.lt_le_trans with b; auto. apply Z.log2_lt_pow2; lia.
Qed.

Lemma lor_add : forall b a d, 0 <= b -> 0 <= d < 2 ^ b -> Z.lor (a * 2 ^ b) d = a * 2 ^ b + d.
Proof.
  intros b a d Hb Hd. pose proof (land_disjoint b a d Hb Hd) as E.
  rewrite Z.add_nocarry_lxor by auto. symmetry. apply Z.lxor_lor; auto.
Qed.

Lemma lor_add' : forall b a d, 0 <= b -> 0 <= d < 2 ^ b -> Z.lor d (a * 2 ^ b) = d + a * 2 ^ b.
Proof. intros. rewrite Z.lor_comm, lor_add by auto. lia. Qed.

Section W.
Variable w : Z.
Hypothesis Hw : exists k, 1 <= k <= 7 /\ w = 2 ^ k.

Local Notation B := (2 ^ w).
Local Notation pw n := (2 ^ (w * Z.of_nat n)).

Lemma w_range : 2 <= w <= 128.
Proof.
  destruct Hw as (k & Hk & ->). split.
  - apply (pow2_ge2 k); lia.
  - change 128 with (2 ^ 7). apply pow2_le_mono; lia.
Qed.

Lemma limb_amount_eq : forall s, 0 <= s -> Z.of_nat (limb_amount w s) = s / w.
Proof.
  intros s Hs. destruct Hw as (k & Hk & ->). unfold limb_amount.
  rewrite Z.log2_pow2 by lia. rewrite Z.shiftr_div_pow2 by lia.
  apply Z2Nat.id. apply Z.div_pos; auto. apply pow2_pos; lia.
Qed.

Lemma bits_amount_eq : forall s, bits_amount w s = s mod w.
Proof.
  intros s. destruct Hw as (k & Hk & ->). unfold bits_amount.
  replace (2 ^ k - 1) with (Z.ones k) by (rewrite Z.ones_equiv; lia).
  apply Z.land_ones. lia.
Qed.

Lemma amounts : forall s n, 0 <= s < Z.of_nat n * w ->
  let l := limb_amount w s in let b := bits_amount w s in
  (l < n)%nat /\ 0 <= b < w /\ s = w * Z.of_nat l + b /\ (s = 0 <-> l = 0%nat /\ b = 0).
Proof.
  intros s n Hs l b. pose proof w_range.
  pose proof (limb_amount_eq s ltac:(lia)) as El. pose proof (bits_amount_eq s) as Eb.
  fold l in El. fold b in Eb.
  pose proof (Z.div_mod s w ltac:(lia)). pose proof (Z.mod_pos_bound s w ltac:(lia)).
  repeat split; nia.
Qed.

Lemma pwp : forall n, 0 < pw n.
Proof. intros. pose proof w_range. apply pow2_pos. lia. Qed.
Lemma Bp : 0 < B.
Proof. intros. pose proof w_range. apply pow2_pos. lia. Qed.
Lemma w0 : 0 <= w. Proof. pose proof w_range; lia. Qed.

(** A left shift within an element and the bits it pushes out. *)
Lemma shl_elem : forall x b, 0 <= x < B -> 0 <= b < w ->
  let lo := ucast w (x * 2 ^ b) in let cy := x / 2 ^ (w - b) in
  0 <= lo < B /\ 0 <= cy < 2 ^ b /\ lo + B * cy = x * 2 ^ b /\
  exists a, lo = a * 2 ^ b /\ 0 <= a < 2 ^ (w - b).
Proof.
  intros x b Hx Hb lo cy. pose proof Bp.
  assert (EB : B = 2 ^ (w - b) * 2 ^ b) by (rewrite <- Z.pow_add_r by lia; f_equal; lia).
  assert (0 < 2 ^ b) by (apply pow2_pos; lia).
  assert (0 < 2 ^ (w - b)) by (apply pow2_pos; lia).
  assert (E : (x * 2 ^ b) / B = cy).
  { rewrite EB. apply Z.div_mul_cancel_r; lia. }
  split; [apply ucast_range; apply w0|]. split.
  { unfold cy. split; [apply Z.div_pos; lia|]. apply Z.div_lt_upper_bound; lia. }
  split.
  { unfold lo, ucast. rewrite <- E. rewrite (Z.div_mod (x * 2 ^ b) B) at 3 by lia. lia. }
  exists (x mod 2 ^ (w - b)). split.
  - unfold lo, ucast. rewrite EB. rewrite Z.mul_mod_distr_r by lia. reflexivity.
  - apply Z.mod_pos_bound. lia.
Qed.

Lemma inv_ok : forall {c : Cfg} b, 0 <= b < w -> usub 32 w b = Ok (w - b).
Proof. intros. pose proof w_range. unfold usub. apply uchk_ok. change (2 ^ 32) with 4294967296. lia. Qed.

Section C.
Context {c : Cfg}.

Lemma ushl_ok' : forall x b, 0 <= b < w -> ushl w x b = Ok (ucast w (x * 2 ^ b)).
Proof. intros. pose proof w_range. apply ushl_ok; [lia|]. change (2 ^ 32) with 4294967296. lia. Qed.
Lemma ushr_ok' : forall x b, 0 <= b < w -> ushr w x b = Ok (x / 2 ^ b).
Proof. intros. pose proof w_range. apply ushr_ok; [lia|]. change (2 ^ 32) with 4294967296. lia. Qed.
Lemma sshr_ok' : forall x b, 0 <= b < w -> sshr w x b = Ok (x / 2 ^ b).
Proof. intros. pose proof w_range. apply sshr_ok; [lia|]. change (2 ^ 32) with 4294967296. lia. Qed.

Definition shl_inv (x : list Z) (l : nat) (b : Z) (i : nat) (s : list Z * Z) : Prop :=
  length (fst s) = length x /\ digits w (fst s) /\ 0 <= snd s < 2 ^ b /\
  (forall k, (i <= k)%nat -> nth k (fst s) 0 = 0) /\
  lval w (fst s) + snd s * pw i = pv w x (i - l) * 2 ^ b * pw l.

Lemma shl_init : forall x l b, 0 <= b -> shl_inv x l b l (repeat 0 (length x), 0).
Proof.
  intros. unfold shl_inv. cbn [fst snd]. rewrite repeat_length. repeat split; auto.
  - apply digits_repeat0. apply w0.
  - lia.
  - apply pow2_pos; auto.
  - intros; apply nth_repeat_0.
  - rewrite lval_repeat0, Nat.sub_diag, pv_0. lia.
Qed.

Lemma shl_step : forall x l b i r cy v cy', 0 <= b -> digits w x ->
  shl_inv x l b i (r, cy) -> (l <= i < length x)%nat ->
  0 <= v < B -> 0 <= cy' < 2 ^ b -> v + B * cy' = nth (i - l) x 0 * 2 ^ b + cy ->
  shl_inv x l b (S i) (upd r i v, cy').
Proof.
  intros x l b i r cy v cy' Hb Hx (HL & Hd & Hc & Hz & E) Hi Hv Hc' Ev. unfold shl_inv in *. cbn [fst snd] in *.
  rewrite length_upd. repeat split; auto; try lia.
  - apply digits_upd; auto.
  - intros k Hk. rewrite nth_upd_other by lia. apply Hz. lia.
  - rewrite lval_upd by (auto using w0; lia). rewrite (Hz i) by lia.
    replace (S i - l)%nat with (S (i - l)) by lia. rewrite pv_S by (auto using w0; lia).
    rewrite pow2_S by apply w0.
    assert (Ep : pw i = pw (i - l) * pw l).
    { rewrite <- pow2_add_nat by apply w0. do 3 f_equal. lia. }
    replace ((pv w x (i - l) + nth (i - l) x 0 * pw (i - l)) * 2 ^ b * pw l)
      with (pv w x (i - l) * 2 ^ b * pw l + (nth (i - l) x 0 * 2 ^ b) * pw i) by (rewrite Ep; ring).
    rewrite <- E. replace (nth (i - l) x 0 * 2 ^ b) with (v + B * cy' - cy) by lia. ring.
Qed.

Lemma shl_final : forall x l b r cy, digits w x -> (l <= length x)%nat -> 0 <= b ->
  shl_inv x l b (length x) (r, cy) ->
  r = lenc w (length x) (lval w x * 2 ^ (w * Z.of_nat l + b)).
Proof.
  intros x l b r cy Hx Hl Hb (HL & Hd & Hc & _ & E). cbn [fst snd] in *.
  apply lenc_unique; auto using w0.
  rewrite Z.pow_add_r by (pose proof w0; lia).
  rewrite (lval_split w x (length x - l)) by (auto using w0; lia).
  apply mod_eq_intro with (k := - cy - lval w (skipn (length x - l) x) * 2 ^ b).
  - pose proof (pwp (length x)). lia.
  - assert (Ep : pw (length x) = pw (length x - l) * pw l).
    { rewrite <- pow2_add_nat by apply w0. do 3 f_equal. lia. }
    replace (lval w r) with (pv w x (length x - l) * 2 ^ b * pw l - cy * pw (length x)) by lia.
    rewrite Ep. ring.
Qed.

Lemma lval2 : forall x0 x1, lval w [x0; x1] = x0 + B * x1.
Proof. intros. cbn [lval]. ring. Qed.

Lemma pw2 : pw 2 = B * B.
Proof. rewrite <- Z.pow_add_r by apply w0. f_equal. lia. Qed.

Lemma shl_array_ok : forall x s, (2 <= length x)%nat -> digits w x ->
  0 <= s < Z.of_nat (length x) * w ->
  shl_array w x s = Ok (lenc w (length x) (lval w x * 2 ^ s)).
Proof.
  intros x s Hn Hx Hs. unfold shl_array.
  destruct (amounts s _ Hs) as (Hl & Hb & Es & Hs0). set (l := limb_amount w s) in *. set (b := bits_amount w s) in *.
  replace (2 <=? length x)%nat with true by (symmetry; apply Nat.leb_le; auto).
  replace (s <? Z.of_nat (length x) * w) with true by (symmetry; apply Z.ltb_lt; lia).
  cbn [assert_ bind]. rewrite dassert_true. cbn [bind]. rewrite inv_ok by auto. cbn [bind].
  destruct (Nat.eqb_spec (length x) 2) as [E2|N2].
  - destruct x as [|x0 [|x1 [|? ?]]]; try discriminate. clear Hn E2.
    apply digits_inv in Hx. destruct Hx as (H0 & Hx). apply digits_inv in Hx. destruct Hx as (H1 & _).
    cbn [get nth_error bind length] in *.
    destruct (shl_elem x0 b H0 Hb) as (L0 & C0 & E0 & a0 & A0 & _).
    destruct (shl_elem x1 b H1 Hb) as (L1 & C1 & E1 & a1 & A1 & _).
    pose proof Bp.
    destruct (Nat.eqb_spec l 0) as [l0|ln0]; cbn [negb].
    + destruct (Z.eqb_spec s 0) as [s0|s0].
      * cbn [bind]. rewrite set_ok by (cbn; lia). cbn [bind]. rewrite set_ok by (cbn; lia). cbn [repeat upd].
        f_equal. apply lenc_unique; auto using w0.
        -- repeat apply digits_cons; auto using digits_nil.
        -- rewrite s0, Z.mul_1_r. reflexivity.
      * rewrite ushl_ok', ushl_ok', ushr_ok' by (auto; lia). cbn [bind].
        rewrite set_ok by (cbn; lia). cbn [bind]. rewrite set_ok by (cbn; lia). cbn [repeat upd].
        f_equal. assert (Elor : Z.lor (ucast w (x1 * 2 ^ b)) (x0 / 2 ^ (w - b)) = ucast w (x1 * 2 ^ b) + x0 / 2 ^ (w - b)).
        { rewrite A1. apply lor_add; auto; lia. }
        rewrite Elor. clear Elor.
        assert (HB : B = 2 ^ b * 2 ^ (w - b)) by (rewrite <- Z.pow_add_r by lia; f_equal; lia).
        assert (0 < 2 ^ b) by (apply pow2_pos; lia).
        assert (0 <= ucast w (x1 * 2 ^ b) + x0 / 2 ^ (w - b) < B).
        { split; [lia|]. rewrite A1 in *. destruct (shl_elem x1 b H1 Hb) as (_ & _ & _ & a & Ea & Ra).
          rewrite A1 in Ea. assert (a1 = a) by nia. subst a1. nia. }
        apply lenc_unique; auto using w0.
        -- repeat apply digits_cons; auto using digits_nil.
        -- change (Z.of_nat 2) with (Z.of_nat 2%nat). rewrite pw2, !lval2.
           apply mod_eq_intro with (k := - (x1 / 2 ^ (w - b))); [nia|].
           replace s with b by lia.
           replace ((x0 + B * x1) * 2 ^ b) with (x0 * 2 ^ b + B * (x1 * 2 ^ b)) by ring.
           set (u0 := ucast w (x0 * 2 ^ b)) in *. set (u1 := ucast w (x1 * 2 ^ b)) in *.
           rewrite <- E0, <- E1. ring.
    + rewrite ushl_ok' by auto. cbn [bind]. rewrite set_ok by (cbn; lia). cbn [bind].
      rewrite set_ok by (cbn; lia). cbn [repeat upd]. f_equal. assert (l = 1%nat) by lia.
      apply lenc_unique; auto using w0.
      * repeat apply digits_cons; auto using digits_nil. lia.
      * change (Z.of_nat 2) with (Z.of_nat 2%nat). rewrite pw2, !lval2.
        apply mod_eq_intro with (k := - (x0 / 2 ^ (w - b)) - x1 * 2 ^ b); [nia|].
        replace s with (w + b) by lia. rewrite Z.pow_add_r by (pose proof w0; lia).
        replace ((x0 + B * x1) * (B * 2 ^ b)) with (B * (x0 * 2 ^ b) + B * B * (x1 * 2 ^ b)) by ring.
        set (u0 := ucast w (x0 * 2 ^ b)) in *. rewrite <- E0. ring.
  - destruct (Z.eqb_spec b 0) as [b0|bn0]; cbn [negb].
    + match goal with |- for_range ?lo ?hi ?bd ?st = _ =>
        destruct (for_range_inv _ (fun i r => shl_inv x l b i (r, 0)) bd lo hi st) as (r & E & HI) end.
      * lia.
      * intros i r Hi I. pose proof I as (HL & _). cbn [fst] in HL. mstep.
        eexists; split; [reflexivity|]. apply (shl_step _ _ _ _ _ 0); auto; try lia.
        -- apply digits_nth; auto using w0.
        -- rewrite b0, Z.pow_0_r. lia.
      * apply shl_init; lia.
      * rewrite E. f_equal. rewrite Es. eapply shl_final; eauto; lia.
    + run_loop (shl_inv x l b) r cy E HI.
      * lia.
      * intros i (r & cy) Hi I. pose proof I as (HL & _ & Hcy & _). cbn [fst snd] in *. mstep.
        pose proof (digits_nth w x (i - l) w0 Hx) as Hxi.
        rewrite ushl_ok' by auto. mstep. rewrite ushr_ok' by lia. mstep.
        destruct (shl_elem _ b Hxi Hb) as (L0 & C0 & E0 & a0 & A0 & Ra).
        eexists; split; [reflexivity|]. rewrite A0. rewrite lor_add by lia. rewrite <- A0.
        assert (HB : B = 2 ^ b * 2 ^ (w - b)) by (rewrite <- Z.pow_add_r by lia; f_equal; lia).
        assert (0 < 2 ^ b) by (apply pow2_pos; lia).
        apply (shl_step _ _ _ _ _ cy); auto; try lia.
        rewrite A0. nia.
      * apply shl_init; lia.
      * rewrite E. cbn [bind]. f_equal. rewrite Es. eapply shl_final; eauto; lia.
Qed.

(** ** Right shift *)

(** The value read, with sign digit [ng] (1 when filling with ones). *)
Definition tailv (x : list Z) (ng : Z) (i : nat) : Z :=
  lval w (skipn i x) - ng * pw (length x - i).

Lemma tailv_S : forall x ng i, (i < length x)%nat ->
  tailv x ng i = nth i x 0 + B * tailv x ng (S i).
Proof.
  intros. unfold tailv. rewrite (skipn_S_nth x i) by auto. cbn [lval].
  replace (length x - i)%nat with (S (length x - S i)) by lia. rewrite pow2_S by apply w0. ring.
Qed.

Lemma tailv_top : forall x ng, tailv x ng (length x) = - ng.
Proof. intros. unfold tailv. rewrite skipn_all, Nat.sub_diag. cbn [lval Z.of_nat]. rewrite Z.mul_0_r, Z.pow_0_r. lia. Qed.

Lemma tailv_0 : forall x ng, tailv x ng 0 = lval w x - ng * pw (length x).
Proof. intros. unfold tailv. rewrite Nat.sub_0_r. reflexivity. Qed.

Lemma tailv_div : forall x ng l, digits w x -> (l <= length x)%nat ->
  tailv x ng 0 / pw l = tailv x ng l.
Proof.
  intros x ng l Hx Hl. rewrite tailv_0. unfold tailv. rewrite (lval_split w x l) by (auto using w0).
  pose proof (pv_range w x l w0 Hx Hl). pose proof (pwp l).
  symmetry. apply Z.div_unique with (r := pv w x l); [lia|].
  assert (Ep : pw (length x) = pw l * pw (length x - l)).
  { rewrite <- pow2_add_nat by apply w0. do 3 f_equal. lia. }
  rewrite Ep. ring.
Qed.

(** One downward step: element [xi] below the tail [T]. *)
Lemma shr_elem : forall xi T b, 0 <= xi < B -> 0 < b < w ->
  let ri := xi / 2 ^ b in let cy := (T mod 2 ^ b) * 2 ^ (w - b) in
  Z.lor ri cy = ri + cy /\ 0 <= ri + cy < B /\
  (xi + B * T) / 2 ^ b = ri + cy + B * (T / 2 ^ b) /\
  ucast w (xi * 2 ^ (w - b)) = ((xi + B * T) mod 2 ^ b) * 2 ^ (w - b).
Proof.
  intros xi T b Hx Hb ri cy. pose proof Bp.
  assert (EB : B = 2 ^ (w - b) * 2 ^ b) by (rewrite <- Z.pow_add_r by lia; f_equal; lia).
  assert (0 < 2 ^ b) by (apply pow2_pos; lia).
  assert (0 < 2 ^ (w - b)) by (apply pow2_pos; lia).
  assert (0 <= ri < 2 ^ (w - b)).
  { split; [apply Z.div_pos; lia|]. apply Z.div_lt_upper_bound; lia. }
  pose proof (Z.mod_pos_bound T (2 ^ b) ltac:(lia)).
  pose proof (Z.div_mod T (2 ^ b) ltac:(lia)) as ET.
  pose proof (Z.div_mod xi (2 ^ b) ltac:(lia)) as Exi.
  pose proof (Z.mod_pos_bound xi (2 ^ b) ltac:(lia)).
  split; [apply lor_add'; auto; lia|]. split; [unfold cy; nia|]. split.
  - symmetry. apply Z.div_unique with (r := xi mod 2 ^ b); [lia|].
    fold ri in Exi. unfold cy. rewrite EB.
    replace (2 ^ b * (ri + T mod 2 ^ b * 2 ^ (w - b) + 2 ^ (w - b) * 2 ^ b * (T / 2 ^ b)) + xi mod 2 ^ b)
      with ((2 ^ b * ri + xi mod 2 ^ b) + 2 ^ (w - b) * 2 ^ b * (2 ^ b * (T / 2 ^ b) + T mod 2 ^ b)) by ring.
    rewrite <- ET, <- Exi. ring.
  - unfold ucast. rewrite EB. rewrite (Z.mul_comm (2 ^ (w - b)) (2 ^ b)).
    rewrite Z.mul_mod_distr_r by lia. f_equal.
    replace (xi + 2 ^ b * 2 ^ (w - b) * T) with (xi + (2 ^ (w - b) * T) * 2 ^ b) by ring.
    rewrite Z.mod_add by lia. reflexivity.
Qed.

(** State after [k] elements have been processed; [i = n - k] is the lowest
    index done. *)
Definition shr_inv (x : list Z) (ng : Z) (l : nat) (b : Z) (i : nat) (r : list Z) : Prop :=
  length r = length x /\ digits w r /\
  exists q, lval w (skipn (i - l) r) = tailv x ng i / 2 ^ b + q * pw (length x - i + l).

Lemma shr_inv_step : forall x ng l b i r v,
  shr_inv x ng l b (S i) r -> (l <= i < length x)%nat -> 0 <= v < B -> 0 <= b ->
  (nth i x 0 + B * tailv x ng (S i)) / 2 ^ b = v + B * (tailv x ng (S i) / 2 ^ b) ->
  shr_inv x ng l b i (upd r (i - l) v).
Proof.
  intros x ng l b i r v (HL & Hd & q & E) Hi Hv Hb Ev.
  split; [rewrite length_upd; auto|]. split; [apply digits_upd; auto|].
  exists q. rewrite (skipn_S_nth _ (i - l)) by (rewrite length_upd; lia). cbn [lval].
  rewrite nth_upd_same by lia. rewrite skipn_upd_lt by lia.
  replace (S i - l)%nat with (S (i - l)) in E by lia. rewrite E.
  rewrite (tailv_S x ng i) by lia. rewrite Ev.
  replace (length x - i + l)%nat with (S (length x - S i + l)) by lia. rewrite pow2_S by apply w0. ring.
Qed.

Lemma shr_final : forall x ng l b r, digits w x -> (l <= length x)%nat -> 0 <= b ->
  shr_inv x ng l b l r ->
  r = lenc w (length x) ((lval w x - ng * pw (length x)) / 2 ^ (w * Z.of_nat l + b)).
Proof.
  intros x ng l b r Hx Hl Hb (HL & Hd & q & E).
  apply lenc_unique; auto using w0. rewrite Nat.sub_diag in E. cbn [skipn] in E. rewrite E.
  rewrite Z.pow_add_r by (pose proof w0; lia).
  rewrite <- tailv_0. rewrite <- Z.div_div.
  - rewrite tailv_div by auto. replace (length x - l + l)%nat with (length x) by lia.
    rewrite Z.mod_add; auto. pose proof (pwp (length x)). lia.
  - pose proof (pwp l). lia.
  - apply pow2_pos; auto.
Qed.

Lemma skipn_repeat : forall (v : Z) k n, skipn k (repeat v n) = repeat v (n - k).
Proof. induction k; intros [|n]; cbn; auto. Qed.

Definition sgn_of (sg : bool) (x : list Z) : Z :=
  if sg && (scast w (nth (length x - 1) x 0) <? 0) then 1 else 0.

Lemma shr_init : forall sg x l b, (l <= length x)%nat -> 0 <= b ->
  shr_inv x (sgn_of sg x) l b (length x)
    (if sg && (scast w (nth (length x - 1) x 0) <? 0) then repeat (2 ^ w - 1) (length x) else repeat 0 (length x)).
Proof.
  intros. unfold sgn_of. pose proof Bp. assert (0 < 2 ^ b) by (apply pow2_pos; auto).
  destruct (sg && _).
  - split; [apply repeat_length|]. split; [apply digits_repeat; lia|]. exists 1.
    rewrite skipn_repeat, lval_repeat_max by apply w0. rewrite tailv_top, Nat.sub_diag. cbn [plus].
    replace (length x - (length x - l))%nat with l by lia.
    replace (- (1) / 2 ^ b) with (-1); [lia|].
    apply Z.div_unique with (r := 2 ^ b - 1); lia.
  - split; [apply repeat_length|]. split; [apply digits_repeat; lia|]. exists 0.
    rewrite skipn_repeat, lval_repeat0. rewrite tailv_top. cbn [Z.opp]. rewrite Z.div_0_l by lia. lia.
Qed.

(** The arithmetic shift of the top element equals the logical shift joined
    with the sign's carry. *)
Lemma top_elem : forall xi b, 0 <= xi < B -> 0 <= b < w ->
  forall ng, ng = (if scast w xi <? 0 then 1 else 0) ->
  scast w xi = xi + B * - ng /\
  ucast w (scast w xi / 2 ^ b) = (xi + B * - ng) / 2 ^ b - B * (- ng / 2 ^ b) /\
  0 <= (xi + B * - ng) / 2 ^ b - B * (- ng / 2 ^ b) < B.
Proof.
  intros xi b Hx Hb ng Eng. pose proof w_range. pose proof Bp.
  assert (Es : scast w xi = xi + B * - ng).
  { revert Eng. unfold scast. rewrite Z.mod_small by lia.
    destruct (Z.ltb_spec xi (2 ^ (w - 1))).
    - destruct (Z.ltb_spec xi 0); lia.
    - destruct (Z.ltb_spec (xi - B) 0); lia. }
  split; auto. rewrite Es.
  assert (EB : B = 2 ^ (w - b) * 2 ^ b) by (rewrite <- Z.pow_add_r by lia; f_equal; lia).
  assert (0 < 2 ^ b) by (apply pow2_pos; lia).
  assert (0 < 2 ^ (w - b)) by (apply pow2_pos; lia).
  assert (Hng : ng = 0 \/ ng = 1) by (destruct (scast w xi <? 0); lia).
  assert (E1 : (xi + B * - ng) / 2 ^ b = xi / 2 ^ b + 2 ^ (w - b) * - ng).
  { rewrite EB. replace (xi + 2 ^ (w - b) * 2 ^ b * - ng) with (xi + (2 ^ (w - b) * - ng) * 2 ^ b) by ring.
    apply Z.div_add. lia. }
  assert (0 <= xi / 2 ^ b < 2 ^ (w - b)).
  { split; [apply Z.div_pos; lia|]. apply Z.div_lt_upper_bound; lia. }
  assert (Hd : - ng / 2 ^ b = - ng).
  { destruct Hng as [-> | ->]; [reflexivity|]. symmetry; apply Z.div_unique with (r := 2 ^ b - 1); lia. }
  assert (R : 0 <= (xi + B * - ng) / 2 ^ b - B * (- ng / 2 ^ b) < B).
  { rewrite E1, Hd. destruct Hng as [-> | ->]; nia. }
  split; auto. unfold ucast. symmetry.
  apply Z.mod_unique with (q := - ng / 2 ^ b); [lia|]. lia.
Qed.

Lemma shr_array_ok : forall sg x s, (2 <= length x)%nat -> digits w x ->
  0 <= s < Z.of_nat (length x) * w ->
  shr_array w sg x s = Ok (lenc w (length x) ((lval w x - sgn_of sg x * pw (length x)) / 2 ^ s)).
Proof.
  intros sg x s Hn Hx Hs. unfold shr_array.
  destruct (amounts s _ Hs) as (Hl & Hb & Es & Hs0). set (l := limb_amount w s) in *. set (b := bits_amount w s) in *.
  replace (2 <=? length x)%nat with true by (symmetry; apply Nat.leb_le; auto).
  replace (s <? Z.of_nat (length x) * w) with true by (symmetry; apply Z.ltb_lt; lia).
  cbn [assert_ bind]. rewrite dassert_true. cbn [bind]. rewrite inv_ok by auto. cbn [bind]. rewrite get_ok by lia. cbn [bind].
  pose proof Bp as HBp. pose proof w_range as Hwr.
  assert (Htop : forall b', 0 <= b' < w -> let xi := nth (length x - 1) x 0 in
     let T := tailv x (sgn_of sg x) (length x) in
     (xi + B * T) / 2 ^ b' = (if sg then ucast w (scast w xi / 2 ^ b') else xi / 2 ^ b') + B * (T / 2 ^ b') /\
     0 <= (if sg then ucast w (scast w xi / 2 ^ b') else xi / 2 ^ b') < B).
  { intros b' Hb' xi T. pose proof (digits_nth w x (length x - 1) w0 Hx) as Hxi. fold xi in Hxi.
    unfold T. rewrite tailv_top. unfold sgn_of. fold xi. destruct sg; cbn [andb].
    - destruct (top_elem xi b' Hxi Hb' _ eq_refl) as (_ & E & R).
      rewrite E. split; [lia|]. exact R.
    - rewrite Z.mul_0_r, Z.add_0_r. assert (0 < 2 ^ b') by (apply pow2_pos; lia).
      change (- 0) with 0. rewrite Z.div_0_l by lia. split; [lia|].
      split; [apply Z.div_pos; lia|]. apply Z.div_lt_upper_bound; nia. }
  destruct (Nat.eqb_spec (length x) 2) as [E2|N2].
  - (* two elements: the same steps as the loop, unrolled *)
    pose proof (shr_init sg x l b ltac:(lia) ltac:(lia)) as I0.
    rewrite E2 in *. cbn [Nat.sub] in *.
    rewrite !get_ok by lia. cbn [bind].
    pose proof (digits_nth w x 0 w0 Hx) as H0. pose proof (digits_nth w x 1 w0 Hx) as H1.
    set (r0 := if sg && _ then _ else _) in *.
    assert (HLr0 : length r0 = 2%nat) by (destruct I0 as (HL & _); lia).
    assert (Hup : forall a d, upd (upd r0 0 a) 1 d = [a; d]).
    { destruct r0 as [|? [|? [|? ?]]]; try discriminate. reflexivity. }
    assert (Hup' : forall a d, upd (upd r0 1 d) 0 a = [a; d]).
    { destruct r0 as [|? [|? [|? ?]]]; try discriminate. reflexivity. }
    destruct (Nat.eqb_spec l 0) as [l0|ln0]; cbn [negb].
    + destruct (Z.eqb_spec b 0) as [b0|bn0].
      * cbn [bind]. rewrite set_ok by len. cbn [bind]. rewrite set_ok by len. f_equal.
        rewrite Es. replace 2%nat with (length x) by auto.
        apply shr_final; auto; try lia. rewrite l0, b0 in *. rewrite Hup, <- Hup'.
        apply (shr_inv_step x _ 0 0 0 _ (nth 0 x 0)); auto; try lia.
        -- apply (shr_inv_step x _ 0 0 1 _ (nth 1 x 0)); auto; try lia; rewrite ?E2; auto.
           rewrite Z.pow_0_r, !Z.div_1_r. reflexivity.
        -- rewrite Z.pow_0_r, !Z.div_1_r. reflexivity.
      * rewrite ?sshr_ok', ?ushr_ok', ?ushl_ok' by (auto; lia). cbn [bind].
        set (hi := if sg then ucast w (scast w (nth 1 x 0) / 2 ^ b) else nth 1 x 0 / 2 ^ b).
        replace (if sg then _ else _) with (Ok hi) by (unfold hi; destruct sg; reflexivity). cbn [bind].
        rewrite set_ok by len. cbn [bind]. rewrite set_ok by len. f_equal.
        rewrite Es. replace 2%nat with (length x) by auto.
        destruct (Htop b Hb) as (Et & Rt). fold hi in Et, Rt.
        apply shr_final; auto; try lia. rewrite l0 in *. rewrite Hup, <- Hup'.
        pose proof (shr_elem (nth 1 x 0) (tailv x (sgn_of sg x) 2) b H1 ltac:(lia)) as (_ & _ & _ & Cy).
        pose proof (shr_elem (nth 0 x 0) (tailv x (sgn_of sg x) 1) b H0 ltac:(lia)) as (Lo & Rg & Sp & _).
        rewrite Cy. rewrite (tailv_S x _ 1) in Lo, Rg, Sp by lia. rewrite Lo.
        apply (shr_inv_step x _ 0 b 0); auto; try lia.
        -- apply (shr_inv_step x _ 0 b 1); auto; try lia; rewrite ?E2; auto.
        -- rewrite (tailv_S x _ 1) by lia. rewrite Sp. ring.
    + assert (l1 : l = 1%nat) by lia.
      set (lo := if sg then ucast w (scast w (nth 1 x 0) / 2 ^ b) else nth 1 x 0 / 2 ^ b).
      set (hi := if sg then ucast w (scast w (nth 1 x 0) / 2 ^ (w - 1)) else 0).
      replace (if sg then _ else _) with (Ok (lo, hi) : res (Z * Z)).
      2:{ unfold lo, hi. rewrite ?sshr_ok', ?ushr_ok' by (auto; lia). destruct sg; reflexivity. }
      cbn [bind]. rewrite set_ok by len. cbn [bind]. rewrite set_ok by len. f_equal.
      rewrite Es. replace 2%nat with (length x) by auto.
      apply shr_final; auto; try lia.
      assert (Hfill : upd (upd r0 0 lo) 1 hi = upd r0 0 lo).
      { unfold hi, r0. pose proof (top_elem (nth 1 x 0) (w - 1) H1 ltac:(lia) _ eq_refl) as (Esc & Euc & Ruc).
        destruct sg; cbn [andb]; [|reflexivity].
        pose proof (pow2_half w ltac:(lia)).
        destruct (Z.ltb_spec (scast w (nth 1 x 0)) 0) as [H3|H3]; cbn [repeat upd].
        - replace (ucast w (scast w (nth 1 x 0) / 2 ^ (w - 1))) with (2 ^ w - 1); [reflexivity|].
          replace (scast w (nth 1 x 0) / 2 ^ (w - 1)) with (-1).
          { unfold ucast. apply Z.mod_unique with (q := -1); lia. }
          apply Z.div_unique with (r := scast w (nth 1 x 0) + 2 ^ (w - 1)); [|lia].
          unfold scast in *. rewrite Z.mod_small in * by lia.
          destruct (Z.ltb_spec (nth 1 x 0) (2 ^ (w - 1))); lia.
        - replace (ucast w (scast w (nth 1 x 0) / 2 ^ (w - 1))) with 0; [reflexivity|].
          replace (scast w (nth 1 x 0) / 2 ^ (w - 1)) with 0; [reflexivity|].
          symmetry. apply Z.div_small. split; [lia|].
          unfold scast in *. rewrite Z.mod_small in * by lia.
          destruct (Z.ltb_spec (nth 1 x 0) (2 ^ (w - 1))); lia. }
      rewrite Hfill. destruct (Htop b Hb) as (Et & Rt). fold lo in Et, Rt.
      rewrite l1 in *.
      apply (shr_inv_step x _ 1 b 1); auto; try lia; rewrite ?E2; auto.
  - destruct (Z.eqb_spec b 0) as [b0|bn0]; cbn [negb].
    + match goal with |- for_range ?lo ?hi ?bd ?st = _ =>
        destruct (for_range_inv _ (fun k r => shr_inv x (sgn_of sg x) l b (length x - k) r) bd lo hi st) as (r & E & HI) end.
      * lia.
      * intros k r Hk I. pose proof I as (HL & _). mstep.
        eexists; split; [reflexivity|].
        replace (length x - 1 - k - l)%nat with (length x - S k - l)%nat by lia.
        replace (length x - 1 - k)%nat with (length x - S k)%nat by lia.
        apply shr_inv_step; try lia.
        -- replace (S (length x - S k)) with (length x - k)%nat by lia. auto.
        -- apply digits_nth; auto using w0.
        -- rewrite b0, Z.pow_0_r, !Z.div_1_r. reflexivity.
      * rewrite Nat.sub_0_r. apply shr_init; lia.
      * rewrite E. f_equal. rewrite Es. replace (length x - (length x - l))%nat with l in HI by lia.
        apply shr_final; auto; lia.
    + run_loop (fun k (st : list Z * Z) => shr_inv x (sgn_of sg x) l b (length x - k) (fst st) /\
        ((k = 0%nat /\ snd st = 0) \/
         ((0 < k)%nat /\ snd st = (tailv x (sgn_of sg x) (length x - k) mod 2 ^ b) * 2 ^ (w - b)))) r cy E HI.
      * lia.
      * intros k (r & cy) Hk (I & Hcy). cbn [fst snd] in *. pose proof I as (HL & _).
        set (i := (length x - S k)%nat).
        replace (length x - 1 - k)%nat with i in * by lia.
        replace (length x - k)%nat with (S i) in * by lia.
        pose proof (digits_nth w x i w0 Hx) as Hxi. rewrite get_ok by lia. cbn [bind].
        set (T := tailv x (sgn_of sg x) (S i)) in *.
        pose proof (shr_elem (nth i x 0) T b Hxi ltac:(lia)) as (Lo & Rg & Sp & Cy).
        set (ri := if sg && (i =? length x - 1)%nat then ucast w (scast w (nth i x 0) / 2 ^ b) else nth i x 0 / 2 ^ b).
        match goal with |- context [bind (if ?cc then ?p else ?q) _] =>
          replace (if cc then p else q) with (Ok ri) end.
        2:{ unfold ri. rewrite sshr_ok', ushr_ok' by auto. destruct (sg && _); reflexivity. }
        cbn [bind]. rewrite set_ok by lia. cbn [bind]. rewrite ushl_ok' by lia. cbn [bind].
        eexists; split; [reflexivity|]. cbn [fst snd]. split.
        -- assert (Hv : 0 <= Z.lor ri cy < B /\ (nth i x 0 + B * T) / 2 ^ b = Z.lor ri cy + B * (T / 2 ^ b)).
           { destruct Hcy as [(-> & ->)|(Hk0 & ->)].
             - rewrite Z.lor_0_r. destruct (Htop b Hb) as (Et & Rt).
               unfold ri, T. replace (S i) with (length x) by lia.
               replace i with (length x - 1)%nat in * by lia. rewrite Nat.eqb_refl, andb_true_r.
               auto.
             - unfold ri. replace (i =? length x - 1)%nat with false by (symmetry; apply Nat.eqb_neq; lia).
               rewrite andb_false_r. rewrite Lo. split; auto. }
           destruct Hv as (Hv1 & Hv2). apply shr_inv_step; auto; lia.
        -- right. split; [lia|]. rewrite Cy. unfold T. rewrite <- tailv_S by lia. reflexivity.
      * rewrite Nat.sub_0_r. cbn [fst snd]. split; auto. apply shr_init; lia.
      * rewrite E. cbn [bind]. f_equal. cbn [fst snd] in HI. destruct HI as (HI & _).
        rewrite Es. replace (length x - (length x - l))%nat with l in HI by lia.
        apply shr_final; auto; lia.
Qed.

End C.
End W.
