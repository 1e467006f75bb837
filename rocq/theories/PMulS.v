(** * Proofs about signed and widening multiplication (MMul.v) *)

Require Import ZArith List Bool Lia.
From Verif Require Import Prim Spec Facts MAdd PAdd PAddS MMul PMul.
Import ListNotations.
Local Open Scope Z_scope.

Section P.
Context {c : Cfg}.
Hypothesis HW : 1 <= W <= 64.

Local Notation B := (2 ^ W).
Local Notation pw n := (2 ^ (W * Z.of_nat n)).
Local Notation W0 := (W0 HW).
Local Notation W1 := (W1 HW).

Lemma p_not_range : forall x, 0 <= x < B -> 0 <= p_not W x < B.
Proof. intros. unfold p_not. lia. Qed.

Lemma negate_ok : forall x, (2 <= length x)%nat -> digits W x ->
  negate x = Ok (lenc W (length x) (- lval W x)).
Proof.
  intros x Hn Hx. unfold negate. remember (length x) as n eqn:En.
  destruct n as [|n]; [lia|]. replace (S n - 1)%nat with n by lia. mstep.
  destruct (p_overflowing_add W (p_not W (nth 0 x 0)) 1) as (v0 & f0) eqn:E0.
  pose proof (digits_nth W x 0 W0 Hx) as Hx0. pose proof (pow2_ge2 W W1).
  apply (p_oadd_spec HW) in E0; auto using p_not_range; [|lia].
  destruct E0 as (Hv0 & E0). unfold p_not in E0. mstep.
  run_loop (chain_inv (S n) 1 (fun i => pw i - pv W x i)) r cy E HI.
  - lia.
  - intros j (r & cy) Hj I. pose proof I as (HLr & _). cbn [fst] in HLr. mstep.
    destruct (p_overflowing_add W (p_not W (nth j x 0)) (b2z cy)) as (v & f) eqn:Ec.
    pose proof (digits_nth W x j W0 Hx).
    apply (p_oadd_spec HW) in Ec; auto using p_not_range, (b2z_lt HW).
    destruct Ec as (Hv & Ec). unfold p_not in Ec. mstep.
    eexists; split; [reflexivity|]. apply (chain_step HW _ _ _ _ _ cy); auto; [lia|].
    rewrite pv_S by lia. rewrite pow2_S by lia.
    replace (v + 1 * B * b2z f - 1 * b2z cy) with (B - 1 - nth j x 0) by lia. ring.
  - repeat split; cbn [fst snd].
    + len.
    + apply digits_upd; auto. apply digits_repeat0; lia.
    + rewrite pv_upd_S by len. rewrite pv_S by lia. rewrite !pv_0.
      change (Z.of_nat 0) with 0. change (Z.of_nat 1) with 1. rewrite Z.mul_0_r, Z.pow_0_r, !Z.mul_1_r. lia.
  - pose proof HI as (HLr & _). cbn [fst] in HLr. rewrite E. cbn [bind].
    replace (1 <? S n)%nat with true by (symmetry; apply Nat.ltb_lt; lia). mstep. f_equal.
    eapply (wadd_final HW); eauto. exists (-1). unfold p_not. rewrite (lval_last W x n) by lia.
    ring.
Qed.

Lemma limbs_negative_ok : forall x, (1 <= length x)%nat -> digits W x ->
  limbs_negative x = Ok (lsval x <? 0).
Proof.
  intros x Hn Hx. unfold limbs_negative. mstep. f_equal.
  destruct (length x) as [|n] eqn:En; [lia|]. replace (S n - 1)%nat with n by lia.
  rewrite (lsval_last HW x n) by auto.
  pose proof (pv_range W x n W0 Hx ltac:(lia)). pose proof (pw_pos HW n).
  destruct (Z.ltb_spec (scast W (nth n x 0)) 0), (Z.ltb_spec (pv W x n + scast W (nth n x 0) * pw n) 0);
    auto; nia.
Qed.

Lemma lsval_cases : forall x, (1 <= length x)%nat -> digits W x ->
  (0 <= lsval x /\ lsval x = lval W x /\ lval W x < 2 ^ (W * Z.of_nat (length x) - 1)) \/
  (lsval x < 0 /\ lsval x = lval W x - pw (length x) /\ 2 ^ (W * Z.of_nat (length x) - 1) <= lval W x).
Proof.
  intros x Hn Hx. pose proof (lval_range W x W0 Hx).
  assert (HB : 1 <= W * Z.of_nat (length x)) by nia.
  pose proof (pow2_half _ HB). unfold lsval.
  destruct (Z.lt_ge_cases (lval W x) (2 ^ (W * Z.of_nat (length x) - 1))).
  - left. rewrite (swrap_unique _ _ (lval W x) 0); auto; lia.
  - right. rewrite (swrap_unique _ _ (lval W x - pw (length x)) 1); auto; lia.
Qed.

(** Exact characterisation of the signed product's flag. *)
Lemma smul_overflowing_full_ok : forall x y, (2 <= length x)%nat -> length y = length x ->
  digits W x -> digits W y ->
  exists f, smul_overflowing_full x y = Ok (lenc W (length x) (lval W x * lval W y), f) /\
  (f = true <->
    if xorb (lsval x <? 0) (lsval y <? 0)
    then 2 ^ (W * Z.of_nat (length x) - 1) + 2 ^ (W * Z.of_nat (length x) - W) <= Z.abs (lsval x * lsval y)
    else 2 ^ (W * Z.of_nat (length x) - 1) <= Z.abs (lsval x * lsval y)).
Proof.
  intros x y Hn HL Hx Hy. unfold smul_overflowing_full.
  rewrite !limbs_negative_ok by (auto; lia). cbn [bind].
  remember (length x) as n eqn:En.
  assert (Hab : forall z, length z = n -> digits W z ->
     exists z', (if lsval z <? 0 then negate z else Ok z) = Ok z' /\ length z' = n /\ digits W z' /\
       lval W z' = Z.abs (lsval z)).
  { intros z HLz Hz. pose proof (lval_range W z W0 Hz) as R. rewrite HLz in R.
    pose proof (lsval_cases z ltac:(lia) Hz) as Hc. rewrite HLz in Hc.
    assert (HB : 1 <= W * Z.of_nat n) by nia. pose proof (pow2_half _ HB).
    destruct (Z.ltb_spec (lsval z) 0).
    - rewrite negate_ok by (auto; lia). eexists; split; [reflexivity|].
      rewrite length_lenc. split; auto. split; [apply digits_lenc; lia|].
      rewrite lval_lenc by lia. rewrite HLz.
      replace (- lval W z) with (- lsval z + (-1) * pw n) by lia.
      rewrite Z.mod_add by (pose proof (pw_pos HW n); lia).
      rewrite Z.mod_small by lia. lia.
    - eexists; split; [reflexivity|]. repeat split; auto. lia. }
  destruct (Hab x) as (x' & Ex & HLx' & Hx' & Vx'); auto.
  destruct (Hab y) as (y' & Ey & HLy' & Hy' & Vy'); auto.
  rewrite Ex, Ey. cbn [bind]. clear Ex Ey Hab.
  destruct (mul_overflowing_full_ok HW x' y') as (f & Em & Hf); auto; [lia|].
  rewrite Em. cbn [bind]. clear Em. rewrite HLx' in *.
  assert (VV : lval W x' * lval W y' = Z.abs (lsval x * lsval y)).
  { rewrite Vx', Vy'. symmetry. apply Z.abs_mul. }
  rewrite VV in *. set (p := Z.abs (lsval x * lsval y)) in *.
  assert (Hp : 0 <= p) by apply Z.abs_nonneg.
  destruct n as [|n]; [lia|]. replace (S n - 1)%nat with n by lia.
  rewrite get_ok by len. cbn [bind].
  set (r := lenc W (S n) p) in *.
  assert (Hr : digits W r) by (apply digits_lenc; lia).
  assert (HLr : length r = S n) by apply length_lenc.
  assert (Vr : lval W r = p mod pw (S n)) by (apply lval_lenc; lia).
  pose proof (lsval_last HW r n HLr Hr) as Hls.
  pose proof (pv_range W r n W0 Hr ltac:(lia)) as Hpv.
  pose proof (lsval_cases r ltac:(lia) Hr) as Hc. rewrite HLr in Hc.
  pose proof (pw_pos HW n) as Hpn. rewrite pw_half' in * by auto.
  replace (2 ^ (W * Z.of_nat (S n) - W)) with (pw n) by (f_equal; lia).
  assert (Hneg : (scast W (nth n r 0) <? 0) = (lsval r <? 0)).
  { destruct (Z.ltb_spec (scast W (nth n r 0)) 0), (Z.ltb_spec (lsval r) 0); auto; nia. }
  assert (Hmin : (scast W (nth n r 0) = - 2 ^ (W - 1)) <->
                 2 ^ (W - 1) * pw n <= lval W r < 2 ^ (W - 1) * pw n + pw n).
  { pose proof (scast_range HW (nth n r 0)). rewrite pw_half in Hc by auto.
    set (H1 := 2 ^ (W - 1)) in *. set (q := pw n) in *.
    set (s := scast W (nth n r 0)) in *. rewrite Hls in Hc.
    assert (0 < H1) by (apply pow2_pos; lia).
    split; intros.
    - destruct Hc as [Hc|Hc]; [nia|]. rewrite H0 in Hc. lia.
    - destruct Hc as [Hc|Hc]; [lia|]. assert (s + H1 < 1) by nia. lia. }
  rewrite Hneg.
  assert (Hsm : f = false -> lval W r = p).
  { intros ->. rewrite Vr. apply Z.mod_small.
    destruct (Z.lt_ge_cases p (pw (S n))); [lia|]. assert (false = true) by (apply Hf; lia). discriminate. }
  pose proof (pow2_ge2 W W1).
  assert (0 < 2 ^ (W - 1)) by (apply pow2_pos; lia).
  assert (1 < 2 ^ (W - 1) \/ W = 1).
  { destruct (Z.eq_dec W 1); auto. left. pose proof (pow2_ge2 (W - 1)). lia. }
  pose proof (pw_half HW n) as Hph.
  destruct (xorb (lsval x <? 0) (lsval y <? 0)) eqn:Esgn; cbn [negb].
  - (* the product should be negative *)
    rewrite negate_ok by (auto; lia). cbn [bind]. eexists; split.
    + do 2 f_equal. rewrite HLr. apply lenc_eq_mod; [lia|]. rewrite Vr.
      assert (Hxy : exists k, lval W x * lval W y = lsval x * lsval y + k * pw (S n)).
      { pose proof (lsval_cases x ltac:(lia) Hx) as Cx. pose proof (lsval_cases y ltac:(lia) Hy) as Cy.
        rewrite <- En in Cx. rewrite HL in Cy.
        assert (exists a, lval W x = lsval x + a * pw (S n)) as (a & Ea).
        { destruct Cx as [Cx|Cx]; [exists 0|exists 1]; lia. }
        assert (exists b, lval W y = lsval y + b * pw (S n)) as (b & Eb).
        { destruct Cy as [Cy|Cy]; [exists 0|exists 1]; lia. }
        exists (a * lsval y + b * lsval x + a * b * pw (S n)). rewrite Ea, Eb. ring. }
      destruct Hxy as (k & ->).
      assert (Epn : - p = lsval x * lsval y).
      { unfold p. destruct (Z.ltb_spec (lsval x) 0), (Z.ltb_spec (lsval y) 0); try discriminate; nia. }
      rewrite Z.mod_add by (pose proof (pw_pos HW (S n)); lia). rewrite <- Epn.
      rewrite (Z.mod_eq p) by (pose proof (pw_pos HW (S n)); lia).
      apply mod_eq_intro with (k := p / pw (S n)); [pose proof (pw_pos HW (S n)); lia | ring].
    + destruct f; cbn [orb].
      * split; auto. intros _. assert (pw (S n) <= p) by (apply Hf; auto). nia.
      * rewrite (Hsm eq_refl) in *.
        assert (Hm1 : scast W (nth n r 0) = - 2 ^ (W - 1) -> 2 ^ (W - 1) * pw n <= p < 2 ^ (W - 1) * pw n + pw n)
          by apply Hmin.
        assert (Hm2 : 2 ^ (W - 1) * pw n <= p < 2 ^ (W - 1) * pw n + pw n -> scast W (nth n r 0) = - 2 ^ (W - 1))
          by apply Hmin.
        set (h := 2 ^ (W - 1) * pw n) in *.
        destruct (Z.ltb_spec (lsval r) 0) as [Lr|Lr];
          destruct (Z.eqb_spec (scast W (nth n r 0)) (- 2 ^ (W - 1))) as [Em|Em];
          cbn [xorb negb]; split; intros Hg; try discriminate; auto.
        -- specialize (Hm1 Em). lia.
        -- destruct (Z.lt_ge_cases p (h + pw n)); [|lia]. exfalso. apply Em, Hm2. lia.
        -- specialize (Hm1 Em). lia.
        -- exfalso. lia.
  - eexists; split.
    + do 2 f_equal. apply lenc_eq_mod; [lia|].
      assert (Hxy : exists k, lval W x * lval W y = lsval x * lsval y + k * pw (S n)).
      { pose proof (lsval_cases x ltac:(lia) Hx) as Cx. pose proof (lsval_cases y ltac:(lia) Hy) as Cy.
        rewrite <- En in Cx. rewrite HL in Cy.
        assert (exists a, lval W x = lsval x + a * pw (S n)) as (a & Ea).
        { destruct Cx as [Cx|Cx]; [exists 0|exists 1]; lia. }
        assert (exists b, lval W y = lsval y + b * pw (S n)) as (b & Eb).
        { destruct Cy as [Cy|Cy]; [exists 0|exists 1]; lia. }
        exists (a * lsval y + b * lsval x + a * b * pw (S n)). rewrite Ea, Eb. ring. }
      destruct Hxy as (k & ->).
      assert (Epn : p = lsval x * lsval y).
      { unfold p. destruct (Z.ltb_spec (lsval x) 0), (Z.ltb_spec (lsval y) 0); try discriminate; nia. }
      rewrite Z.mod_add by (pose proof (pw_pos HW (S n)); lia). rewrite <- Epn. reflexivity.
    + destruct f; cbn [orb].
      * split; auto. intros _. assert (pw (S n) <= p) by (apply Hf; auto). lia.
      * rewrite (Hsm eq_refl) in *. destruct (Z.ltb_spec (lsval r) 0); split; intros; try discriminate; auto; try lia.
Qed.

Lemma upd_app_l : forall A (a b : list A) i v, (i < length a)%nat -> upd (a ++ b) i v = upd a i v ++ b.
Proof. induction a; intros b i v H; cbn [length] in H; [lia|]. destruct i; cbn; auto. rewrite IHa by lia. auto. Qed.
Lemma upd_app_r : forall A (a b : list A) i v, (length a <= i)%nat ->
  upd (a ++ b) i v = a ++ upd b (i - length a) v.
Proof.
  induction a; intros b i v H; cbn [length app] in *; [rewrite Nat.sub_0_r; auto|].
  destruct i; [lia|]. cbn [upd Nat.sub]. rewrite IHa by lia. auto.
Qed.

Lemma mul_widening_ok : forall x y, (1 <= length x)%nat -> length y = length x ->
  digits W x -> digits W y ->
  mul_widening x y = Ok (lenc W (length x) (lval W x * lval W y),
                         lenc W (length x) (lval W x * lval W y / pw (length x))).
Proof.
  intros x y Hn HL Hx Hy. unfold mul_widening. remember (length x) as m eqn:Em.
  match goal with |- for_range ?lo ?hi ?b ?s = _ =>
    destruct (for_range_inv _ (fun i st => length (fst st) = m /\ length (snd st) = m /\
      exists Q, mul_inv (m + m) x y i (fst st ++ snd st) Q) b lo hi s)
     as ((lo' & hi') & E & L1 & L2 & Q & HI) end.
  - lia.
  - intros i (l0 & h0) Hi (L1 & L2 & Q & I). cbn [fst snd] in *. mstep.
    pose proof I as (HLr & Hd & _).
    match goal with |- context [for_range ?lo ?hi ?b ?s] =>
      destruct (for_range_inv _
        (fun j st => length (fst (fst st)) = m /\ length (snd (fst st)) = m /\
           row_inv (m + m) (l0 ++ h0) (nth i x 0) y i m j (fst (fst st) ++ snd (fst st)) (snd st))
        b lo hi s) as (((l1 & h1) & cy1) & E1 & L1' & L2' & HR) end.
    + lia.
    + intros j ((l1 & h1) & cy1) Hj (L1' & L2' & IR). cbn [fst snd] in *. mstep.
      destruct (row_step HW _ _ _ _ _ _ _ _ _ IR) as (v & cy & Em' & IR'); try lia; auto.
      { apply digits_nth; auto using W0. }
      destruct (Nat.ltb_spec (i + j) m).
      * mstep. rewrite app_nth1 in Em' by lia. rewrite Em'. mstep.
        eexists; split; [reflexivity|]. cbn [fst snd]. rewrite length_upd.
        rewrite upd_app_l in IR' by lia. auto.
      * mstep. rewrite app_nth2 in Em' by lia. rewrite L1' in Em'. rewrite Em'. mstep.
        eexists; split; [reflexivity|]. cbn [fst snd]. rewrite length_upd.
        rewrite upd_app_r in IR' by lia. rewrite L1' in IR'. auto.
    + cbn [fst snd]. split; [|split]; auto. apply row_init; auto.
    + cbn [fst snd] in *. rewrite E1. cbn [bind].
      replace (i + m <? m)%nat with false by (symmetry; apply Nat.ltb_ge; lia). mstep.
      eexists; split; [reflexivity|]. cbn [fst snd]. rewrite length_upd. repeat split; auto.
      destruct (row_done HW (m + m) x y i (l0 ++ h0) Q (l1 ++ h1) cy1) as (ID & _); auto; try lia.
      { replace (Nat.min (length y) (m + m - i)) with m by lia. exact HR. }
      rewrite HL in ID. replace (i + m <? m + m)%nat with true in ID by (symmetry; apply Nat.ltb_lt; lia).
      rewrite upd_app_r in ID by lia. rewrite L1' in ID. eexists; exact ID.
  - cbn [fst snd]. rewrite !repeat_length. repeat split; auto. exists 0.
    rewrite <- repeat_app. apply mul_inv_init; auto.
  - cbn [fst snd] in *. rewrite E. destruct HI as (HLr & Hd & HQ & _ & EQ).
    rewrite pv_all in EQ by auto. apply digits_app in Hd. destruct Hd as (Hdl & Hdh).
    rewrite lval_app in EQ by lia. rewrite L1 in EQ.
    pose proof (lval_range W _ W0 Hdl) as Rl. pose proof (lval_range W _ W0 Hdh) as Rh.
    pose proof (lval_range W _ W0 Hx) as Rx. pose proof (lval_range W _ W0 Hy) as Ry.
    rewrite L1 in Rl. rewrite L2 in Rh. rewrite <- Em in Rx. rewrite HL in Ry.
    rewrite pow2_add_nat in EQ by lia. set (p := pw m) in *.
    assert (Q = 0) by nia. subst Q. f_equal. f_equal.
    + apply lenc_unique; auto; [lia|]. fold p. apply mod_eq_intro with (k := - lval W hi'); lia.
    + apply lenc_unique; auto; [lia|]. fold p. f_equal.
      apply (Z.div_unique _ _ _ (lval W lo')); lia.
Qed.

End P.
