(** * Proofs about the corrected signed product (MFix.v) *)

Require Import ZArith List Bool Lia.
From Verif Require Import Prim Spec Facts MAdd PAdd PAddS MMul PMul PMulS MFix.
Import ListNotations.
Local Open Scope Z_scope.

Section P.
Context {c : Cfg}.
Hypothesis HW : 1 <= W <= 64.

Local Notation B := (2 ^ W).
Local Notation pw n := (2 ^ (W * Z.of_nat n)).
Local Notation W0 := (W0 HW).
Local Notation W1 := (W1 HW).

Lemma fix_smul_overflowing_full_ok : forall x y, (2 <= length x)%nat -> length y = length x ->
  digits W x -> digits W y ->
  exists f, fix_smul_overflowing_full x y = Ok (lenc W (length x) (lval W x * lval W y), f) /\
  (f = true <-> ~ fits_s (W * Z.of_nat (length x)) (lsval x * lsval y)).
Proof.
  intros x y Hn HL Hx Hy. unfold fix_smul_overflowing_full.
  rewrite !(limbs_negative_ok HW) by (auto; lia). cbn [bind].
  remember (length x) as n eqn:En.
  assert (Hab : forall z, length z = n -> digits W z ->
     exists z', (if lsval z <? 0 then negate z else Ok z) = Ok z' /\ length z' = n /\ digits W z' /\
       lval W z' = Z.abs (lsval z)).
  { intros z HLz Hz. pose proof (lval_range W z W0 Hz) as R. rewrite HLz in R.
    pose proof (lsval_cases HW z ltac:(lia) Hz) as Hc. rewrite HLz in Hc.
    assert (HB : 1 <= W * Z.of_nat n) by nia. pose proof (pow2_half _ HB).
    destruct (Z.ltb_spec (lsval z) 0).
    - rewrite (negate_ok HW) by (auto; lia). eexists; split; [reflexivity|].
      rewrite length_lenc. split; auto. split; [apply digits_lenc; lia|].
      rewrite lval_lenc by lia. rewrite HLz.
      replace (- lval W z) with (- lsval z + (-1) * pw n) by lia.
      rewrite Z.mod_add by (pose proof (pw_pos HW n); lia).
      rewrite Z.mod_small by lia. lia.
    - eexists; split; [reflexivity|]. repeat split; auto. lia. }
  destruct (Hab x) as (x' & Ex & HLx' & Hx' & Vx'); auto.
  destruct (Hab y) as (y' & Ey & HLy' & Hy' & Vy'); auto.
  rewrite Ex, Ey. cbn [bind]. clear Ex Ey Hab.
  destruct (mul_overflowing_full_ok HW x' y') as (f & Em & Hf); auto; [lia|].
  rewrite Em. cbn [bind]. clear Em. rewrite HLx' in *.
  assert (VV : lval W x' * lval W y' = Z.abs (lsval x * lsval y)).
  { rewrite Vx', Vy'. symmetry. apply Z.abs_mul. }
  rewrite VV in *. set (p := Z.abs (lsval x * lsval y)) in *.
  assert (Hp : 0 <= p) by apply Z.abs_nonneg.
  destruct n as [|n]; [lia|]. replace (S n - 1)%nat with n by lia.
  rewrite get_ok by len. cbn [bind].
  set (r := lenc W (S n) p) in *.
  assert (Hr : digits W r) by (apply digits_lenc; lia).
  assert (HLr : length r = S n) by apply length_lenc.
  assert (Vr : lval W r = p mod pw (S n)) by (apply lval_lenc; lia).
  pose proof (lsval_last HW r n HLr Hr) as Hls.
  pose proof (pv_range W r n W0 Hr ltac:(lia)) as Hpv.
  pose proof (lsval_cases HW r ltac:(lia) Hr) as Hc. rewrite HLr in Hc.
  pose proof (pw_pos HW n) as Hpn. rewrite pw_half' in * by auto.
  assert (Hneg : (scast W (nth n r 0) <? 0) = (lsval r <? 0)).
  { destruct (Z.ltb_spec (scast W (nth n r 0)) 0), (Z.ltb_spec (lsval r) 0); auto; nia. }
  rewrite Hneg.
  assert (Hsm : f = false -> lval W r = p).
  { intros ->. rewrite Vr. apply Z.mod_small.
    destruct (Z.lt_ge_cases p (pw (S n))); [lia|]. assert (false = true) by (apply Hf; lia). discriminate. }
  pose proof (pow2_ge2 W W1).
  assert (0 < 2 ^ (W - 1)) by (apply pow2_pos; lia).
  pose proof (pw_half HW n) as Hph.
  destruct (xorb (lsval x <? 0) (lsval y <? 0)) eqn:Esgn; cbn [negb].
  - (* the product should be negative *)
    rewrite (negate_ok HW) by (auto; lia). cbn [bind]. rewrite HLr. rewrite get_ok by len. cbn [bind].
    set (r2 := lenc W (S n) (- lval W r)).
    assert (Hr2 : digits W r2) by (apply digits_lenc; lia).
    assert (HLr2 : length r2 = S n) by apply length_lenc.
    assert (Vr2 : lval W r2 = (- lval W r) mod pw (S n)) by (apply lval_lenc; lia).
    assert (Hneg2 : (scast W (nth n r2 0) <? 0) = (lsval r2 <? 0)).
    { pose proof (lsval_last HW r2 n HLr2 Hr2). pose proof (pv_range W r2 n W0 Hr2 ltac:(lia)).
      destruct (Z.ltb_spec (scast W (nth n r2 0)) 0), (Z.ltb_spec (lsval r2) 0); auto; nia. }
    pose proof (lsval_cases HW r2 ltac:(lia) Hr2) as Hc2. rewrite HLr2, pw_half' in Hc2 by auto.
    rewrite Hneg2.
    assert (Epn : lsval x * lsval y = - p).
    { unfold p. destruct (Z.ltb_spec (lsval x) 0), (Z.ltb_spec (lsval y) 0); try discriminate; nia. }
    eexists; split.
    + do 2 f_equal. apply lenc_eq_mod; [lia|]. rewrite Vr.
      assert (Hxy : exists k, lval W x * lval W y = lsval x * lsval y + k * pw (S n)).
      { pose proof (lsval_cases HW x ltac:(lia) Hx) as Cx. pose proof (lsval_cases HW y ltac:(lia) Hy) as Cy.
        rewrite <- En in Cx. rewrite HL in Cy.
        assert (exists a, lval W x = lsval x + a * pw (S n)) as (a & Ea).
        { destruct Cx as [Cx|Cx]; [exists 0|exists 1]; lia. }
        assert (exists b, lval W y = lsval y + b * pw (S n)) as (b & Eb).
        { destruct Cy as [Cy|Cy]; [exists 0|exists 1]; lia. }
        exists (a * lsval y + b * lsval x + a * b * pw (S n)). rewrite Ea, Eb. ring. }
      destruct Hxy as (k & ->).
      rewrite Z.mod_add by (pose proof (pw_pos HW (S n)); lia). rewrite Epn.
      rewrite (Z.mod_eq p) by (pose proof (pw_pos HW (S n)); lia).
      apply mod_eq_intro with (k := p / pw (S n)); [pose proof (pw_pos HW (S n)); lia | ring].
    + rewrite Epn. unfold fits_s. rewrite pw_half' by auto. destruct f; cbn [orb].
      * split; auto. intros _. assert (pw (S n) <= p) by (apply Hf; auto). nia.
      * rewrite (Hsm eq_refl) in *. set (h := 2 ^ (W - 1) * pw n) in *.
        assert (0 < h) by (unfold h; nia).
        assert (p < pw (S n)) by (rewrite Vr; apply Z.mod_pos_bound; lia).
        destruct (Z.eq_dec p 0) as [Zp|Zp].
        -- rewrite Zp in *. destruct (Z.ltb_spec (lsval r) 0); [lia|]. cbn. split; [discriminate|lia].
        -- rewrite (Z.mod_opp_l_nz), Z.mod_small in Vr2 by (try rewrite Z.mod_small; lia).
           destruct (Z.ltb_spec (lsval r) 0), (Z.ltb_spec (lsval r2) 0); cbn; split; intros; try discriminate; auto; try lia.
  - eexists; split.
    + do 2 f_equal. apply lenc_eq_mod; [lia|].
      assert (Hxy : exists k, lval W x * lval W y = lsval x * lsval y + k * pw (S n)).
      { pose proof (lsval_cases HW x ltac:(lia) Hx) as Cx. pose proof (lsval_cases HW y ltac:(lia) Hy) as Cy.
        rewrite <- En in Cx. rewrite HL in Cy.
        assert (exists a, lval W x = lsval x + a * pw (S n)) as (a & Ea).
        { destruct Cx as [Cx|Cx]; [exists 0|exists 1]; lia. }
        assert (exists b, lval W y = lsval y + b * pw (S n)) as (b & Eb).
        { destruct Cy as [Cy|Cy]; [exists 0|exists 1]; lia. }
        exists (a * lsval y + b * lsval x + a * b * pw (S n)). rewrite Ea, Eb. ring. }
      destruct Hxy as (k & ->).
      assert (Epn : p = lsval x * lsval y).
      { unfold p. destruct (Z.ltb_spec (lsval x) 0), (Z.ltb_spec (lsval y) 0); try discriminate; nia. }
      rewrite Z.mod_add by (pose proof (pw_pos HW (S n)); lia). rewrite <- Epn. reflexivity.
    + assert (Epn : p = lsval x * lsval y).
      { unfold p. destruct (Z.ltb_spec (lsval x) 0), (Z.ltb_spec (lsval y) 0); try discriminate; nia. }
      rewrite <- Epn. unfold fits_s. rewrite pw_half' by auto. assert (0 < 2 ^ (W - 1) * pw n) by nia.
      destruct f; cbn [orb].
      * split; auto. intros _. assert (pw (S n) <= p) by (apply Hf; auto). lia.
      * rewrite (Hsm eq_refl) in *. destruct (Z.ltb_spec (lsval r) 0); split; intros; try discriminate; auto; try lia.
Qed.

End P.
