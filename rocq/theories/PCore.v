(** * Proofs about MCore.v: storage, constants, casts *)

Require Import ZArith List Bool Lia.
From Verif Require Import Prim Spec Facts MAdd PAdd PAddS PMul MShift PShift MCore.
Import ListNotations.
Local Open Scope Z_scope.

(** ** Uniform view of the unsigned and the signed type *)
Section V.
Context {c : Cfg}.
Definition val (sg : bool) (x : list Z) : Z := if sg then sval x else uval x.
Definition fits (sg : bool) (v : Z) : Prop := if sg then fits_s BITS v else fits_u BITS v.
Definition fitsb (sg : bool) (v : Z) : bool := if sg then in_s BITS v else in_u BITS v.
Definition wrapz (sg : bool) (v : Z) : Z := if sg then swrap BITS v else v mod 2 ^ BITS.
Definition lo_of (sg : bool) : Z := if sg then - 2 ^ (BITS - 1) else 0.
Definition hi_of (sg : bool) : Z := if sg then 2 ^ (BITS - 1) - 1 else 2 ^ BITS - 1.
End V.

Section P.
Context {c : Cfg}.
Hypothesis HV : Valid.

Lemma HW1 : 1 <= W <= 64.
Proof. pose proof (W_pos HV). lia. Qed.
Lemma N1 : (1 <= N)%nat. Proof. pose proof (N_ge4 HV). lia. Qed.
Lemma N2 : (2 <= N)%nat. Proof. pose proof (N_ge4 HV). lia. Qed.
Lemma N3 : (3 <= N)%nat. Proof. pose proof (N_ge4 HV). lia. Qed.
Local Notation W0 := (W_nonneg HV).

Lemma Wm1 : 0 <= W - 1. Proof. pose proof HW1. lia. Qed.
Lemma Wge1 : 1 <= W. Proof. pose proof HW1. lia. Qed.

Lemma tbits_BITS : tbits = BITS. Proof. reflexivity. Qed.

Lemma pB : 0 < 2 ^ BITS.
Proof. apply pow2_pos. pose proof (BITS_pos HV). lia. Qed.
Lemma pBh : 0 < 2 ^ (BITS - 1).
Proof. apply pow2_pos. pose proof (BITS_pos HV). lia. Qed.
Lemma pBhalf : 2 ^ BITS = 2 * 2 ^ (BITS - 1).
Proof. apply pow2_half. apply (BITS_pos HV). Qed.

Lemma fitsb_reflect : forall sg v, reflect (fits sg v) (fitsb sg v).
Proof. intros [] v; cbn; [apply in_s_reflect | apply in_u_reflect]. Qed.
Lemma fitsb_spec : forall sg v, fitsb sg v = true <-> fits sg v.
Proof. intros. destruct (fitsb_reflect sg v); split; auto; discriminate. Qed.
Lemma fits_bounds : forall sg v, fits sg v <-> lo_of sg <= v <= hi_of sg.
Proof. intros [] v; unfold fits, lo_of, hi_of, fits_s, fits_u; lia. Qed.
Lemma fits_val : forall sg x, wf x -> fits sg (val sg x).
Proof.
  intros [] x Hx; cbn; [apply (sval_range HV)|apply (uval_range HV)]; auto.
Qed.
Lemma val_ofZ : forall sg v, val sg (ofZ v) = wrapz sg v.
Proof. intros [] v; cbn; [apply (sval_ofZ HV)|apply (uval_ofZ HV)]. Qed.
Lemma wrapz_small : forall sg v, fits sg v -> wrapz sg v = v.
Proof.
  intros [] v H; cbn in *.
  - apply swrap_small; auto. apply (BITS_pos HV).
  - apply Z.mod_small. exact H.
Qed.
Lemma val_ofZ_small : forall sg v, fits sg v -> val sg (ofZ v) = v.
Proof. intros. rewrite val_ofZ. apply wrapz_small; auto. Qed.
Lemma ofZ_val : forall sg x, wf x -> ofZ (val sg x) = x.
Proof. intros [] x H; cbn; [apply (ofZ_sval HV)|apply (ofZ_uval HV)]; auto. Qed.
Lemma wrapz_cong : forall sg v, exists k, wrapz sg v = v + k * 2 ^ BITS.
Proof.
  intros [] v; cbn.
  - apply swrap_cong. apply (BITS_pos HV).
  - exists (- (v / 2 ^ BITS)). pose proof pB. rewrite Z.mod_eq by lia. lia.
Qed.
Lemma val_cong : forall sg x, wf x -> exists k, val sg x = uval x + k * 2 ^ BITS.
Proof.
  intros [] x H; cbn; [apply (sval_cong HV); auto|]. exists 0. lia.
Qed.
Lemma fits_0 : forall sg, fits sg 0.
Proof. intros []; cbn; pose proof pB; pose proof pBh; unfold fits_s, fits_u; lia. Qed.
Lemma pB_big : 2 ^ 255 <= 2 ^ (BITS - 1).
Proof. apply pow2_le_mono. pose proof (BITS_ge HV). lia. Qed.
Lemma fits_small : forall sg v, 0 <= v < 2 ^ 255 -> fits sg v.
Proof. intros sg v H. pose proof pB_big. pose proof pBhalf. destruct sg; cbn; unfold fits_s, fits_u; lia. Qed.
Lemma val_inj : forall sg x y, wf x -> wf y -> val sg x = val sg y -> x = y.
Proof. intros [] x y; cbn; [apply (sval_inj HV)|apply (uval_inj HV)]. Qed.
Lemma sval_uval : forall x, sval x = if uval x <? 2 ^ (BITS - 1) then uval x else uval x - 2 ^ BITS.
Proof. reflexivity. Qed.

(** [ofZ] of sums and products of values of arguments *)
Lemma ofZ_val_arg : forall sg f x, wf x -> (forall v k, ofZ (f (v + k * 2 ^ BITS)) = ofZ (f v)) ->
  ofZ (f (val sg x)) = ofZ (f (uval x)).
Proof. intros sg f x H HF. destruct (val_cong sg x H) as (k & ->). apply HF. Qed.

(** ** Storage *)

Lemma mk_ok : forall l, mk l = Ok l.
Proof.
  intros l. unfold mk. destruct HV as (_ & (k & _ & E) & _). rewrite tbits_BITS, E.
  replace (128 * k) with (k * 128) by lia. rewrite Z.mod_mul by lia. reflexivity.
Qed.

Lemma limb_width_ok_ok : limb_width_ok = Ok tt.
Proof. unfold limb_width_ok. destruct (W_cases HV) as [-> | ->]; reflexivity. Qed.
Lemma wide_width_ok : assert_ ((2 * W =? 64) || (2 * W =? 128)) = Ok tt.
Proof. destruct (W_cases HV) as [-> | ->]; reflexivity. Qed.

Lemma u_min_value_ok : u_min_value = Ok (ofZ 0).
Proof.
  unfold u_min_value. rewrite mk_ok. f_equal. apply (ofZ_intro HV).
  - split; [apply repeat_length|]. apply digits_repeat0. apply W0.
  - exists 0. unfold uval. rewrite lval_repeat0. lia.
Qed.
Lemma u_max_value_ok : u_max_value = Ok (ofZ (-1)).
Proof.
  unfold u_max_value. rewrite mk_ok. f_equal. apply (ofZ_intro HV).
  - split; [apply repeat_length|]. apply digits_repeat. pose proof (pow2_pos W W0). lia.
  - exists 1. unfold uval. rewrite lval_repeat_max by apply W0. rewrite BITS_alt. ring.
Qed.
Lemma BITS_top : W * Z.of_nat (N - 1) = BITS - W.
Proof. pose proof N1. unfold BITS. rewrite Nat2Z.inj_sub by lia. lia. Qed.
Lemma pow_top : 2 ^ (BITS - 1) = 2 ^ (W - 1) * 2 ^ (W * Z.of_nat (N - 1)).
Proof.
  rewrite BITS_top. pose proof (BITS_ge HV). pose proof (W_pos HV).
  rewrite <- Z.pow_add_r by lia. f_equal. lia.
Qed.
Lemma s_min_value_ok : s_min_value = Ok (ofZ (- 2 ^ (BITS - 1))).
Proof.
  unfold s_min_value. pose proof N1. pose proof (W_pos HV). pose proof (pow2_pos W W0).
  rewrite set_ok by len. cbn [bind]. rewrite mk_ok. f_equal.
  assert (U : ucast W (- 2 ^ (W - 1)) = 2 ^ (W - 1)).
  { unfold ucast. rewrite (pow2_half W) by lia. pose proof (pow2_pos (W - 1) Wm1).
    rewrite <- (Z.mod_add _ 1) by lia. rewrite Z.mod_small by lia. lia. }
  rewrite U. apply (ofZ_intro HV).
  - split; [rewrite length_upd; apply repeat_length|]. apply digits_upd; [apply digits_repeat0, W0|].
    rewrite (pow2_half W) by lia. pose proof (pow2_pos (W - 1) Wm1). lia.
  - exists 1. unfold uval. rewrite lval_upd by (try apply W0; len).
    rewrite lval_repeat0, nth_repeat_0. rewrite pow_top, pBhalf, pow_top. lia.
Qed.
Lemma s_max_value_ok : s_max_value = Ok (ofZ (2 ^ (BITS - 1) - 1)).
Proof.
  unfold s_max_value. pose proof N1. pose proof (W_pos HV). pose proof (pow2_pos W W0).
  rewrite set_ok by len. cbn [bind]. rewrite mk_ok. f_equal.
  pose proof (pow2_half W Wge1) as Hh. pose proof (pow2_pos (W - 1) Wm1).
  assert (U : ucast W (2 ^ (W - 1) - 1) = 2 ^ (W - 1) - 1).
  { apply ucast_small. lia. }
  rewrite U. apply (ofZ_intro HV).
  - split; [rewrite length_upd; apply repeat_length|]. apply digits_upd; [apply digits_repeat; lia|]. lia.
  - exists 0. unfold uval. rewrite lval_upd by (try apply W0; len).
    rewrite lval_repeat_max by apply W0.
    replace (nth (N - 1) (repeat (2 ^ W - 1) N) 0) with (2 ^ W - 1).
    + rewrite (BITS_alt). rewrite pBhalf, pow_top. rewrite Hh. lia.
    + symmetry. rewrite (nth_indep _ 0 (2 ^ W - 1)) by len. apply nth_repeat.
Qed.
Lemma min_value_ok : forall sg, min_value sg = Ok (ofZ (lo_of sg)).
Proof. intros []; [apply s_min_value_ok|apply u_min_value_ok]. Qed.
Lemma max_value_ok : forall sg, max_value sg = Ok (ofZ (hi_of sg)).
Proof.
  intros []; [apply s_max_value_ok|]. unfold max_value. rewrite u_max_value_ok. f_equal.
  apply (ofZ_cong HV _ _ (-1)). unfold hi_of. ring.
Qed.

(** ** Casts from primitives *)

Lemma pow_W_le : forall k, k <= 32 -> 2 ^ k <= 2 ^ W.
Proof.
  intros k Hk. pose proof (W_pos HV). destruct (Z.lt_ge_cases k 0).
  - rewrite Z.pow_neg_r by lia. apply pow2_pos'.
  - apply pow2_le_mono; lia.
Qed.

Lemma ofZ_limb : forall v, 0 <= v < 2 ^ W -> upd (repeat 0 N) 0 v = ofZ v.
Proof.
  intros v H. pose proof N1. apply (ofZ_intro HV).
  - split; [rewrite length_upd; apply repeat_length|]. apply digits_upd; auto. apply digits_repeat0, W0.
  - exists 0. unfold uval. rewrite lval_upd by (try apply W0; len).
    rewrite lval_repeat0, nth_repeat_0. rewrite Z.mul_0_r, Z.pow_0_r. lia.
Qed.

Lemma from_u32_ok : forall v, fits_u 32 v -> from_u32 v = Ok (ofZ v).
Proof.
  intros v H. unfold fits_u in H. pose proof (pow_W_le 32 ltac:(lia)). pose proof N1. unfold from_u32.
  rewrite set_ok by len. cbn [bind]. rewrite mk_ok, ucast_small by lia. f_equal. apply ofZ_limb. lia.
Qed.
Lemma from_u8_ok : forall v, fits_u 8 v -> from_u8 v = Ok (ofZ v).
Proof. intros v H. apply from_u32_ok. unfold fits_u in *. lia. Qed.
Lemma from_u16_ok : forall v, fits_u 16 v -> from_u16 v = Ok (ofZ v).
Proof. intros v H. apply from_u32_ok. unfold fits_u in *. lia. Qed.
Lemma from_bool_ok : forall b, from_bool b = Ok (ofZ (b2z b)).
Proof. intros b. apply from_u8_ok. destruct b; unfold fits_u, b2z; lia. Qed.

Lemma uwide_limbs_N : forall v, 0 <= v < 2 ^ (2 * W) -> uwide_limbs N v = Ok (ofZ v).
Proof. intros. rewrite (uwide_limbs_ok HW1); auto using N2. Qed.

Lemma from_u64_ok : forall v, fits_u 64 v -> from_u64 v = Ok (ofZ v).
Proof.
  intros v H. unfold fits_u in H. unfold from_u64. rewrite limb_width_ok_ok. cbn [bind].
  pose proof (uwide_limbs_N v) as U. unfold uwide_limbs in U. pose proof N2.
  destruct (W_cases HV) as [E|E]; rewrite E in *.
  - cbn [Z.eqb Pos.eqb]. change (2 * 32) with 64 in U. rewrite U by lia. cbn [bind]. apply mk_ok.
  - cbn [Z.eqb Pos.eqb]. rewrite set_ok by len. cbn [bind]. rewrite mk_ok, ucast_small by lia. f_equal.
    apply ofZ_limb. rewrite E. lia.
Qed.

Lemma lenc_app : forall w a b v, 0 <= w ->
  lenc w (a + b) v = lenc w a v ++ lenc w b (v / 2 ^ (w * Z.of_nat a)).
Proof.
  intros w a b. induction a; intros v Hw; cbn [Nat.add lenc app].
  - rewrite Z.mul_0_r, Z.pow_0_r, Z.div_1_r. reflexivity.
  - f_equal. rewrite IHa by auto. do 2 f_equal. rewrite pow2_S by auto.
    apply Z.div_div; [|apply pow2_pos; nia]. pose proof (pow2_pos w Hw). lia.
Qed.

(** Limbs of a 128-bit value. *)
Definition k128 : nat := Z.to_nat (128 / W).
Lemma k128_N : (k128 + (N - k128) = N)%nat.
Proof. pose proof (N_ge4 HV). unfold k128. destruct (W_cases HV) as [-> | ->]; cbn; lia. Qed.
Lemma k128_W : W * Z.of_nat k128 = 128.
Proof. unfold k128. destruct (W_cases HV) as [-> | ->]; reflexivity. Qed.

Lemma store_u128_ok : forall s v, 0 <= v < 2 ^ 128 ->
  store_u128 (repeat s N) v = Ok (lenc W k128 v ++ repeat s (N - k128)).
Proof.
  intros s v Hv. pose proof (N_ge4 HV). unfold store_u128, k128.
  rewrite !ushr_ok by lia. cbn [bind].
  destruct (W_cases HV) as [E|E]; rewrite E; cbn [Z.eqb Pos.eqb].
  - change (Z.to_nat (128 / 32)) with 4%nat. repeat (rewrite set_ok by len; cbn [bind]). f_equal.
    destruct N as [|[|[|[|n]]]]; try lia. cbn [repeat upd lenc app Nat.sub]. rewrite !Z.div_div, Nat.sub_0_r by lia. reflexivity.
  - change (Z.to_nat (128 / 64)) with 2%nat. repeat (rewrite set_ok by len; cbn [bind]). f_equal.
    destruct N as [|[|n]]; try lia. cbn [repeat upd lenc app Nat.sub]. rewrite Nat.sub_0_r. reflexivity.
Qed.

Lemma ofZ_128 : forall y, - 2 ^ 128 <= y < 2 ^ 128 ->
  ofZ y = lenc W k128 y ++ repeat (sign_limb y) (N - k128).
Proof.
  intros y Hy. unfold ofZ. rewrite <- k128_N at 1. rewrite lenc_app by apply W0. f_equal.
  rewrite k128_W. rewrite <- (sign_limb_div HW1 y (2 ^ 128)) by lia. apply (lenc_sign HW1).
  destruct (Z.lt_ge_cases y 0).
  - right. symmetry. apply Z.div_unique with (r := y + 2 ^ 128); lia.
  - left. apply Z.div_small; lia.
Qed.

Lemma from_u128_ok : forall v, fits_u 128 v -> from_u128 v = Ok (ofZ v).
Proof.
  intros v H. unfold fits_u in H. unfold from_u128. rewrite limb_width_ok_ok. cbn [bind].
  rewrite store_u128_ok by lia. cbn [bind]. rewrite mk_ok. f_equal.
  rewrite ofZ_128 by lia. rewrite (sign_limb_eq HW1). destruct (Z.ltb_spec v 0); [lia|reflexivity].
Qed.

Lemma from_i128_ok : forall v, fits_s 128 v -> from_i128 v = Ok (ofZ v).
Proof.
  intros v H. unfold fits_s in H. unfold from_i128. rewrite limb_width_ok_ok. cbn [bind].
  rewrite store_u128_ok by (apply ucast_range; lia). cbn [bind]. rewrite mk_ok. f_equal.
  rewrite ofZ_128 by lia. f_equal. apply lenc_eq_mod; [apply W0|]. rewrite k128_W. unfold ucast.
  apply Z.mod_mod. lia.
Qed.

Lemma ilimb_limbs_N : forall v, fits_s W v -> ilimb_limbs N v = Ok (ofZ v).
Proof. intros. rewrite (ilimb_limbs_ok HW1); auto using N1. Qed.

Lemma iwide_limbs_N : forall v, fits_s (2 * W) v -> iwide_limbs N v = Ok (ofZ v).
Proof. intros. rewrite (iwide_limbs_ok HW1); auto using N2. Qed.

Lemma from_i64_ok : forall v, fits_s 64 v -> from_i64 v = Ok (ofZ v).
Proof.
  intros v H. unfold from_i64. rewrite limb_width_ok_ok. cbn [bind].
  pose proof (iwide_limbs_N v) as U. unfold iwide_limbs in U.
  pose proof (ilimb_limbs_N v) as U1. unfold ilimb_limbs in U1.
  destruct (W_cases HV) as [E|E]; rewrite E in *; cbn [Z.eqb Pos.eqb].
  - change (2 * 32) with 64 in *. specialize (U H). rewrite set_ok in * by (pose proof N1; len).
    cbn [bind] in *. rewrite ushr_ok in * by lia. cbn [bind] in *.
    rewrite set_ok in * by (pose proof N2; len). cbn [bind]. rewrite mk_ok. exact U.
  - rewrite U1 by auto. cbn [bind]. apply mk_ok.
Qed.
Lemma from_i32_ok : forall v, fits_s 32 v -> from_i32 v = Ok (ofZ v).
Proof.
  intros v H. unfold from_i32. rewrite limb_width_ok_ok. cbn [bind].
  pose proof (ilimb_limbs_N v) as U1. unfold ilimb_limbs in U1.
  destruct (W_cases HV) as [E|E].
  - rewrite E in *; cbn [Z.eqb Pos.eqb]. rewrite U1 by auto. cbn [bind]. apply mk_ok.
  - rewrite E at 1; cbn [Z.eqb Pos.eqb]. apply from_i64_ok. unfold fits_s in *. lia.
Qed.
Lemma from_i8_ok : forall v, fits_s 8 v -> from_i8 v = Ok (ofZ v).
Proof. intros v H. apply from_i32_ok. unfold fits_s in *. lia. Qed.
Lemma from_i16_ok : forall v, fits_s 16 v -> from_i16 v = Ok (ofZ v).
Proof. intros v H. apply from_i32_ok. unfold fits_s in *. lia. Qed.

Lemma from_ulimb_ok : forall v, fits_u W v -> from_ulimb v = Ok (ofZ v).
Proof.
  intros v H. unfold from_ulimb. rewrite limb_width_ok_ok. cbn [bind].
  destruct (W_cases HV) as [E|E]; rewrite E in H; rewrite E at 1; cbn [Z.eqb Pos.eqb];
    rewrite ucast_small by exact H.
  - apply from_u32_ok; auto.
  - apply from_u64_ok; auto.
Qed.
Lemma from_uwide_ok : forall v, fits_u (2 * W) v -> from_uwide v = Ok (ofZ v).
Proof.
  intros v H. unfold from_uwide. rewrite wide_width_ok. cbn [bind].
  destruct (W_cases HV) as [E|E]; rewrite E in H; rewrite E at 1; cbn [Z.mul Pos.mul Z.eqb Pos.eqb] in *;
    rewrite ucast_small by exact H.
  - apply from_u64_ok; auto.
  - apply from_u128_ok; auto.
Qed.
Lemma scast_small : forall w v, 1 <= w -> fits_s w v -> scast w v = v.
Proof. intros. rewrite scast_swrap by auto. apply swrap_small; auto. Qed.
Lemma from_ilimb_ok : forall v, fits_s W v -> from_ilimb v = Ok (ofZ v).
Proof.
  intros v H. unfold from_ilimb. rewrite limb_width_ok_ok. cbn [bind].
  destruct (W_cases HV) as [E|E]; rewrite E in H; rewrite E at 1; cbn [Z.eqb Pos.eqb];
    rewrite scast_small by (auto; lia).
  - apply from_i32_ok; auto.
  - apply from_i64_ok; auto.
Qed.
Lemma from_iwide_ok : forall v, fits_s (2 * W) v -> from_iwide v = Ok (ofZ v).
Proof.
  intros v H. unfold from_iwide. rewrite wide_width_ok. cbn [bind].
  destruct (W_cases HV) as [E|E]; rewrite E in H; rewrite E at 1; cbn [Z.mul Pos.mul Z.eqb Pos.eqb] in *;
    rewrite scast_small by (auto; lia).
  - apply from_i64_ok; auto.
  - apply from_i128_ok; auto.
Qed.

(** ** Casts to primitives *)

Lemma uval_firstn : forall x k, wf x -> (k <= N)%nat ->
  pv W x k = uval x mod 2 ^ (W * Z.of_nat k).
Proof.
  intros x k (HL & Hd) Hk. unfold uval. rewrite (lval_split W x k) by (try apply W0; lia).
  pose proof (pv_range W x k W0 Hd ltac:(lia)). unfold pv in *.
  rewrite Z.mul_comm, Z.mod_add by lia. symmetry. apply Z.mod_small. lia.
Qed.
Lemma pv1 : forall w x, 0 <= w -> (1 <= length x)%nat -> pv w x 1 = nth 0 x 0.
Proof. intros. rewrite pv_S, pv_0 by (auto; lia). rewrite Z.mul_0_r, Z.pow_0_r. lia. Qed.

Lemma limb0_mod : forall x, wf x -> nth 0 x 0 = uval x mod 2 ^ W.
Proof.
  intros x Hx. pose proof N1. rewrite <- (pv1 W) by (try apply W0; destruct Hx; lia).
  rewrite uval_firstn by auto. f_equal. f_equal. lia.
Qed.

Lemma as_u32_ok : forall x, wf x -> as_u32 x = Ok (uval x mod 2 ^ 32).
Proof.
  intros x Hx. unfold as_u32. rewrite limb_width_ok_ok. cbn [bind]. pose proof N1.
  rewrite get_ok by (destruct Hx; lia). cbn [bind]. f_equal. rewrite limb0_mod by auto.
  pose proof (W_pos HV). apply (ucast_ucast 32 W). lia.
Qed.
Lemma as_u8_ok : forall x, wf x -> as_u8 x = Ok (uval x mod 2 ^ 8).
Proof. intros x Hx. unfold as_u8. rewrite as_u32_ok by auto. cbn [bind]. f_equal. apply (ucast_ucast 8 32). lia. Qed.
Lemma as_u16_ok : forall x, wf x -> as_u16 x = Ok (uval x mod 2 ^ 16).
Proof. intros x Hx. unfold as_u16. rewrite as_u32_ok by auto. cbn [bind]. f_equal. apply (ucast_ucast 16 32). lia. Qed.

Lemma as_u64_ok : forall x, wf x -> as_u64 x = Ok (uval x mod 2 ^ 64).
Proof.
  intros x Hx. unfold as_u64. rewrite limb_width_ok_ok. cbn [bind]. pose proof N2.
  assert (HL : length x = N) by apply Hx.
  rewrite !get_ok by lia. cbn [bind]. rewrite ushl_ok by lia. cbn [bind].
  destruct (W_cases HV) as [E|E]; rewrite E at 1; cbn [Z.eqb Pos.eqb].
  - f_equal. pose proof (digits_nth W x 0 W0 (proj2 Hx)) as D0. pose proof (digits_nth W x 1 W0 (proj2 Hx)) as D1.
    rewrite E in D0, D1. rewrite ucast_small by lia. rewrite lor_add' by lia.
    pose proof (uval_firstn x 2 Hx ltac:(lia)) as P. rewrite E in P at 2.
    change (32 * Z.of_nat 2) with 64 in P. rewrite <- P.
    rewrite !pv_S, pv_0 by (try apply W0; lia). rewrite E. change (32 * Z.of_nat 0) with 0.
    change (32 * Z.of_nat 1) with 32. lia.
  - f_equal. rewrite limb0_mod by auto. rewrite E. apply ucast_ucast. lia.
Qed.

Lemma as_u128_ok : forall x, wf x -> as_u128 x = Ok (uval x mod 2 ^ 128).
Proof.
  intros x Hx. unfold as_u128. rewrite limb_width_ok_ok. cbn [bind]. pose proof (N_ge4 HV).
  assert (HL : length x = N) by apply Hx.
  rewrite !get_ok by lia. cbn [bind]. rewrite !ushl_ok by lia. cbn [bind].
  pose proof (digits_nth W x 0 W0 (proj2 Hx)) as D0. pose proof (digits_nth W x 1 W0 (proj2 Hx)) as D1.
  pose proof (digits_nth W x 2 W0 (proj2 Hx)) as D2. pose proof (digits_nth W x 3 W0 (proj2 Hx)) as D3.
  destruct (W_cases HV) as [E|E]; rewrite E at 1; cbn [Z.eqb Pos.eqb]; f_equal; rewrite E in D0, D1, D2, D3.
  - rewrite !ucast_small by lia. rewrite (lor_add' 32) by lia. rewrite (lor_add' 64) by lia. rewrite (lor_add' 96) by lia.
    pose proof (uval_firstn x 4 Hx ltac:(lia)) as P. rewrite E in P at 2.
    change (32 * Z.of_nat 4) with 128 in P. rewrite <- P.
    rewrite !pv_S, pv_0 by (try apply W0; lia). rewrite E. change (32 * Z.of_nat 0) with 0.
    change (32 * Z.of_nat 1) with 32. change (32 * Z.of_nat 2) with 64. change (32 * Z.of_nat 3) with 96. lia.
  - rewrite !ucast_small by lia. rewrite !lor_add' by lia.
    pose proof (uval_firstn x 2 Hx ltac:(lia)) as P. rewrite E in P at 2.
    change (64 * Z.of_nat 2) with 128 in P. rewrite <- P.
    rewrite !pv_S, pv_0 by (try apply W0; lia). rewrite E. change (64 * Z.of_nat 0) with 0.
    change (64 * Z.of_nat 1) with 64. lia.
Qed.

Lemma as_ulimb_ok : forall x, wf x -> as_ulimb x = Ok (uval x mod 2 ^ W).
Proof.
  intros x Hx. unfold as_ulimb. rewrite limb_width_ok_ok. cbn [bind].
  rewrite as_u32_ok, as_u64_ok by auto. cbn [bind].
  destruct (W_cases HV) as [E|E]; rewrite E; cbn [Z.eqb Pos.eqb]; f_equal; apply ucast_ucast; lia.
Qed.
Lemma as_uwide_ok : forall x, wf x -> as_uwide x = Ok (uval x mod 2 ^ (2 * W)).
Proof.
  intros x Hx. unfold as_uwide. rewrite wide_width_ok. cbn [bind].
  rewrite as_u64_ok, as_u128_ok by auto. cbn [bind].
  destruct (W_cases HV) as [E|E]; rewrite E; cbn [Z.mul Pos.mul Z.eqb Pos.eqb]; f_equal; apply ucast_ucast; lia.
Qed.

Lemma scast_mod : forall w v, 1 <= w -> scast w (v mod 2 ^ w) = swrap w v.
Proof. intros. rewrite scast_swrap by auto. apply swrap_of_mod; auto. Qed.
Lemma as_i8_ok : forall x, wf x -> as_i8 x = Ok (swrap 8 (uval x)).
Proof. intros x Hx. unfold as_i8. rewrite as_u8_ok by auto. cbn [bind]. rewrite scast_mod by lia. auto. Qed.
Lemma as_i16_ok : forall x, wf x -> as_i16 x = Ok (swrap 16 (uval x)).
Proof. intros x Hx. unfold as_i16. rewrite as_u16_ok by auto. cbn [bind]. rewrite scast_mod by lia. auto. Qed.
Lemma as_i32_ok : forall x, wf x -> as_i32 x = Ok (swrap 32 (uval x)).
Proof. intros x Hx. unfold as_i32. rewrite as_u32_ok by auto. cbn [bind]. rewrite scast_mod by lia. auto. Qed.
Lemma as_i64_ok : forall x, wf x -> as_i64 x = Ok (swrap 64 (uval x)).
Proof. intros x Hx. unfold as_i64. rewrite as_u64_ok by auto. cbn [bind]. rewrite scast_mod by lia. auto. Qed.
Lemma as_i128_ok : forall x, wf x -> as_i128 x = Ok (swrap 128 (uval x)).
Proof. intros x Hx. unfold as_i128. rewrite as_u128_ok by auto. cbn [bind]. rewrite scast_mod by lia. auto. Qed.
Lemma as_ilimb_ok : forall x, wf x -> as_ilimb x = Ok (swrap W (uval x)).
Proof. intros x Hx. unfold as_ilimb. rewrite as_ulimb_ok by auto. cbn [bind]. rewrite scast_mod by apply Wge1. auto. Qed.
Lemma as_iwide_ok : forall x, wf x -> as_iwide x = Ok (swrap (2 * W) (uval x)).
Proof.
  intros x Hx. unfold as_iwide. rewrite as_uwide_ok by auto. cbn [bind]. pose proof HW1.
  rewrite scast_mod by lia. auto.
Qed.
(** Truncation to a narrower signed type only depends on the value modulo
    [2^BITS], so it is the same for the signed reading. *)
Lemma swrap_val : forall sg w x, wf x -> 1 <= w <= BITS -> swrap w (uval x) = swrap w (val sg x).
Proof.
  intros sg w x Hx Hw. apply swrap_eq_mod; [lia|]. destruct (val_cong sg x Hx) as (k & ->).
  replace (2 ^ BITS) with (2 ^ (BITS - w) * 2 ^ w) by (rewrite <- Z.pow_add_r by lia; f_equal; lia).
  rewrite Z.mul_assoc. symmetry. apply Z.mod_add. pose proof (pow2_pos w ltac:(lia)). lia.
Qed.
Lemma mod_val : forall sg w x, wf x -> 0 <= w <= BITS -> uval x mod 2 ^ w = val sg x mod 2 ^ w.
Proof.
  intros sg w x Hx Hw. destruct (val_cong sg x Hx) as (k & ->).
  replace (2 ^ BITS) with (2 ^ (BITS - w) * 2 ^ w) by (rewrite <- Z.pow_add_r by lia; f_equal; lia).
  rewrite Z.mul_assoc. symmetry. apply Z.mod_add. pose proof (pow2_pos w ltac:(lia)). lia.
Qed.
End P.
