(** * Proofs about MTraits.v *)

Require Import ZArith List Bool Lia.
From Verif Require Import Prim Spec Facts MAdd MMul MShift MCore PCore PBits PWide MArith PArith PArith2 PPow PMisc PBits2 PRet
  MDiv DivSpec MApi PApi PApi2 PApi3 MTraits.
Import ListNotations.
Local Open Scope Z_scope.

(** Values of a primitive type. *)
Definition pfits (ps : bool) (p : prim) (v : Z) : Prop := if ps then fits_s (pbits p) v else fits_u (pbits p) v.
(** Reduction into a primitive type. *)
Definition pwrap (ps : bool) (p : prim) (v : Z) : Z := if ps then swrap (pbits p) v else v mod 2 ^ pbits p.
(** Pointers have between 16 and 128 bits. *)
Definition prim_ok (p : prim) : Prop := 16 <= pbits p <= 128 \/ pbits p = 8.

Section P.
Context {c : Cfg}.
Hypothesis HV : Valid.

Lemma pfits_bounds : forall ps p v, prim_ok p -> pfits ps p v <-> pmin ps p <= v <= pmax ps p.
Proof. intros [] p v H; unfold pfits, pmin, pmax, fits_s, fits_u; lia. Qed.
Lemma p128_le : forall b, b <= 128 -> 2 ^ b <= 2 ^ 128.
Proof. intros. apply Z.pow_le_mono_r; lia. Qed.
Lemma pfits_fits : forall ps p v, prim_ok p -> pfits ps p v -> fits true v.
Proof.
  intros ps p v Hp H. pose proof (pB_big HV). pose proof (pBhalf HV). pose proof (pBh HV).
  assert (B : 2 ^ pbits p <= 2 ^ 128) by (apply p128_le; red in Hp; lia).
  assert (B' : 2 ^ (pbits p - 1) <= 2 ^ 128) by (apply p128_le; red in Hp; lia).
  cbn. unfold fits_s. unfold pfits, fits_s, fits_u in H. destruct ps; lia.
Qed.
Lemma pfits_fits_u : forall ps p v, prim_ok p -> pfits ps p v -> 0 <= v -> fits false v.
Proof.
  intros ps p v Hp H Hv. pose proof (pfits_fits ps p v Hp H) as F. cbn in *. unfold fits_u, fits_s in *. pose proof (pBhalf HV). lia.
Qed.
Lemma from_prim_ok : forall ps p v, prim_ok p -> pfits ps p v -> from_prim ps p v = Ok (ofZ v).
Proof.
  intros ps p v Hp H. assert (G : pbits p <= 128) by (red in Hp; lia).
  pose proof (p128_le (pbits p) G) as G1. assert (G2 : 2 ^ (pbits p - 1) <= 2 ^ 127) by (apply Z.pow_le_mono_r; lia).
  unfold pfits, fits_s, fits_u in H.
  destruct p, ps; cbn [pbits] in *; cbn [from_prim];
    lazymatch goal with
    | |- from_u8 _ = _ => apply (from_u8_ok HV)
    | |- from_u16 _ = _ => apply (from_u16_ok HV)
    | |- from_u32 _ = _ => apply (from_u32_ok HV)
    | |- from_u64 _ = _ => apply (from_u64_ok HV)
    | |- from_u128 _ = _ => apply (from_u128_ok HV)
    | |- from_i8 _ = _ => apply (from_i8_ok HV)
    | |- from_i16 _ = _ => apply (from_i16_ok HV)
    | |- from_i32 _ = _ => apply (from_i32_ok HV)
    | |- from_i64 _ = _ => apply (from_i64_ok HV)
    | |- from_i128 _ = _ => apply (from_i128_ok HV)
    end;
    unfold fits_u, fits_s; change (128 - 1) with 127 in *; lia.
Qed.
Lemma pow_split : forall a b, 0 <= a <= b -> 2 ^ b = 2 ^ a * 2 ^ (b - a).
Proof. intros. rewrite <- Z.pow_add_r by lia. f_equal. lia. Qed.
Lemma mod_mod_pow : forall v a b, 0 <= a <= b -> (v mod 2 ^ b) mod 2 ^ a = v mod 2 ^ a.
Proof.
  intros v a b H. pose proof (pow2_pos' a). rewrite (Z.mod_eq v (2 ^ b)) by (pose proof (pow2_pos' b); lia).
  rewrite (pow_split a b H). replace (v - 2 ^ a * 2 ^ (b - a) * (v / (2 ^ a * 2 ^ (b - a)))) with (v + (- (2 ^ (b - a) * (v / (2 ^ a * 2 ^ (b - a))))) * 2 ^ a) by ring.
  apply Z.mod_add. lia.
Qed.
Lemma as_prim_ok : forall sg ps p x, prim_ok p -> wf x -> as_prim ps p x = Ok (pwrap ps p (val sg x)).
Proof.
  intros sg ps p x Hp Hx. assert (G : 1 <= pbits p <= 128) by (red in Hp; lia). pose proof (BITS_ge HV).
  unfold pwrap. rewrite <- (swrap_val HV sg), <- (mod_val HV sg) by (auto; lia).
  destruct p, ps; cbn [as_prim pbits] in *;
    rewrite ?(as_u8_ok HV), ?(as_u16_ok HV), ?(as_u32_ok HV), ?(as_u64_ok HV), ?(as_u128_ok HV),
      ?(as_i8_ok HV), ?(as_i16_ok HV), ?(as_i32_ok HV), ?(as_i64_ok HV), ?(as_i128_ok HV) by auto; auto; cbn [bind]; f_equal.
  - rewrite scast_swrap by lia. apply swrap_eq_mod; [lia|]. rewrite <- (mod_mod_pow _ pw 128) by lia. rewrite swrap_mod by lia.
    apply mod_mod_pow. lia.
  - unfold ucast. apply mod_mod_pow. lia.
Qed.
Lemma pwrap_small : forall ps p v, prim_ok p -> pfits ps p v -> pwrap ps p v = v.
Proof.
  intros [] p v Hp H; unfold pwrap, pfits in *; [apply swrap_small; auto; red in Hp; lia|apply Z.mod_small; auto].
Qed.
Lemma pmax_fits : forall ps p, prim_ok p -> pfits ps p (pmax ps p) /\ pfits ps p (pmin ps p).
Proof.
  intros ps p H. pose proof (pow2_pos' (pbits p)). pose proof (pow2_pos' (pbits p - 1)).
  assert (0 < 2 ^ (pbits p - 1)) by (apply Z.pow_pos_nonneg; red in H; lia).
  assert (0 < 2 ^ (pbits p)) by (apply Z.pow_pos_nonneg; red in H; lia).
  destruct ps; cbn; unfold fits_s, fits_u; lia.
Qed.
Definition pfitsb (ps : bool) (p : prim) (v : Z) : bool := (pmin ps p <=? v) && (v <=? pmax ps p).
Lemma pfitsb_reflect : forall ps p v, prim_ok p -> reflect (pfits ps p v) (pfitsb ps p v).
Proof.
  intros. apply iff_reflect. rewrite pfits_bounds by auto. unfold pfitsb. rewrite andb_true_iff, !Z.leb_le. tauto.
Qed.
Lemma to_primitive_ok : forall sg ps p x, prim_ok p -> wf x ->
  to_primitive sg ps p x = Ok (if pfitsb ps p (val sg x) then Some (val sg x) else None).
Proof.
  intros sg ps p x Hp Hx. destruct (pmax_fits ps p Hp) as (F1 & F2).
  assert (Z0 : 0 <= pmax ps p).
  { assert (0 < 2 ^ (pbits p - 1)) by (apply Z.pow_pos_nonneg; red in Hp; lia).
    assert (0 < 2 ^ (pbits p)) by (apply Z.pow_pos_nonneg; red in Hp; lia). destruct ps; cbn; lia. }
  assert (R : forall b, b = pfitsb ps p (val sg x) ->
    (if b then let* r := as_prim ps p x in Ok (Some r) else Ok None) = Ok (if pfitsb ps p (val sg x) then Some (val sg x) else None)).
  { intros b ->. destruct (pfitsb_reflect ps p (val sg x) Hp) as [F|F]; auto.
    rewrite (as_prim_ok sg) by auto. cbn [bind]. rewrite pwrap_small; auto. }
  unfold to_primitive. destruct sg.
  - unfold s_to_primitive. rewrite !from_prim_ok by auto. cbn [bind]. rewrite (le_const_ok HV) by wfauto. cbn [bind].
    rewrite (ge_const_ok HV) by wfauto. rewrite !(val_ofZ_small HV true) by (eapply pfits_fits; eauto).
    replace (if val true x <=? pmax ps p then Ok (pmin ps p <=? val true x) else Ok false)
      with (Ok (pfitsb ps p (val true x))) by (unfold pfitsb; destruct (_ <=? pmax _ _); rewrite ?andb_true_r, ?andb_false_r; auto).
    cbn [bind]. apply R; auto.
  - unfold u_to_primitive. rewrite from_prim_ok by auto. cbn [bind]. rewrite (le_const_ok HV) by wfauto. cbn [bind].
    rewrite (val_ofZ_small HV false) by (eapply pfits_fits_u; eauto). apply R. unfold pfitsb. pose proof (uval_range HV x Hx).
    assert (pmin ps p <= 0) by (assert (0 < 2 ^ (pbits p - 1)) by (apply Z.pow_pos_nonneg; red in Hp; lia); destruct ps; cbn; lia).
    cbn [val]. destruct (Z.leb_spec (pmin ps p) (uval x)); [|lia]. auto.
Qed.
Lemma from_primitive_ok : forall sg ps p v, prim_ok p -> pfits ps p v ->
  from_primitive sg ps p v = Ok (some_if (sg || (0 <=? v)) v).
Proof.
  intros sg ps p v Hp H. unfold from_primitive. destruct sg; cbn [orb].
  - unfold s_from_primitive. rewrite from_prim_ok by auto. auto.
  - unfold u_from_primitive. destruct (Z.leb_spec 0 v) as [L|L].
    + rewrite andb_comm. destruct (Z.ltb_spec v 0); [lia|]. cbn [andb].
      assert (pfits false p v).
      { unfold pfits, fits_s, fits_u in *. destruct ps; auto.
        assert (2 ^ (pbits p - 1) <= 2 ^ pbits p) by (apply Z.pow_le_mono_r; lia). lia. }
      rewrite from_prim_ok by auto. auto.
    + destruct ps; [|unfold pfits, fits_u in H; lia]. destruct (Z.ltb_spec v 0); [|lia]. auto.
Qed.
Lemma u_try_from_prim_ok : forall p v, prim_ok p -> pfits true p v -> u_try_from_prim p v = Ok (some_if (0 <=? v) v).
Proof. intros p v Hp H. unfold u_try_from_prim. rewrite from_prim_ok by auto. destruct (0 <=? v); auto. Qed.
Lemma u_try_from_signed_ok : forall x, wf x -> u_try_from_signed x = Ok (if 0 <=? sval x then Some x else None).
Proof.
  intros x Hx. unfold u_try_from_signed. rewrite (is_negative_ok HV) by auto. cbn [bind]. unfold as_unsigned. rewrite (mk_ok HV). cbn [bind].
  rewrite Z.ltb_antisym, negb_involutive. destruct (0 <=? sval x); auto.
Qed.
Lemma s_try_from_unsigned_ok : forall x, wf x ->
  s_try_from_unsigned x = Ok (if uval x <? 2 ^ (BITS - 1) - 1 then Some x else None).
Proof.
  intros x Hx. unfold s_try_from_unsigned. rewrite (s_max_value_ok HV). cbn [bind]. unfold as_unsigned. rewrite (mk_ok HV). cbn [bind].
  rewrite (lt_const_ok HV) by wfauto. cbn [bind]. unfold as_signed. rewrite (mk_ok HV). cbn [bind].
  rewrite (val_ofZ_small HV false) by (cbn; unfold fits_u; pose proof (pBhalf HV); pose proof (pBh HV); lia). cbn [val]. destruct (uval x <? _); auto.
Qed.
Lemma P128_ok : prim_ok P128.
Proof. left. cbn. lia. Qed.
Definition cast_range (sg : bool) (v : Z) : bool := if sg then in_s 128 v || in_u 128 v else in_u 128 v.
Lemma in_s_spec : forall v, in_s 128 v = true <-> pfits true P128 v.
Proof. intros. unfold in_s. rewrite andb_true_iff, Z.leb_le, Z.ltb_lt. reflexivity. Qed.
Lemma in_u_spec : forall v, in_u 128 v = true <-> pfits false P128 v.
Proof. intros. unfold in_u. rewrite andb_true_iff, Z.leb_le, Z.ltb_lt. reflexivity. Qed.
Lemma num_cast_prim_ok : forall sg v, num_cast_prim sg v = Ok (some_if (cast_range sg v) v).
Proof.
  intros sg v. unfold num_cast_prim, num_cast, cast_range.
  pose proof (in_s_spec v) as S1. pose proof (in_u_spec v) as U1.
  destruct sg; cbn [bind].
  - destruct (in_s 128 v); cbn [orb].
    + change (s_from_primitive true P128 v) with (from_primitive true true P128 v). rewrite from_primitive_ok by (tauto || apply P128_ok). auto.
    + destruct (in_u 128 v); auto.
      change (s_from_primitive false P128 v) with (from_primitive true false P128 v). rewrite from_primitive_ok by (tauto || apply P128_ok). auto.
  - destruct (in_u 128 v); auto.
    change (u_from_primitive false P128 v) with (from_primitive false false P128 v). rewrite from_primitive_ok by (tauto || apply P128_ok).
    cbn [orb]. destruct (Z.leb_spec 0 v); auto. assert (pfits false P128 v) by tauto. unfold pfits, fits_u in *. lia.
Qed.
Lemma pfitsb_128 : forall v, pfitsb true P128 v = in_s 128 v /\ pfitsb false P128 v = in_u 128 v.
Proof.
  intros v. pose proof (in_s_spec v). pose proof (in_u_spec v).
  destruct (pfitsb_reflect true P128 v P128_ok), (pfitsb_reflect false P128 v P128_ok); destruct (in_s 128 v), (in_u 128 v); intuition congruence.
Qed.
Lemma num_cast_big_ok : forall sg sg' x, wf x -> num_cast_big sg sg' x = Ok (some_if (cast_range sg (val sg' x)) (val sg' x)).
Proof.
  intros sg sg' x Hx. rewrite <- num_cast_prim_ok. unfold num_cast_big, num_cast_prim. rewrite !to_primitive_ok by (auto; apply P128_ok).
  destruct (pfitsb_128 (val sg' x)) as (-> & ->). auto.
Qed.
Lemma nt_zero_ok : nt_zero = Ok (ofZ 0).
Proof. apply (from_u8_ok HV). red. lia. Qed.
Lemma nt_one_ok : nt_one = Ok (ofZ 1).
Proof. apply (from_u8_ok HV). red. lia. Qed.
Lemma nt_is_zero_ok : forall sg x, wf x -> nt_is_zero x = Ok (val sg x =? 0).
Proof. intros. unfold nt_is_zero. rewrite nt_zero_ok. cbn [bind]. rewrite (derived_eq_ok HV) by wfauto. rewrite (eqb0 HV sg) by auto. auto. Qed.
Lemma nt_is_one_ok : forall sg x, wf x -> nt_is_one x = Ok (val sg x =? 1).
Proof.
  intros. unfold nt_is_one. rewrite nt_one_ok. cbn [bind]. rewrite (derived_eq_ok HV) by wfauto.
  rewrite (eqb_ofZ HV sg) by (auto; apply (fits_small HV); lia). auto.
Qed.
Lemma nt_abs_sub_ok : forall x y, wf x -> wf y ->
  nt_abs_sub x y = if sval x <? sval y then Ok (ofZ 0) else op_result true (sval x - sval y).
Proof.
  intros x y Hx Hy. unfold nt_abs_sub. rewrite (lt_const_ok HV) by auto. cbn [bind val]. rewrite nt_zero_ok, (op_sub_ok HV) by auto. auto.
Qed.
Lemma nt_signum_ok : forall x, wf x -> nt_signum x = Ok (ofZ (Z.sgn (sval x))).
Proof.
  intros x Hx. unfold nt_signum. rewrite nt_zero_ok. cbn [bind]. rewrite (derived_eq_ok HV) by wfauto.
  rewrite (eqb0 HV true) by auto. cbn [val]. destruct (Z.eqb_spec (sval x) 0) as [E|E]; [rewrite E; auto|].
  rewrite (gt_const_ok HV) by wfauto. cbn [bind]. rewrite (val_ofZ_small HV true) by apply (fits_0 HV). cbn [val].
  rewrite nt_one_ok. cbn [bind]. rewrite (op_neg_ok HV) by wfauto.
  change (sval (ofZ 1)) with (val true (ofZ 1)). rewrite (val_ofZ_small HV true) by (apply (fits_small HV); lia).
  rewrite op_result_fits by apply (fits_m1 HV).
  rewrite ?Z.gtb_ltb. destruct (Z.ltb_spec 0 (sval x)); do 2 f_equal; destruct (sval x); cbn; auto; lia.
Qed.
Lemma nt_is_positive_ok : forall x, wf x -> nt_is_positive x = Ok (0 <=? sval x).
Proof.
  intros x Hx. unfold nt_is_positive. rewrite nt_zero_ok. cbn [bind]. rewrite (ge_const_ok HV) by wfauto.
  rewrite (val_ofZ_small HV true) by apply (fits_0 HV). auto.
Qed.
Lemma nt_is_negative_ok : forall x, wf x -> nt_is_negative x = Ok (sval x <? 0).
Proof.
  intros x Hx. unfold nt_is_negative. rewrite nt_zero_ok. cbn [bind]. rewrite (lt_const_ok HV) by wfauto.
  rewrite (val_ofZ_small HV true) by apply (fits_0 HV). auto.
Qed.
Lemma cast_id : forall x, cast_signed x = Ok x /\ cast_unsigned x = Ok x.
Proof. intros. unfold cast_signed, cast_unsigned, as_signed, as_unsigned. rewrite (mk_ok HV). auto. Qed.
Lemma bind_id : forall {A} (m : res A), (let* r := m in Ok r) = m.
Proof. destruct m; auto. Qed.
Lemma nt_shl_ok : forall sg x n, wf x -> nt_signed_shl sg x n = op_shl false 32 x n /\ nt_unsigned_shl sg x n = op_shl false 32 x n.
Proof.
  intros sg x n Hx. unfold nt_signed_shl, nt_unsigned_shl. destruct (cast_id x) as (-> & ->). cbn [bind].
  destruct sg; split; auto; rewrite (op_shl_ok HV) by (auto; lia); destruct (_ && _); auto; cbn [bind]; apply cast_id.
Qed.
Lemma nt_shr_ok : forall sg x n, wf x -> nt_signed_shr sg x n = op_shr true false 32 x n /\ nt_unsigned_shr sg x n = op_shr false false 32 x n.
Proof.
  intros sg x n Hx. unfold nt_signed_shr, nt_unsigned_shr. destruct (cast_id x) as (-> & ->). cbn [bind].
  destruct sg; split; auto; rewrite (op_shr_ok HV) by (auto; lia); destruct (_ && _); auto; cbn [bind]; apply cast_id.
Qed.
End P.
