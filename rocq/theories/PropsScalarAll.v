(** * Division by scalars, decided (C78)

    C09, C49 and C50 prove the divisions by scalars exact under [exact_scalar]
    and refute them without it.  Here: for each form exactly when its answer is
    right, and what it does otherwise. *)

Require Import ZArith List Bool Lia.
From Verif Require Import Prim Spec Facts MAdd MMul MShift MCore PCore PBits PWide MArith PArith PArith2 PPow PMisc PRet
  MDiv DivSpec PDiv PDivFull PDivExact MScalar PScalar PScalarDiv PApi PApi2 PropsDivAll.
Import ListNotations.
Local Open Scope Z_scope.

(** ** Vocabulary *)
Section Vocabulary.
Context {c : Cfg}.
(** the division panics: a scalar of two limbs and a quotient digit to correct *)
Definition scalar_fails (k : skind) (x n : Z) : Prop :=
  W < kbits k <= 2 * W /\ 2 ^ (2 * W) <= Z.abs x /\ 2 ^ W <= Z.abs n /\ has_correction W (Z.abs x) (Z.abs n) = true.
Definition scalar_right (k : skind) (x n : Z) : Prop := exact_scalar W N (kbits k) (Z.abs x) (Z.abs n).
(** the quotient and the remainder of a call *)
Definition quot_of {A} (m : res (A * Z)) : res A := let* (q, _) := m in Ok q.
Definition rem_of {A} (m : res (A * Z)) : res Z := let* (_, r) := m in Ok r.
Definition div_us (f : variant) (k : skind) (sg : bool) (x : list Z) (n : Z) : res (list Z * Z) :=
  match f with
  | Wrapping => wrapping_div_rem_us k sg x n | Operator | Strict => div_rem_us k sg x n
  | Checked => of_option (checked_div_rem_us k sg x n) | Overflowing => of_flag (overflowing_div_rem_us k sg x n) end.
Definition div_is (f : variant) (k : skind) (x : list Z) (n : Z) : res (list Z * Z) :=
  match f with
  | Wrapping => wrapping_div_rem_is k x n | Operator | Strict => div_rem_is k x n
  | Checked => of_option (checked_div_rem_is k x n) | Overflowing => of_flag (overflowing_div_rem_is k x n) end.
End Vocabulary.

(** ** Proofs *)

(** a bound on the stray carries below limb [M] *)
Lemma fold_stray_sum : forall w n s M f len a, 1 <= w -> 0 <= s -> s <= w * Z.of_nat (a + n) -> (a + n < M)%nat ->
  fold_right (fun j acc => (if f j && (j + n <? M)%nat then 2 ^ (w * Z.of_nat (j + n) - s) else 0) + acc) 0 (seq a len)
  + 2 ^ (w * Z.of_nat (a + n) - s) <= 2 * 2 ^ (w * Z.of_nat (M - 1) - s).
Proof.
  intros w n s M f len. induction len; intros a Hw Hs HA Ha; cbn [seq fold_right];
    assert (HP : 2 ^ (w * Z.of_nat (a + n) - s) <= 2 ^ (w * Z.of_nat (M - 1) - s)) by (apply Z.pow_le_mono_r; nia);
    assert (Hp : 0 < 2 ^ (w * Z.of_nat (a + n) - s)) by (apply pow2_pos; nia); [lia|].
  assert ((if f a && (a + n <? M)%nat then 2 ^ (w * Z.of_nat (a + n) - s) else 0) <= 2 ^ (w * Z.of_nat (a + n) - s))
    by (destruct (_ && _); lia).
  destruct (Nat.eq_dec (S a + n) M) as [Em|Em].
  - rewrite fold_stray_0 by lia. replace (M - 1)%nat with (a + n)%nat by lia. lia.
  - specialize (IHlen (S a) Hw Hs ltac:(nia) ltac:(lia)).
    assert (Hd : 2 * 2 ^ (w * Z.of_nat (a + n) - s) <= 2 ^ (w * Z.of_nat (S a + n) - s)).
    { replace (w * Z.of_nat (S a + n) - s) with (w + (w * Z.of_nat (a + n) - s)) by lia.
      rewrite Z.pow_add_r by lia. pose proof (pow2_ge2 w Hw). nia. }
    lia.
Qed.
(** carries from limb [M] on vanish modulo [2^e] *)
Lemma fold_stray_mod : forall w n s M M' e f l, 0 <= w -> (M' <= M)%nat -> 0 <= e -> e <= w * Z.of_nat M' - s ->
  (fold_right (fun j acc => (if f j && (j + n <? M)%nat then 2 ^ (w * Z.of_nat (j + n) - s) else 0) + acc) 0 l) mod 2 ^ e =
  (fold_right (fun j acc => (if f j && (j + n <? M')%nat then 2 ^ (w * Z.of_nat (j + n) - s) else 0) + acc) 0 l) mod 2 ^ e.
Proof.
  intros w n s M M' e f l Hw HM He HE. induction l as [|j l IH]; cbn [fold_right]; [reflexivity|].
  rewrite <- Zplus_mod_idemp_r, IH, Zplus_mod_idemp_r. destruct (f j); cbn [andb]; [|reflexivity].
  destruct (Nat.ltb_spec (j + n) M'), (Nat.ltb_spec (j + n) M); try reflexivity; try lia.
  rewrite Z.add_0_l. assert (P : e <= w * Z.of_nat (j + n) - s) by nia.
  replace (w * Z.of_nat (j + n) - s) with ((w * Z.of_nat (j + n) - s - e) + e) by lia. rewrite Z.pow_add_r by lia.
  rewrite Z.add_comm, Z.mod_add by (pose proof (pow2_pos e); lia). reflexivity.
Qed.

Section P.
Context {c : Cfg}.
Hypothesis HV : Valid.

(** what the stray carries of a 128-bit divisor add to the remainder *)
Lemma low_stray : forall x y, W = 32 -> 0 < y < 2 ^ 128 ->
  exists t, stray W N x y mod 2 ^ 128 = t /\ (t = 0 \/ (y < t /\ t + y <= 2 ^ 128)).
Proof.
  intros x y HW Hy. set (s := norm_shift W y). set (n := Z.to_nat (limbs_of W y)).
  assert (W1 : 1 <= W) by lia. pose proof (norm_shift_nonneg W y W1) as S0. fold s in S0. pose proof (limbs_of_pos W y W1) as L1.
  assert (EN : W * Z.of_nat n - s = Z.succ (Z.log2 y)) by (unfold n, s, norm_shift; rewrite Z2Nat.id by lia; lia).
  assert (S31 : s <= 31).
  { unfold s, norm_shift, limbs_of. rewrite HW. pose proof (Z.div_mod (Z.log2 y) 32 ltac:(lia)). pose proof (Z.mod_pos_bound (Z.log2 y) 32 ltac:(lia)). lia. }
  assert (LY : 0 <= Z.log2 y < 128) by (split; [apply Z.log2_nonneg|apply Z.log2_lt_pow2; lia]).
  assert (YB : y < 2 ^ (W * Z.of_nat n - s)) by (rewrite EN; apply Z.log2_spec; lia).
  assert (N8 : (8 <= N)%nat) by (pose proof BITS_alt as BA; pose proof (BITS_ge HV) as BG; rewrite HW in BA; lia).
  set (M' := if s =? 0 then 4%nat else 5%nat).
  assert (EM : 128 <= W * Z.of_nat M' - s /\ W * Z.of_nat (M' - 1) - s + 1 <= 128 /\ (M' <= N)%nat).
  { unfold M'. rewrite HW. destruct (Z.eqb_spec s 0); lia. }
  destruct EM as (E1 & E2 & E3).
  assert (SM : stray W N x y mod 2 ^ 128 = stray W M' x y mod 2 ^ 128) by (unfold stray; apply fold_stray_mod; lia).
  assert (SB : stray W M' x y = 0 \/ stray W M' x y + y <= 2 ^ 128).
  { destruct (Nat.le_gt_cases M' n) as [Le|Gt].
    - left. unfold stray. fold n. apply fold_stray_0. lia.
    - right. pose proof (fold_stray_sum W n s M' (overestimated W n (x * 2 ^ s) (y * 2 ^ s)) (Z.to_nat (limbs_of W x) - n + 1) 0 W1 S0 ltac:(rewrite Nat.add_0_l; lia) ltac:(lia)) as SU.
      rewrite Nat.add_0_l in SU. change (stray W M' x y) with (fold_right (fun j acc => (if overestimated W n (x * 2 ^ s) (y * 2 ^ s) j && (j + n <? M')%nat then 2 ^ (W * Z.of_nat (j + n) - s) else 0) + acc) 0 (seq 0 (Z.to_nat (limbs_of W x) - n + 1))).
      assert (P1 : 2 * 2 ^ (W * Z.of_nat (M' - 1) - s) = 2 ^ (W * Z.of_nat (M' - 1) - s + 1)) by (rewrite Z.pow_add_r by nia; lia).
      assert (P2 : 2 ^ (W * Z.of_nat (M' - 1) - s + 1) <= 2 ^ 128) by (apply Z.pow_le_mono_r; lia). lia. }
  assert (W0 : 0 <= W) by lia. assert (Y0 : 0 < y) by lia. pose proof (stray_nonneg W M' x y W0) as SN. exists (stray W M' x y). rewrite SM.
  destruct SB as [Z0|SB]; [rewrite Z0; auto|]. split; [apply Z.mod_small; lia|].
  destruct (stray_gt HV M' x y Y0); auto.
Qed.

(** the three outcomes *)
Lemma scalar_outcomes : forall k x n, 0 <= x -> 0 < n < 2 ^ kbits k ->
  (scalar_fails k x n /\ ~ scalar_right k x n /\ scalar_outcome W N (kbits k) x n = None) \/
  (~ scalar_fails k x n /\ scalar_right k x n /\ scalar_outcome W N (kbits k) x n = Some (x / n, x mod n)) \/
  (~ scalar_fails k x n /\ ~ scalar_right k x n /\ W = 32 /\ kbits k = 128 /\ route k = D128 /\ 2 <= n /\ exists t, n < t /\ t + n <= 2 ^ 128 /\
     scalar_outcome W N (kbits k) x n = Some (x / n, x mod n + t)).
Proof.
  intros k x n Hx Hn. unfold scalar_fails, scalar_right, exact_scalar. rewrite !(Z.abs_eq x), !(Z.abs_eq n) by lia.
  assert (WP : 32 <= W) by (destruct (W_cases HV); lia). assert (B32 : 2 ^ 32 <= 2 ^ W) by (apply Z.pow_le_mono_r; lia).
  assert (PB2 : 2 ^ W < 2 ^ (2 * W)) by (apply Z.pow_lt_mono_r; lia).
  unfold scalar_outcome. destruct (Z.leb_spec (kbits k) W).
  { right. left. destruct (Z.eqb_spec n 0); [lia|]. split; [lia|]. auto. }
  destruct (Z.eqb_spec x 0) as [->|Nx].
  { right. left. rewrite Z.div_0_l, Z.mod_0_l by lia. split; [lia|]. split; [|reflexivity]. right. left. lia. }
  destruct (Z.eqb_spec n 0); [lia|].
  destruct (Z.leb_spec (kbits k) (2 * W)) as [K2|K2].
  - assert (N2 : n < 2 ^ (2 * W)) by (assert (2 ^ kbits k <= 2 ^ (2 * W)) by (apply Z.pow_le_mono_r; lia); lia).
    destruct (Z.leb_spec (2 ^ (2 * W)) x) as [X2|X2]; cbn [andb]; [|right; left; split; [lia|]; auto].
    destruct (Z.leb_spec (2 ^ W) n) as [N1|N1]; cbn [andb]; [|right; left; split; [lia|]; auto].
    destruct (has_correction W x n) eqn:HC; cbn [andb].
    + left. split; [auto|]. split; [|reflexivity]. intros [D|[D|[D|[D|[(D & D')|(D & D')]]]]]; try lia; discriminate.
    + right. left. split; [intros (_ & _ & _ & D); discriminate|]. split; [|reflexivity]. right. right. right. right. left. auto.
  - destruct (route_cases HV k) as [(R & D & K)|[(R & D & K)|(R & D & K & E)]]; [lia|lia|]. rewrite K in *.
    pose proof (Z.mod_pos_bound x n ltac:(lia)) as MB.
    assert (EX : forall (P : Prop), P -> ((x mod n + 0) mod 2 ^ 128 = x mod n)) by (intros; rewrite Z.add_0_r; apply Z.mod_small; lia).
    destruct (Z.leb_spec (2 ^ (2 * W)) x) as [X2|X2]; cbn [andb]; [|right; left; split; [lia|]; split; [lia|]; rewrite (EX True) by auto; reflexivity].
    destruct (Z.ltb_spec n x) as [XN|XN]; cbn [andb]; [|right; left; split; [lia|]; split; [lia|]; rewrite (EX True) by auto; reflexivity].
    destruct (Z.leb_spec (2 ^ W) n) as [N1|N1]; cbn [andb]; [|right; left; split; [lia|]; split; [lia|]; rewrite (EX True) by auto; reflexivity].
    destruct (low_stray x n E Hn) as (t & Et & [T0|(T1 & T2)]).
    + right. left. split; [lia|]. split; [right; right; right; right; right; split; [lia|congruence]|].
      rewrite <- Zplus_mod_idemp_r, Et, T0, (EX True) by auto. reflexivity.
    + right. right. split; [lia|]. split; [intros [Q|[Q|[Q|[Q|[(Q & Q')|(Q & Q')]]]]]; lia|]. split; [auto|]. split; [auto|]. split; [auto|]. split; [lia|].
      exists t. split; [auto|]. split; [auto|]. rewrite <- Zplus_mod_idemp_r, Et. rewrite Z.mod_small by lia. reflexivity.
Qed.

Lemma abs_fails : forall k x n, scalar_fails k (Z.abs x) (Z.abs n) <-> scalar_fails k x n.
Proof. intros. unfold scalar_fails. rewrite !Z.abs_involutive. tauto. Qed.
Lemma abs_right : forall k x n, scalar_right k (Z.abs x) (Z.abs n) <-> scalar_right k x n.
Proof. intros. unfold scalar_right. rewrite !Z.abs_involutive. tauto. Qed.
Lemma div_us_eq : forall f k sg x n, n <> 0 -> div_us f k sg x n = wrapping_div_rem_us k sg x n.
Proof.
  intros f k sg x n Hn. assert (E : forall b, (n =? 0) = b -> b = false) by (intros b <-; apply Z.eqb_neq; auto).
  destruct f; cbn [div_us]; unfold div_rem_us, checked_div_rem_us, overflowing_div_rem_us; rewrite ?(E _ eq_refl); destruct chk; cbn [negb];
    destruct (wrapping_div_rem_us k sg x n); reflexivity.
Qed.
Lemma div_is_eq : forall f k x n, wf x -> divisible true (sval x) n -> div_is f k x n = wrapping_div_rem_is k x n.
Proof.
  intros f k x n Hx (Hn & HM). assert (E : forall b, (n =? 0) = b -> b = false) by (intros b <-; apply Z.eqb_neq; auto).
  assert (O : overflowing_div_rem_is k x n = let* qr := wrapping_div_rem_is k x n in Ok (qr, false)).
  { unfold overflowing_div_rem_is. rewrite (s_min_value_ok HV). cbn [bind]. rewrite (eq_const_ok HV) by (auto; apply (wf_ofZ HV)). cbn [bind].
    rewrite (eqb_ofZ HV true) by (auto; apply (min_fits HV)). cbn [val].
    destruct (Z.eqb_spec (sval x) (- 2 ^ (BITS - 1))), (Z.eqb_spec n (-1)); try reflexivity. tauto. }
  destruct f; cbn [div_is]; unfold div_rem_is, checked_div_rem_is; rewrite ?O, ?(E _ eq_refl); destruct chk; cbn [negb];
    destruct (wrapping_div_rem_is k x n); reflexivity.
Qed.
(** the signed result for a signed scalar, in all cases *)
Lemma wrapping_div_rem_is_all : forall k x n, wf x -> n <> 0 -> fits_s (kbits k) n ->
  wrapping_div_rem_is k x n =
  match scalar_outcome W N (kbits k) (Z.abs (sval x)) (Z.abs n) with
  | Some (q, r) => Ok (ofZ (if xorb (sval x <? 0) (n <? 0) then - q else q),
      scast (kbits k) (let r := scast (dbits (route k)) r in if sval x <? 0 then scast (dbits (route k)) (- r) else r))
  | None => Panic
  end.
Proof.
  intros k x n Hx Hn Hf. unfold wrapping_div_rem_is. cbn zeta. rewrite (scast_d HV) by auto.
  unfold s_div_rem_i. rewrite (unsigned_abs_ok HV) by auto. cbn [bind].
  pose proof (dbits_1 HV k) as D1. assert (Hh : 2 ^ kbits k = 2 * 2 ^ (kbits k - 1)) by (apply pow2_half; lia). assert (0 < 2 ^ (kbits k - 1)) by (apply pow2_pos; lia). unfold fits_s in Hf.
  rewrite (div_by_ok HV) by (try apply (wf_ofZ HV); lia). rewrite (uval_abs HV) by auto.
  destruct (scalar_outcome W N (kbits k) (Z.abs (sval x)) (Z.abs n)) as [[q r]|]; cbn [lift2 bind]; [|reflexivity]. rewrite (mk_ok HV). cbn [bind].
  rewrite (is_negative_ok HV) by auto. cbn [bind].
  rewrite (s_wrapping_neg_ok HV) by apply (wf_ofZ HV). rewrite (ofZ_opp_sval HV).
  destruct (sval x <? 0), (n <? 0); cbn [eqb negb xorb bind]; reflexivity.
Qed.
(** the signed result for an unsigned scalar, in all cases *)
Lemma wrapping_div_rem_us_all : forall k x n, wf x -> n <> 0 -> fits_u (kbits k) n ->
  wrapping_div_rem_us k true x n =
  match scalar_outcome W N (kbits k) (Z.abs (sval x)) n with
  | Some (q, r) =>
      if (sval x <? 0) && negb (r =? 0) then
        let* r' := usub (dbits (route k)) n r in Ok (ofZ (- q - 1), ucast (kbits k) r')
      else Ok (ofZ (if sval x <? 0 then - q else q), ucast (kbits k) r)
  | None => Panic
  end.
Proof.
  intros k x n Hx Hn Hf. assert (Pn : 0 < n) by (destruct Hf; lia). destruct (scalar_outcomes k (Z.abs (sval x)) n (Z.abs_nonneg _) (conj Pn (proj2 Hf))) as [(_ & _ & E)|[(_ & R & E)|(_ & _ & HW & HK & HR & N2 & t & T1 & T2 & E)]].
  - rewrite E. apply (wrapping_div_rem_us_panic HV); auto.
  - rewrite (wrapping_div_rem_us_ok HV) by (auto; cbn [val]; unfold scalar_right in R; rewrite Z.abs_involutive, (Z.abs_eq n) in R by lia; auto). rewrite E. cbn [val].
    pose proof (Z.mod_pos_bound (Z.abs (sval x)) n Pn) as MB. unfold fits_u in Hf. pose proof (dbits_1 HV k) as D1. pose proof (pow2_le_mono (kbits k) (dbits (route k))) as PM.
    assert (U : forall v, 0 <= v < 2 ^ kbits k -> ucast (kbits k) v = v) by (intros v Hv; apply Z.mod_small; auto).
    destruct (Z.ltb_spec (sval x) 0) as [Neg|Pos]; cbn [andb].
    + destruct (floor_neg (sval x) n Neg Pn) as [F0 F1]. destruct (Z.eqb_spec (Z.abs (sval x) mod n) 0) as [Z0|NZ]; cbn [negb].
      * destruct (F0 Z0) as [-> ->]. rewrite Z0, U by lia. reflexivity.
      * destruct (F1 NZ) as [-> ->]. unfold usub. rewrite uchk_ok by (unfold fits_u; lia). cbn [bind]. rewrite U by lia. reflexivity.
    + rewrite (Z.abs_eq (sval x)) in * by lia. rewrite U by lia. reflexivity.
  - unfold wrapping_div_rem_us. cbn zeta. rewrite (ucast_d HV) by auto. unfold s_div_rem_u. rewrite (unsigned_abs_ok HV) by auto. cbn [bind]. unfold fits_u in Hf.
    rewrite (div_by_ok HV) by (try apply (wf_ofZ HV); lia). rewrite (uval_abs HV) by auto. rewrite E. cbn [lift2 bind]. rewrite (mk_ok HV). cbn [bind].
    rewrite (is_negative_ok HV) by auto. cbn [bind]. destruct (Z.ltb_spec (sval x) 0) as [Neg|Pos]; cbn [andb bind]; [|reflexivity].
    rewrite (s_wrapping_neg_ok HV) by apply (wf_ofZ HV). cbn [bind]. rewrite (ofZ_opp_sval HV).
    pose proof (Z.mod_pos_bound (Z.abs (sval x)) n Pn) as MB.
    destruct (Z.eqb_spec (Z.abs (sval x) mod n + t) 0); [lia|]. cbn [negb]. rewrite (from_u8_ok HV) by (unfold fits_u; lia). cbn [bind].
    rewrite (op_sub_ok HV) by apply (wf_ofZ HV). cbn [val].
    pose proof (sval_range HV x Hx) as Rx. pose proof (pBh HV) as PH. unfold fits_s in Rx.
    assert (Q : 0 <= Z.abs (sval x) / n <= 2 ^ (BITS - 1) - 1).
    { split; [apply Z.div_pos; lia|].
      assert (Z.abs (sval x) / n <= Z.abs (sval x) / 2) by (apply Z.div_le_compat_l; lia).
      assert (Z.abs (sval x) / 2 <= 2 ^ (BITS - 1) / 2) by (apply Z.div_le_mono; lia).
      assert (Hd2 : 2 ^ (BITS - 1) / 2 < 2 ^ (BITS - 1)) by (apply Z.div_lt; lia). lia. }
    pose proof (pB_big HV) as PBB. rewrite !(sval_ofZ_fits HV) by (unfold fits_s; lia). rewrite op_result_fits by (unfold fits, fits_s; lia). cbn [bind].
    destruct (usub _ _ _); reflexivity.
Qed.
Lemma swrap128_ne : forall a b, 0 < Z.abs (a - b) < 2 ^ 128 -> swrap 128 a <> swrap 128 b.
Proof.
  intros a b H E. destruct (swrap_cong 128 a ltac:(lia)) as (i & Ei). destruct (swrap_cong 128 b ltac:(lia)) as (j & Ej). rewrite Ei, Ej in E.
  assert (a - b = (j - i) * 2 ^ 128) by lia. destruct (Z.eq_dec (j - i) 0); [lia|]. assert (1 <= Z.abs (j - i)) by lia. nia.
Qed.
End P.

(** ** C78 *)

(** Unsigned values: the quotient is right unless the division panics; the
    remainder is right exactly in the exact divisions, and too large by more than
    the divisor otherwise. *)
Theorem C78_unsigned : forall (c : Cfg) f k x n, Valid -> wf x -> fits_u (kbits k) n -> n <> 0 ->
  (scalar_fails k (uval x) n -> div_us f k false x n = Panic) /\
  (~ scalar_fails k (uval x) n -> right false (quot_of (div_us f k false x n)) (uval x / n)) /\
  (rem_of (div_us f k false x n) = Ok (uval x mod n) <-> scalar_right k (uval x) n) /\
  (~ scalar_fails k (uval x) n -> ~ scalar_right k (uval x) n -> exists r, rem_of (div_us f k false x n) = Ok r /\ uval x mod n + n < r).
Proof.
  intros c f k x n HV Hx Hn H0. rewrite (div_us_eq f k false x n H0), (u_wrapping_div_rem_us_all HV) by auto. pose proof (uval_range HV x Hx) as Rx.
  assert (Pn : 0 < n < 2 ^ kbits k) by (destruct Hn; lia). assert (G : right false (Ok (ofZ (uval x / n))) (uval x / n)).
  { exists (ofZ (uval x / n)). split; [reflexivity|]. split; [apply (wf_ofZ HV)|]. apply (val_ofZ_small HV false). split; [apply Z.div_pos; lia|]. apply Z.div_lt_upper_bound; nia. }
  destruct (scalar_outcomes HV k (uval x) n (proj1 Rx) Pn) as [(F & R & ->)|[(F & R & ->)|(F & R & HW & HK & HR & N2 & t & T1 & T2 & ->)]]; cbn [lift2 quot_of rem_of bind].
  - split; [auto|]. split; [tauto|]. split; [|tauto]. split; [discriminate|tauto].
  - split; [tauto|]. split; [auto|]. split; tauto.
  - split; [tauto|]. split; [auto|]. split; [split; [intros [= E]; lia|tauto]|]. intros _ _. eexists. split; [reflexivity|lia].
Qed.
(** Signed values and signed scalars. *)
Theorem C78_signed_by_signed : forall (c : Cfg) f k x n, Valid -> wf x -> fits_s (kbits k) n -> divisible true (sval x) n ->
  (scalar_fails k (sval x) n -> div_is f k x n = Panic) /\
  (~ scalar_fails k (sval x) n -> right true (quot_of (div_is f k x n)) (Z.quot (sval x) n)) /\
  (rem_of (div_is f k x n) = Ok (Z.rem (sval x) n) <-> scalar_right k (sval x) n).
Proof.
  intros c f k x n HV Hx Hn D. assert (H0 : n <> 0) by apply D. rewrite (div_is_eq HV) by auto.
  assert (QF : fits_s BITS (Z.quot (sval x) n)).
  { pose proof (sval_range HV x Hx) as Rx. unfold fits_s in *. pose proof (pBh HV) as PH. destruct D as (_ & DM).
    destruct (quot_abs (sval x) n H0) as [Eq _]. assert (QP : 0 <= Z.abs (sval x) / Z.abs n) by (apply Z.div_pos; lia). destruct (Z.eq_dec (Z.abs n) 1) as [E1|E1].
    - rewrite E1, Z.div_1_r in *. destruct (Z.ltb_spec (sval x) 0), (Z.ltb_spec n 0); cbn [xorb] in Eq; rewrite Eq; lia.
    - assert (Z.abs (sval x) / Z.abs n <= Z.abs (sval x) / 2) by (apply Z.div_le_compat_l; lia).
      assert (Z.abs (sval x) / 2 <= 2 ^ (BITS - 1) / 2) by (apply Z.div_le_mono; lia).
      assert (Hd2 : 2 ^ (BITS - 1) / 2 < 2 ^ (BITS - 1)) by (apply Z.div_lt; lia).
      rewrite Eq. destruct (xorb _ _); lia. }
  assert (G : right true (Ok (ofZ (Z.quot (sval x) n))) (Z.quot (sval x) n)).
  { exists (ofZ (Z.quot (sval x) n)). split; [reflexivity|]. split; [apply (wf_ofZ HV)|]. apply (val_ofZ_small HV true). exact QF. }
  pose proof (dbits_1 HV k) as D1. assert (Hh : 2 ^ kbits k = 2 * 2 ^ (kbits k - 1)) by (apply pow2_half; lia). assert (0 < 2 ^ (kbits k - 1)) by (apply pow2_pos; lia).
  assert (Pn : 0 < Z.abs n < 2 ^ kbits k) by (unfold fits_s in Hn; lia).
  destruct (scalar_outcomes HV k (Z.abs (sval x)) (Z.abs n) (Z.abs_nonneg _) Pn) as [(F & R & E)|[(F & R & E)|(F & R & HW & HK & HR & N2 & t & T1 & T2 & E)]]; rewrite abs_fails in F; rewrite abs_right in R.
  - rewrite (wrapping_div_rem_is_panic HV) by auto. cbn [quot_of rem_of bind]. split; [auto|]. split; [tauto|]. split; [discriminate|tauto].
  - rewrite (wrapping_div_rem_is_ok HV) by auto. cbn [quot_of rem_of bind]. split; [tauto|]. split; [auto|]. tauto.
  - rewrite (wrapping_div_rem_is_all HV), E by auto. cbn [quot_of rem_of bind]. split; [tauto|]. split.
    + intros _. destruct (quot_abs (sval x) n H0) as [Eq _]. rewrite <- Eq. exact G.
    + split; [|tauto]. intros [= ER]. exfalso. rewrite HR, HK in ER. cbn [dbits] in ER. destruct (quot_abs (sval x) n H0) as [_ Er].
      pose proof (Z.mod_pos_bound (Z.abs (sval x)) (Z.abs n) ltac:(lia)) as MB.
      assert (RF : fits_s 128 (Z.rem (sval x) n)) by (rewrite Er; unfold fits_s in *; rewrite HK in *; destruct (sval x <? 0); lia).
      rewrite <- (swrap_small 128 (Z.rem (sval x) n)) in ER by (auto; lia). revert ER. cbv zeta. rewrite !scast_swrap by lia.
      assert (SI : forall v, swrap 128 (swrap 128 v) = swrap 128 v) by (intro; apply swrap_eq_mod; [lia|apply swrap_mod; lia]).
      assert (SO : forall v, swrap 128 (- swrap 128 v) = swrap 128 (- v)).
      { intro v. apply swrap_eq_mod; [lia|]. rewrite <- (Z.sub_0_l (swrap 128 v)), <- (Z.sub_0_l v), Zminus_mod, swrap_mod, <- Zminus_mod by lia. reflexivity. }
      rewrite Er. destruct (sval x <? 0); rewrite ?SI, ?SO, ?SI; apply swrap128_ne; lia.
Qed.
(** Signed values and unsigned scalars, rounding down: without overflow checks a
    negative multiple of the divisor can come out one too small; with them every
    inexact division of a negative number panics. *)
Theorem C78_signed_by_unsigned : forall (c : Cfg) f k x n, Valid -> wf x -> fits_u (kbits k) n -> n <> 0 ->
  (scalar_fails k (sval x) n -> div_us f k true x n = Panic) /\
  (right true (quot_of (div_us f k true x n)) (sval x / n) <->
     ~ scalar_fails k (sval x) n /\ (scalar_right k (sval x) n \/ 0 <= sval x \/ (chk = false /\ sval x mod n <> 0))) /\
  (rem_of (div_us f k true x n) = Ok (sval x mod n) <-> scalar_right k (sval x) n) /\
  (chk = true -> ~ scalar_right k (sval x) n -> sval x < 0 -> div_us f k true x n = Panic).
Proof.
  intros c f k x n HV Hx Hn H0. rewrite (div_us_eq f k true x n H0). assert (Pn : 0 < n < 2 ^ kbits k) by (destruct Hn; lia). assert (P0 : 0 < n) by lia.
  pose proof (sval_range HV x Hx) as Rx. unfold fits_s in Rx. pose proof (pBh HV) as PH. pose proof (pBhalf HV) as P2.
  assert (QF : fits true (sval x / n)) by (unfold fits, fits_s; split; [apply Z.div_le_lower_bound; nia|apply Z.div_lt_upper_bound; nia]).
  assert (NR : forall v, ~ right true (quot_of (A := list Z) Panic) v) by (intros v (r & E & _); discriminate).
  destruct (scalar_outcomes HV k (Z.abs (sval x)) n (Z.abs_nonneg _) Pn) as [(F & R & E)|[(F & R & E)|(F & R & HW & HK & HR & N2 & t & T1 & T2 & E)]];
    rewrite <- (Z.abs_eq n) in F, R by lia; rewrite abs_fails in F; rewrite abs_right in R.
  - rewrite (wrapping_div_rem_us_panic HV) by auto. split; [auto|]. split; [split; [intro H; apply NR in H; contradiction|tauto]|]. split; [|auto]. cbn. split; [discriminate|tauto].
  - assert (R' : exact_scalar W N (kbits k) (Z.abs (val true x)) n) by (unfold scalar_right in R; rewrite (Z.abs_eq n) in R by lia; exact R).
    rewrite (wrapping_div_rem_us_ok HV) by auto. cbn [val quot_of rem_of bind]. split; [tauto|]. split; [|split; [tauto|tauto]].
    split; [auto|]. intros _. exists (ofZ (sval x / n)). split; [reflexivity|]. split; [apply (wf_ofZ HV)|]. apply (val_ofZ_small HV true). auto.
  - pose proof (Z.mod_pos_bound (Z.abs (sval x)) n P0) as MB. rewrite (wrapping_div_rem_us_all HV), E by auto. rewrite HR, HK. cbn [dbits].
    destruct (Z.eqb_spec (Z.abs (sval x) mod n + t) 0); [lia|]. cbn [negb]. rewrite andb_true_r.
    destruct (Z.ltb_spec (sval x) 0) as [Neg|Pos].
    + unfold usub, uchk. destruct (in_u_reflect 128 (n - (Z.abs (sval x) mod n + t))) as [I|I]; [unfold fits_u in I; lia|].
      destruct chk eqn:HC; cbn [bind quot_of rem_of].
      * split; [tauto|]. split; [split; [intro H; apply NR in H; contradiction|intros (_ & [H|[H|(H & _)]]); [tauto|lia|discriminate]]|]. split; [split; [discriminate|tauto]|auto].
      * split; [tauto|]. split; [|split; [|discriminate]].
        -- change (Ok (ofZ (- (Z.abs (sval x) / n) - 1))) with (lift1 (Some (- (Z.abs (sval x) / n) - 1))). rewrite (right_lift HV true) by auto.
           destruct (floor_neg (sval x) n Neg P0) as [F0 F1]. destruct (Z.eq_dec (Z.abs (sval x) mod n) 0) as [Z0|NZ].
           ++ destruct (F0 Z0) as [-> ->]. split; [|intros (_ & [H|[H|(_ & H)]]); [tauto|lia|lia]]. intro H. exfalso. revert H. apply (near_neq HV).
              replace (- (Z.abs (sval x) / n) - 1 - - (Z.abs (sval x) / n)) with (-1) by lia. pose proof (pB_big HV). lia.
           ++ destruct (F1 NZ) as [-> ->]. split; [|auto]. intros _. split; auto. right. right. split; [auto|lia].
        -- split; [|tauto]. intros [= ER]. exfalso. revert ER. unfold ucast. rewrite Z.mod_mod by lia. intro ER.
           destruct (floor_neg (sval x) n Neg P0) as [F0 F1].
           set (r0 := Z.abs (sval x) mod n) in *. rewrite <- (Z.mod_add (n - (r0 + t)) 1) in ER by lia. rewrite (Z.mod_small (n - (r0 + t) + 1 * 2 ^ 128)) in ER by lia.
           destruct (Z.eq_dec r0 0) as [Z0|NZ]; [destruct (F0 Z0) as [_ Q]|destruct (F1 NZ) as [_ Q]]; rewrite Q in ER; lia.
    + cbn [quot_of rem_of bind]. rewrite (Z.abs_eq (sval x)) in * by lia. split; [tauto|]. split; [|split; [|lia]].
      * split; [auto|]. intros _. exists (ofZ (sval x / n)). split; [reflexivity|]. split; [apply (wf_ofZ HV)|]. apply (val_ofZ_small HV true). auto.
      * split; [|tauto]. intros [= ER]. unfold ucast in ER. rewrite Z.mod_small in ER by lia. lia.
Qed.

(** Examples: a division that panics (two-limb scalar), the deviations of a 128-bit
    scalar over 32-bit limbs, and exact ones. *)
Definition C78_n : Z := 2 ^ 62 + 2 ^ 31 - 1.
Definition release_32 : Cfg := {| W := 32; N := 8; chk := false; dbg := false |}.
Example C78_ex1 : scalar_fails (c := c256_64) K128 (2 ^ 191) (2 ^ 127 + 2 ^ 64 - 1) /\ div_us (c := c256_64) Checked K128 false (@ofZ c256_64 (2 ^ 191)) (2 ^ 127 + 2 ^ 64 - 1) = Panic /\
  div_is (c := c256_64) Operator K128 (@ofZ c256_64 (- 2 ^ 191)) (2 ^ 127 - 2 ^ 66 - 1) = Ok (@ofZ c256_64 (Z.quot (- 2 ^ 191) (2 ^ 127 - 2 ^ 66 - 1)), Z.rem (- 2 ^ 191) (2 ^ 127 - 2 ^ 66 - 1)).
Proof. split; [|vm_compute; auto]. unfold scalar_fails. vm_compute. repeat split; discriminate. Qed.
(** a negative multiple of the divisor: with checks a panic, without the quotient is
    one too small *)
Example C78_ex2 : let x := 2 ^ 158 / C78_n * C78_n + C78_n in let x := - x in
  div_us (c := c256_32) Wrapping K128 true (@ofZ c256_32 x) C78_n = Panic /\
  div_us (c := release_32) Wrapping K128 true (@ofZ release_32 x) C78_n = Ok (@ofZ release_32 (x / C78_n - 1), C78_n + 2 ^ 127) /\
  div_is (c := c256_32) Wrapping K128 (@ofZ c256_32 x) C78_n = Ok (@ofZ c256_32 (x / C78_n), - 2 ^ 127).
Proof. vm_compute. auto. Qed.

(** ** Assumptions (each must print "Closed under the global context") *)

Print Assumptions C78_unsigned.
Print Assumptions C78_signed_by_signed.
Print Assumptions C78_signed_by_unsigned.
