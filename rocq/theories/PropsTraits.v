(** * Properties: fallible conversions and num-traits (C26, C55-C57)

    [pfits ps p v]: [v] is a value of the primitive type of signedness [ps] and
    width [pbits p]; [prim_ok p]: the type is one of the existing ones (pointer
    width between 16 and 128 bits); both in PTraits.v. *)

Require Import ZArith List Bool Lia.
From Verif Require Import Prim Spec Facts MAdd MMul MShift MCore PCore PBits PWide MArith PArith PArith2 PPow PMisc PBits2 PRet
  PropsBits MTraits PTraits.
Import ListNotations.
Local Open Scope Z_scope.

(** ** C26: TryFrom *)

(** A signed primitive into the unsigned type. *)
Theorem C26_unsigned_from_prim : forall (c : Cfg) p v, Valid -> prim_ok p -> pfits true p v ->
  returns_u_opt (u_try_from_prim p v) (0 <= v) v.
Proof.
  intros c p v HV Hp Hv. rewrite (u_try_from_prim_ok HV) by auto. unfold some_if. destruct (Z.leb_spec 0 v); [left|right; split; [lia|auto]].
  split; auto. exists (ofZ v). split; auto. split; [apply (wf_ofZ HV)|]. apply (val_ofZ_small HV false). eapply (pfits_fits_u HV); eauto.
Qed.
(** The signed type into the unsigned one. *)
Theorem C26_unsigned_from_signed : forall (c : Cfg) x, Valid -> wf x ->
  returns_u_opt (u_try_from_signed x) (0 <= sval x) (sval x).
Proof.
  intros c x HV Hx. rewrite (u_try_from_signed_ok HV) by auto. destruct (Z.leb_spec 0 (sval x)) as [L|L]; [left|right; split; [lia|auto]].
  split; auto. exists x. split; auto. split; auto. pose proof (sval_range HV x Hx) as R. pose proof (pBhalf HV). pose proof (pBh HV).
  rewrite <- (ofZ_sval HV x Hx) at 1. apply (val_ofZ_small HV false). cbn. unfold fits_u. lia.
Qed.
(** The unsigned type into the signed one.  Full statement:
    [returns_s_opt (s_try_from_unsigned x) (fits_s BITS (uval x)) (uval x)].  It
    fails for the largest signed value, because the code compares with [<]. *)
Theorem C26_signed_from_unsigned_refuted : exists (c : Cfg) x, Valid /\ wf x /\ fits_s BITS (uval x) /\
  s_try_from_unsigned x = Ok None.
Proof.
  exists c256_64, (E64 (2 ^ 255 - 1)). split; [apply valid_c256_64|]. split; [apply (wf_ofZ valid_c256_64)|].
  split; [vm_compute; intuition discriminate|vm_compute; reflexivity].
Qed.
(** In every configuration that value is rejected, and it is the only one treated wrongly. *)
Theorem C26_signed_from_unsigned_partial : forall (c : Cfg) x, Valid -> wf x ->
  (uval x = 2 ^ (BITS - 1) - 1 -> s_try_from_unsigned x = Ok None) /\
  (uval x <> 2 ^ (BITS - 1) - 1 -> returns_s_opt (s_try_from_unsigned x) (fits_s BITS (uval x)) (uval x)).
Proof.
  intros c x HV Hx. rewrite (s_try_from_unsigned_ok HV) by auto. pose proof (uval_range HV x Hx). pose proof (pBh HV). split; intro E.
  - rewrite E, Z.ltb_irrefl. auto.
  - unfold returns_s_opt, fits_s. destruct (Z.ltb_spec (uval x) (2 ^ (BITS - 1) - 1)); [left|right; split; [lia|auto]].
    split; [lia|]. exists x. split; auto. split; auto. rewrite (sval_swrap HV) by auto.
    apply swrap_small; [pose proof (BITS_pos HV); lia|]. red. lia.
Qed.
Example C26_ex1 : @u_try_from_prim c256_64 P8 127 = Ok (Some (E64 127)) /\ @u_try_from_prim c256_64 P128 (- 2 ^ 127) = Ok None
  /\ prim_ok P8 /\ pfits true P8 127 /\ pfits true P128 (- 2 ^ 127).
Proof. split; [vm_compute; auto|]. split; [vm_compute; auto|]. split; [right; reflexivity|]. cbn; unfold fits_s; lia. Qed.
Example C26_ex2 : @u_try_from_signed c256_32 (E32 (- 2 ^ 255)) = Ok None /\ @u_try_from_signed c256_32 (E32 (2 ^ 255 - 1)) = Ok (Some (E32 (2 ^ 255 - 1)))
  /\ @s_try_from_unsigned c256_32 (E32 (2 ^ 255)) = Ok None /\ @s_try_from_unsigned c256_32 (E32 (2 ^ 255 - 2)) = Ok (Some (E32 (2 ^ 255 - 2))).
Proof. vm_compute. auto. Qed.

(** ** C55: FromPrimitive, ToPrimitive, AsPrimitive *)

(** [to_X] succeeds exactly on the values of [X]. *)
Theorem C55_to_primitive_u : forall (c : Cfg) ps p x, Valid -> prim_ok p -> wf x ->
  (pfits ps p (uval x) -> to_primitive false ps p x = Ok (Some (uval x))) /\
  (~ pfits ps p (uval x) -> to_primitive false ps p x = Ok None).
Proof.
  intros c ps p x HV Hp Hx. rewrite (to_primitive_ok HV false) by auto. cbn [val]. destruct (pfitsb_reflect ps p (uval x) Hp); intuition.
Qed.
Theorem C55_to_primitive_s : forall (c : Cfg) ps p x, Valid -> prim_ok p -> wf x ->
  (pfits ps p (sval x) -> to_primitive true ps p x = Ok (Some (sval x))) /\
  (~ pfits ps p (sval x) -> to_primitive true ps p x = Ok None).
Proof.
  intros c ps p x HV Hp Hx. rewrite (to_primitive_ok HV true) by auto. cbn [val]. destruct (pfitsb_reflect ps p (sval x) Hp); intuition.
Qed.
(** [from_X] succeeds on every representable value. *)
Theorem C55_from_primitive_u : forall (c : Cfg) ps p v, Valid -> prim_ok p -> pfits ps p v ->
  returns_u_opt (from_primitive false ps p v) (0 <= v) v.
Proof.
  intros c ps p v HV Hp Hv. rewrite (from_primitive_ok HV) by auto. unfold some_if. cbn [orb]. destruct (Z.leb_spec 0 v); [left|right; split; [lia|auto]].
  split; auto. exists (ofZ v). split; auto. split; [apply (wf_ofZ HV)|]. apply (val_ofZ_small HV false). eapply (pfits_fits_u HV); eauto.
Qed.
Theorem C55_from_primitive_s : forall (c : Cfg) ps p v, Valid -> prim_ok p -> pfits ps p v ->
  exists r, from_primitive true ps p v = Ok (Some r) /\ wf r /\ sval r = v.
Proof.
  intros c ps p v HV Hp Hv. rewrite (from_primitive_ok HV) by auto. exists (ofZ v). split; auto. split; [apply (wf_ofZ HV)|].
  apply (val_ofZ_small HV true). eapply (pfits_fits HV); eauto.
Qed.
(** A primitive that converts in converts back out to itself. *)
Theorem C55_roundtrip : forall (c : Cfg) sg ps p v x, Valid -> prim_ok p -> pfits ps p v ->
  from_primitive sg ps p v = Ok (Some x) -> to_primitive sg ps p x = Ok (Some v).
Proof.
  intros c sg ps p v x HV Hp Hv. rewrite (from_primitive_ok HV) by auto. unfold some_if.
  destruct (sg || (0 <=? v)) eqn:G; [|discriminate]. intro E. injection E as <-.
  rewrite (to_primitive_ok HV) by (auto; apply (wf_ofZ HV)).
  assert (F : fits sg v).
  { destruct sg; [eapply (pfits_fits HV); eauto|]. apply Z.leb_le in G. eapply (pfits_fits_u HV); eauto. }
  rewrite (val_ofZ_small HV sg) by auto. destruct (pfitsb_reflect ps p v Hp); intuition.
Qed.
(** [as_] outbound reduces into the target type; inbound it is exact. *)
Theorem C55_as_out : forall (c : Cfg) (sg ps : bool) p x, Valid -> prim_ok p -> wf x ->
  as_prim ps p x = Ok (let v := if sg then sval x else uval x in if ps then swrap (pbits p) v else v mod 2 ^ pbits p).
Proof. intros c sg ps p x HV Hp Hx. rewrite (as_prim_ok HV sg) by auto. reflexivity. Qed.
Theorem C55_as_in : forall (c : Cfg) ps p v, Valid -> prim_ok p -> pfits ps p v ->
  returns_s (from_prim ps p v) v /\ returns_u (from_prim ps p v) (v mod 2 ^ BITS).
Proof.
  intros c ps p v HV Hp Hv. rewrite (from_prim_ok HV) by auto. split; [|apply (retU HV); auto].
  apply (retS1 HV); auto. eapply (pfits_fits HV); eauto.
Qed.
Example C55_ex1 : @to_primitive c256_64 true true P8 (E64 (-128)) = Ok (Some (-128)) /\ @to_primitive c256_64 true true P8 (E64 (-129)) = Ok None
  /\ @to_primitive c256_64 false true P8 (E64 (-128)) = Ok None /\ @to_primitive c256_32 true false (Psize 32) (E32 (2 ^ 32 - 1)) = Ok (Some (2 ^ 32 - 1))
  /\ @to_primitive c256_32 true false (Psize 32) (E32 (2 ^ 32)) = Ok None /\ @from_primitive c256_64 false true P64 (-1) = Ok None.
Proof. vm_compute. auto 10. Qed.
Example C55_ex2 : @as_prim c256_64 true (Psize 64) (E64 (2 ^ 100 - 5)) = Ok (-5) /\ @as_prim c384_64 false (Psize 32) (E384 (-1)) = Ok (2 ^ 32 - 1)
  /\ @from_prim c256_64 true P16 (-3) = Ok (E64 (-3)).
Proof. vm_compute. auto. Qed.

(** ** C56: NumCast

    Full statement: [NumCast::from(n)] succeeds exactly when [n]'s value is
    representable, with that value.  It holds for primitive sources: *)
Theorem C56_from_prim_u : forall (c : Cfg) ps p v, Valid -> prim_ok p -> pfits ps p v ->
  returns_u_opt (num_cast_prim false v) (fits_u BITS v) v.
Proof.
  intros c ps p v HV Hp Hv. rewrite (num_cast_prim_ok HV). unfold some_if, cast_range. pose proof (in_u_spec v) as U.
  pose proof (pB_big HV) as B.
  destruct (in_u 128 v); [left|right].
  - assert (F : fits false v) by (eapply (pfits_fits_u HV false P128); [apply P128_ok|tauto|]; destruct U as (U & _); specialize (U eq_refl); unfold pfits, fits_u in U; lia).
    split; auto. exists (ofZ v). split; auto. split; [apply (wf_ofZ HV)|]. apply (val_ofZ_small HV false); auto.
  - split; auto. intro F. assert (~ pfits false P128 v) by (intro G; destruct U as (_ & U); specialize (U G); discriminate).
    apply H. unfold pfits, fits_u in *. assert (2 ^ pbits p <= 2 ^ 128) by (apply Z.pow_le_mono_r; red in Hp; lia).
    assert (2 ^ (pbits p - 1) <= 2 ^ 128) by (apply Z.pow_le_mono_r; red in Hp; lia).
    cbn [pbits]. destruct ps; unfold fits_s in Hv; lia.
Qed.
Theorem C56_from_prim_s : forall (c : Cfg) ps p v, Valid -> prim_ok p -> pfits ps p v ->
  exists r, num_cast_prim true v = Ok (Some r) /\ wf r /\ sval r = v.
Proof.
  intros c ps p v HV Hp Hv. rewrite (num_cast_prim_ok HV). exists (ofZ v). split; [|split; [apply (wf_ofZ HV)|]].
  - unfold some_if, cast_range. assert (2 ^ pbits p <= 2 ^ 128) by (apply Z.pow_le_mono_r; red in Hp; lia).
    assert (2 ^ (pbits p - 1) <= 2 ^ 127) by (apply Z.pow_le_mono_r; red in Hp; lia).
    replace (in_s 128 v || in_u 128 v) with true; auto. symmetry. apply orb_true_iff. destruct ps; [left; apply in_s_spec|right; apply in_u_spec];
      unfold pfits, fits_s, fits_u in *; cbn [pbits]; change (128 - 1) with 127; lia.
  - apply (val_ofZ_small HV true). eapply (pfits_fits HV); eauto.
Qed.
(** For a big-integer source it fails: a value does not even cast to its own type. *)
Theorem C56_from_big_refuted : exists (c : Cfg) x, Valid /\ wf x /\
  num_cast_big false false x = Ok None /\ num_cast_big true true x = Ok None /\ fits_u BITS (uval x) /\ fits_s BITS (sval x).
Proof.
  exists c256_64, (E64 (2 ^ 200)). split; [apply valid_c256_64|]. split; [apply (wf_ofZ valid_c256_64)|].
  split; [vm_compute; auto|]. split; [vm_compute; auto|]. split; vm_compute; intuition discriminate.
Qed.
(** What holds: exactly the 128-bit values are cast ([i128] or [u128] range into
    the signed type, [u128] range into the unsigned one), and the value is kept. *)
Theorem C56_from_big_partial : forall (c : Cfg) (sg sg' : bool) x, Valid -> wf x ->
  let v := if sg' then sval x else uval x in
  (if sg then - 2 ^ 127 <= v < 2 ^ 128 else 0 <= v < 2 ^ 128) /\
    (exists r, num_cast_big sg sg' x = Ok (Some r) /\ wf r /\ (if sg then sval r else uval r) = v)
  \/ ~ (if sg then - 2 ^ 127 <= v < 2 ^ 128 else 0 <= v < 2 ^ 128) /\ num_cast_big sg sg' x = Ok None.
Proof.
  intros c sg sg' x HV Hx v. rewrite (num_cast_big_ok HV) by auto. change (val sg' x) with v. clearbody v. clear x Hx.
  pose proof (in_s_spec v) as S1. pose proof (in_u_spec v) as U1. unfold pfits, fits_s, fits_u in S1, U1. cbn [pbits] in S1, U1. change (128 - 1) with 127 in S1.
  unfold some_if, cast_range. pose proof (pB_big HV). pose proof (pBhalf HV). pose proof (pBh HV).
  assert (2 ^ 127 < 2 ^ 128) by (apply Z.pow_lt_mono_r; lia).
  assert (FT : (- 2 ^ 127 <= v < 2 ^ 128) -> fits true v) by (intro; cbn; unfold fits_s; lia).
  assert (FF : (0 <= v < 2 ^ 128) -> fits false v) by (intro; cbn; unfold fits_u; lia).
  destruct sg.
  - destruct (in_s 128 v), (in_u 128 v); cbn [orb]; [left|left|left|right; split; [|auto]].
    1-3: split; [lia|]; exists (ofZ v); split; auto; split; [apply (wf_ofZ HV)|]; apply (val_ofZ_small HV true); apply FT; lia.
    assert (~ - 2 ^ 127 <= v < 2 ^ 127) by (intro Q; apply S1 in Q; discriminate).
    assert (~ 0 <= v < 2 ^ 128) by (intro Q; apply U1 in Q; discriminate). lia.
  - destruct (in_u 128 v); [left|right; split; [|auto]].
    + split; [lia|]; exists (ofZ v); split; auto; split; [apply (wf_ofZ HV)|]; apply (val_ofZ_small HV false); apply FF; lia.
    + intro Q. apply U1 in Q. discriminate.
Qed.
Example C56_ex : @num_cast_big c256_64 true true (E64 (- 2 ^ 127)) = Ok (Some (E64 (- 2 ^ 127))) /\ @num_cast_big c256_64 true true (E64 (- 2 ^ 127 - 1)) = Ok None
  /\ @num_cast_big c256_64 true true (E64 (2 ^ 128 - 1)) = Ok (Some (E64 (2 ^ 128 - 1))) /\ @num_cast_big c256_64 false true (E64 (-1)) = Ok None
  /\ @num_cast_prim c256_64 false 7 = Ok (Some (E64 7)) /\ @num_cast_prim c256_64 false (-7) = Ok None.
Proof. vm_compute. auto 10. Qed.

(** ** C57: Zero, One, Signed, MulAdd, PrimInt *)

Theorem C57_zero_one : forall (c : Cfg) x, Valid -> wf x ->
  returns_u nt_zero 0 /\ returns_s nt_zero 0 /\ returns_u nt_one 1 /\ returns_s nt_one 1 /\
  nt_is_zero x = Ok (uval x =? 0) /\ nt_is_zero x = Ok (sval x =? 0) /\ nt_is_one x = Ok (uval x =? 1) /\ nt_is_one x = Ok (sval x =? 1).
Proof.
  intros c x HV Hx.
  assert (F0 : forall sg, fits sg 0) by (intro; apply (fits_small HV); lia).
  assert (F1 : forall sg, fits sg 1) by (intro; apply (fits_small HV); lia).
  split; [apply (retU1 HV); [apply (nt_zero_ok HV)|apply (F0 false)]|]. split; [apply (retS1 HV); [apply (nt_zero_ok HV)|apply (F0 true)]|].
  split; [apply (retU1 HV); [apply (nt_one_ok HV)|apply (F1 false)]|]. split; [apply (retS1 HV); [apply (nt_one_ok HV)|apply (F1 true)]|].
  split; [apply (nt_is_zero_ok HV false); auto|]. split; [apply (nt_is_zero_ok HV true); auto|].
  split; [apply (nt_is_one_ok HV false); auto|apply (nt_is_one_ok HV true); auto].
Qed.
Theorem C57_abs : forall (c : Cfg) x, Valid -> wf x ->
  returns_s_or_panics (nt_abs x) (fits_s BITS (Z.abs (sval x))) (Z.abs (sval x)).
Proof. intros c x HV Hx. apply (panS HV). unfold nt_abs. apply (s_abs_ok HV); auto. Qed.
Theorem C57_signum : forall (c : Cfg) x, Valid -> wf x -> returns_s (nt_signum x) (Z.sgn (sval x)).
Proof.
  intros c x HV Hx. apply (retS1 HV); [apply (nt_signum_ok HV); auto|]. red. pose proof (pB_big HV). pose proof (pBhalf HV). pose proof (pBh HV).
  destruct (sval x); cbn; lia.
Qed.
(** The positive difference: zero when [x <= y]. *)
Theorem C57_abs_sub : forall (c : Cfg) x y, Valid -> wf x -> wf y ->
  let d := Z.max 0 (sval x - sval y) in
  (chk = true -> returns_s_or_panics (nt_abs_sub x y) (fits_s BITS d) d) /\
  (chk = false -> returns_s (nt_abs_sub x y) (swrap BITS d)).
Proof.
  intros c x y HV Hx Hy d. subst d. rewrite (nt_abs_sub_ok HV) by auto. destruct (Z.ltb_spec (sval x) (sval y)).
  - rewrite Z.max_l by lia. replace (Ok (ofZ 0)) with (op_result true 0); [apply (opS HV); auto|].
    apply op_result_fits. apply (fits_0 HV).
  - rewrite Z.max_r by lia. apply (opS HV). auto.
Qed.
Theorem C57_is_negative : forall (c : Cfg) x, Valid -> wf x -> nt_is_negative x = Ok (sval x <? 0).
Proof. intros c x HV Hx. apply (nt_is_negative_ok HV); auto. Qed.
(** num-traits asks [is_positive] to be false for zero.  Full statement:
    [nt_is_positive x = Ok (0 <? sval x)].  It fails at zero only. *)
Theorem C57_is_positive_refuted : exists (c : Cfg) x, Valid /\ wf x /\ sval x = 0 /\ nt_is_positive x = Ok true.
Proof.
  exists c256_64, (E64 0). split; [apply valid_c256_64|]. split; [apply (wf_ofZ valid_c256_64)|]. split; vm_compute; auto.
Qed.
Theorem C57_is_positive_partial : forall (c : Cfg) x, Valid -> wf x ->
  (sval x <> 0 -> nt_is_positive x = Ok (0 <? sval x)) /\ (sval x = 0 -> nt_is_positive x = Ok true).
Proof.
  intros c x HV Hx. rewrite (nt_is_positive_ok HV) by auto. split; intro E; [|rewrite E; auto]. f_equal.
  destruct (Z.leb_spec 0 (sval x)), (Z.ltb_spec 0 (sval x)); auto; lia.
Qed.
(** [mul_add] is [x * a + b]; for the unsigned type it panics exactly when that overflows. *)
Theorem C57_mul_add_u : forall (c : Cfg) x a b, Valid -> wf x -> wf a -> wf b ->
  let v := uval x * uval a + uval b in
  (chk = true -> returns_u_or_panics (nt_mul_add false x a b) (fits_u BITS v) v) /\
  (chk = false -> returns_u (nt_mul_add false x a b) (v mod 2 ^ BITS)).
Proof.
  intros c x a b HV Hx Ha Hb v. unfold nt_mul_add. rewrite (op_mul_ok HV) by auto. rewrite mulf_u. cbn [val].
  pose proof (uval_range HV x Hx). pose proof (uval_range HV a Ha). pose proof (uval_range HV b Hb).
  split; intros C; rewrite C; cbn [andb].
  - destruct (fitsb_reflect false (uval x * uval a)) as [F|F]; cbn [negb bind].
    + rewrite (op_add_ok HV) by (auto; apply (wf_ofZ HV)). rewrite (val_ofZ_small HV false) by auto. apply (opU HV); auto.
    + right. split; auto. intro G. apply F. cbn. unfold fits_u in *. subst v. nia.
  - cbn [bind]. rewrite (op_add_ok HV) by (auto; apply (wf_ofZ HV)). unfold op_result. rewrite C. cbn [andb].
    assert (G : returns_u (Ok (ofZ (val false (ofZ (uval x * uval a)) + val false b))) ((val false (ofZ (uval x * uval a)) + val false b) mod 2 ^ BITS)) by (apply (retU HV); auto).
    replace (v mod 2 ^ BITS) with ((val false (ofZ (uval x * uval a)) + val false b) mod 2 ^ BITS); auto.
    cbn [val]. rewrite (uval_ofZ HV). rewrite Z.add_mod_idemp_l by (pose proof (pB HV); lia). auto.
Qed.
(** Signed: with checks off the result is wrapped; with checks on it is exact or
    a panic when the product is representable (as for the primitive types, a
    product that overflows panics even if adding [b] would bring it back). *)
Theorem C57_mul_add_s : forall (c : Cfg) x a b, Valid -> wf x -> wf a -> wf b ->
  let v := sval x * sval a + sval b in
  (chk = true -> fits_s BITS (sval x * sval a) -> returns_s_or_panics (nt_mul_add true x a b) (fits_s BITS v) v) /\
  (chk = false -> returns_s (nt_mul_add true x a b) (swrap BITS v)).
Proof.
  intros c x a b HV Hx Ha Hb v. unfold nt_mul_add. split.
  - intros C F. rewrite (op_mul_fits HV) by auto. cbn [bind val]. rewrite (op_add_ok HV) by (auto; apply (wf_ofZ HV)).
    rewrite (val_ofZ_small HV true) by auto. apply (opS HV); auto.
  - intros C. rewrite (op_mul_ok HV) by auto. rewrite C. cbn [andb bind val]. rewrite (op_add_ok HV) by (auto; apply (wf_ofZ HV)).
    unfold op_result. rewrite C. cbn [andb val].
    assert (G : returns_s (Ok (ofZ (sval (ofZ (sval x * sval a)) + sval b))) (swrap BITS (sval (ofZ (sval x * sval a)) + sval b))) by (apply (retS HV); auto).
    replace (swrap BITS v) with (swrap BITS (sval (ofZ (sval x * sval a)) + sval b)); auto.
    pose proof (BITS_pos HV). apply swrap_eq_mod; [lia|]. rewrite (sval_ofZ HV).
    rewrite <- Z.add_mod_idemp_l by (pose proof (pB HV); lia). rewrite swrap_mod by lia. rewrite Z.add_mod_idemp_l by (pose proof (pB HV); lia). auto.
Qed.
(** [signed_shr] is arithmetic and [unsigned_shr] logical on both types; the
    left shifts coincide. *)
Theorem C57_shifts : forall (c : Cfg) (sg : bool) x n, Valid -> wf x -> 0 <= n < BITS ->
  returns_s (nt_signed_shr sg x n) (sval x / 2 ^ n) /\ returns_u (nt_unsigned_shr sg x n) (uval x / 2 ^ n) /\
  returns_u (nt_signed_shl sg x n) ((uval x * 2 ^ n) mod 2 ^ BITS) /\ returns_u (nt_unsigned_shl sg x n) ((uval x * 2 ^ n) mod 2 ^ BITS).
Proof.
  intros c sg x n HV Hx Hn. pose proof (BITS_lt31 HV). destruct (nt_shl_ok HV sg x n Hx) as (-> & ->). destruct (nt_shr_ok HV sg x n Hx) as (-> & ->).
  rewrite !(op_shr_ok HV), !(op_shl_ok HV) by (auto; lia). rewrite (shift_ok_wide HV) by (cbn; lia).
  destruct (Z.ltb_spec n BITS); [|lia]. destruct (Z.leb_spec 0 n); [|lia]. cbn [negb andb]. rewrite andb_false_r.
  rewrite (amount_exact HV) by lia. cbn [val]. pose proof (uval_range HV x Hx) as RU. pose proof (sval_range HV x Hx) as RS.
  assert (P : 1 <= 2 ^ n) by (pose proof (Z.pow_pos_nonneg 2 n); lia).
  split; [apply (retS1 HV); auto|split; [apply (retU1 HV); auto|split; apply (retU HV); auto]].
  - split; [apply Z.div_le_lower_bound|apply Z.div_lt_upper_bound]; try lia; nia.
  - split; [apply Z.div_pos|apply Z.div_lt_upper_bound]; try lia; nia.
Qed.
Theorem C57_shifts_panic : forall (c : Cfg) (sg : bool) x n, Valid -> wf x -> chk = true -> ~ 0 <= n < BITS ->
  nt_signed_shr sg x n = Panic /\ nt_unsigned_shr sg x n = Panic /\ nt_signed_shl sg x n = Panic /\ nt_unsigned_shl sg x n = Panic.
Proof.
  intros c sg x n HV Hx C Hn. pose proof (BITS_lt31 HV). destruct (nt_shl_ok HV sg x n Hx) as (-> & ->). destruct (nt_shr_ok HV sg x n Hx) as (-> & ->).
  rewrite !(op_shr_ok HV), !(op_shl_ok HV) by (auto; lia). rewrite (shift_ok_wide HV) by (cbn; lia). rewrite C.
  destruct (Z.ltb_spec n BITS), (Z.leb_spec 0 n); try lia; cbn; auto.
Qed.
Example C57_ex1 : @nt_abs_sub c256_64 (E64 3) (E64 (-4)) = Ok (E64 7) /\ @nt_abs_sub c256_64 (E64 (-4)) (E64 3) = Ok (E64 0)
  /\ @nt_abs_sub c256_64 (E64 (2 ^ 255 - 1)) (E64 (-1)) = Panic /\ @nt_signum c256_64 (E64 (-9)) = Ok (E64 (-1))
  /\ @nt_mul_add c256_64 true (E64 (-3)) (E64 5) (E64 (-2)) = Ok (E64 (-17)) /\ @nt_mul_add c256_64 false (E64 (2 ^ 255)) (E64 2) (E64 0) = Panic
  /\ @nt_abs c256_64 (E64 (-(2 ^ 255))) = Panic /\ @nt_is_zero c256_64 (E64 0) = Ok true.
Proof. vm_compute. auto 10. Qed.
Example C57_ex2 : @nt_signed_shr c256_64 false (E64 (-16)) 2 = Ok (E64 (-4)) /\ @nt_unsigned_shr c256_64 true (E64 (-16)) 254 = Ok (E64 3)
  /\ @nt_unsigned_shl c256_64 true (E64 3) 255 = Ok (E64 (2 ^ 255)) /\ @nt_signed_shl c256_64 false (E64 3) 256 = Panic.
Proof. vm_compute. auto. Qed.

(** ** Assumptions (each must print "Closed under the global context") *)

Print Assumptions C26_unsigned_from_prim.
Print Assumptions C26_unsigned_from_signed.
Print Assumptions C26_signed_from_unsigned_refuted.
Print Assumptions C26_signed_from_unsigned_partial.
Print Assumptions C55_to_primitive_u.
Print Assumptions C55_to_primitive_s.
Print Assumptions C55_from_primitive_u.
Print Assumptions C55_from_primitive_s.
Print Assumptions C55_roundtrip.
Print Assumptions C55_as_out.
Print Assumptions C55_as_in.
Print Assumptions C56_from_prim_u.
Print Assumptions C56_from_prim_s.
Print Assumptions C56_from_big_refuted.
Print Assumptions C56_from_big_partial.
Print Assumptions C57_zero_one.
Print Assumptions C57_abs.
Print Assumptions C57_signum.
Print Assumptions C57_abs_sub.
Print Assumptions C57_is_negative.
Print Assumptions C57_is_positive_refuted.
Print Assumptions C57_is_positive_partial.
Print Assumptions C57_mul_add_u.
Print Assumptions C57_mul_add_s.
Print Assumptions C57_shifts.
Print Assumptions C57_shifts_panic.
