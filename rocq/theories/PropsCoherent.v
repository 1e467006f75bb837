(** * Properties: the variants of one operation agree with each other (C58)

    Relational statements: they say nothing about the right answer, only that
    [wrapping_f], [overflowing_f], [checked_f], [strict_f], [saturating_f] and
    the operator give the same answer where they give one.  They hold on every
    input, also where the answer is wrong (DESIGN.md, findings 1, 2 and 4). *)

Require Import ZArith List Bool Lia.
From Verif Require Import Prim Spec Facts MAdd MMul MShift MCore PCore PBits PWide MArith PArith PArith2 PPow PMisc PBits2 PRet
  MDiv DivSpec MApi PApi PApi2 PApi3 MScalar PScalar PScalarDiv PropsDiv.
Import ListNotations.
Local Open Scope Z_scope.

(** ** Vocabulary *)

(** The overflowing form returns a value and a flag; wrapping returns the value
    whatever the flag, checked and strict refuse it when the flag is set, the
    operator panics on the flag when overflow checks are on. *)
Definition coherent {A} (overflow_checks : bool) (over : res (A * bool)) (wrap : res A) (check : res (option A))
    (strict operator : res A) : Prop :=
  exists v f, over = Ok (v, f) /\ wrap = Ok v /\ check = Ok (if f then None else Some v)
    /\ strict = (if f then Panic else Ok v) /\ operator = (if overflow_checks && f then Panic else Ok v).
(** The saturating form keeps the value unless the flag is set, and then gives
    one of the two bounds. *)
Definition saturates (over : res (list Z * bool)) (sat lo hi : res (list Z)) : Prop :=
  exists v f, over = Ok (v, f) /\ (f = false -> sat = Ok v) /\ (f = true -> sat = lo \/ sat = hi).

Section T.
Context {c : Cfg}.
Lemma coherent_ok : forall (v : list Z) f over wrap check strict operator,
  over = Ok (v, f) -> wrap = Ok v -> check = Ok (if negb f then Some v else None) -> strict = (if negb f then Ok v else Panic) ->
  operator = (if chk && f then Panic else Ok v) -> coherent chk over wrap check strict operator.
Proof. intros v f over wrap check strict operator -> -> -> -> ->. exists v, f. destruct f; auto. Qed.
End T.

Ltac five L1 L2 L3 L4 L5 :=
  match goal with HV : Valid |- _ =>
  rewrite (L1 _ HV), (L2 _ HV), (L3 _ HV), (L4 _ HV), (L5 _ HV) by (auto; lia);
  eapply coherent_ok; [reflexivity|reflexivity| | |];
  unfold some_if, ok_if, op_result; rewrite ?negb_involutive; reflexivity end.

(** ** C58: add, subtract, multiply, power *)

Theorem C58_add_sub_mul : forall (c : Cfg) sg x y, Valid -> wf x -> wf y ->
  coherent chk (overflowing_add sg x y) (wrapping_add sg x y) (checked_add sg x y) (strict_add sg x y) (op_add sg x y) /\
  coherent chk (overflowing_sub sg x y) (wrapping_sub sg x y) (checked_sub sg x y) (strict_sub sg x y) (op_sub sg x y) /\
  coherent chk (overflowing_mul sg x y) (wrapping_mul sg x y) (checked_mul sg x y) (strict_mul sg x y) (op_mul sg x y).
Proof.
  intros c sg x y HV Hx Hy. split; [|split].
  - five @overflowing_add_ok @wrapping_add_ok @checked_add_ok @strict_add_ok @op_add_ok.
  - five @overflowing_sub_ok @wrapping_sub_ok @checked_sub_ok @strict_sub_ok @op_sub_ok.
  - five @overflowing_mul_ok @wrapping_mul_ok @checked_mul_ok @strict_mul_ok @op_mul_ok.
Qed.

Theorem C58_pow : forall (c : Cfg) sg x e, Valid -> wf x -> 0 <= e < 2 ^ 32 ->
  coherent chk (overflowing_pow sg x e) (wrapping_pow sg x e) (checked_pow sg x e) (strict_pow sg x e) (pow sg x e).
Proof. intros c sg x e HV Hx He. five @overflowing_pow_ok @wrapping_pow_ok @checked_pow_ok @strict_pow_ok @pow_ok. Qed.

(** [abs] is the strict form in every build. *)
Theorem C58_neg_abs : forall (c : Cfg) x, Valid -> wf x ->
  coherent chk (s_overflowing_neg x) (s_wrapping_neg x) (s_checked_neg x) (s_strict_neg x) (op_neg x) /\
  coherent true (s_overflowing_abs x) (s_wrapping_abs x) (s_checked_abs x) (s_strict_abs x) (s_abs x).
Proof.
  intros c x HV Hx. split.
  - five @s_overflowing_neg_ok @s_wrapping_neg_ok @s_checked_neg_ok @s_strict_neg_ok @op_neg_ok.
  - rewrite (s_overflowing_abs_ok HV), (s_wrapping_abs_ok HV), (s_checked_abs_ok HV), (s_strict_abs_ok HV), (s_abs_ok HV) by auto.
    unfold some_if, ok_if. exists (ofZ (Z.abs (sval x))), (negb (fitsb true (Z.abs (sval x)))). destruct (fitsb _ _); auto.
Qed.

(** The mixed-sign forms have no operator; the strict form stands in.  There is
    no [wrapping_add_unsigned]; [wrapping_add] on the same bits stands in. *)
Theorem C58_mixed : forall (c : Cfg) x y, Valid -> wf x -> wf y ->
  coherent true (u_overflowing_add_signed x y) (u_wrapping_add_signed x y) (u_checked_add_signed x y) (u_strict_add_signed x y) (u_strict_add_signed x y) /\
  coherent true (s_overflowing_add_unsigned x y) (wrapping_add true x y) (s_checked_add_unsigned x y) (s_strict_add_unsigned x y) (s_strict_add_unsigned x y) /\
  coherent true (s_overflowing_sub_unsigned x y) (s_wrapping_sub_unsigned x y) (s_checked_sub_unsigned x y) (s_strict_sub_unsigned x y) (s_strict_sub_unsigned x y).
Proof.
  intros c x y HV Hx Hy. split; [|split].
  - rewrite (u_overflowing_add_signed_ok HV), (u_wrapping_add_signed_ok HV), (u_checked_add_signed_ok HV), (u_strict_add_signed_ok HV) by auto.
    unfold some_if, ok_if. eexists _, _. split; [reflexivity|]. destruct (fitsb _ _); auto.
  - rewrite (s_overflowing_add_unsigned_ok HV), (wrapping_add_ok HV), (s_checked_add_unsigned_ok HV), (s_strict_add_unsigned_ok HV) by auto.
    replace (ofZ (val true x + val true y)) with (ofZ (sval x + uval y))
      by (apply (ofZ_eq_mod HV); cbn [val]; rewrite (Zplus_mod _ (uval y)), (Zplus_mod _ (sval y)), (sval_mod HV y), (Z.mod_small (uval y)) by (auto; apply (uval_range HV); auto); reflexivity).
    unfold some_if, ok_if. eexists _, _. split; [reflexivity|]. destruct (fitsb _ _); auto.
  - rewrite (s_overflowing_sub_unsigned_ok HV), (s_wrapping_sub_unsigned_ok HV), (s_checked_sub_unsigned_ok HV), (s_strict_sub_unsigned_ok HV) by auto.
    unfold some_if, ok_if. eexists _, _. split; [reflexivity|]. destruct (fitsb _ _); auto.
Qed.

(** ** C58: shifts
    The operator is the one for a [u32] amount. *)

Theorem C58_shift : forall (c : Cfg) x r, Valid -> wf x -> 0 <= r < 2 ^ 32 ->
  coherent chk (s_overflowing_shl x r) (wrapping_shl x r) (checked_shl x r) (strict_shl x r) (op_shl false 32 x r) /\
  coherent chk (s_overflowing_shr x r) (wrapping_shr true x r) (checked_shr true x r) (strict_shr true x r) (op_shr true false 32 x r).
Proof.
  intros c x r HV Hx Hr. pose proof (BITS_pos HV) as HB.
  assert (ES : shift_ok false 32 r = (r <? BITS)).
  { unfold shift_ok. pose proof (BITS_lt HV). rewrite (Z.mod_small BITS) by lia.
    replace (0 <=? r) with true by (symmetry; apply Z.leb_le; lia). apply andb_true_r. }
  assert (EF : (BITS <=? r) = negb (r <? BITS)) by apply Z.leb_antisym.
  assert (EM : r < BITS -> r mod BITS = r) by (intros; apply Z.mod_small; lia).
  split.
  - rewrite (s_overflowing_shl_ok HV), (wrapping_shl_ok HV), (checked_shl_ok HV), (strict_shl_ok HV), (op_shl_ok HV) by (auto; lia).
    rewrite ES, EF, (Z.mod_small r (2 ^ 32)) by lia. eexists _, _. split; [reflexivity|]. split; [reflexivity|].
    unfold some_if, ok_if. destruct (Z.ltb_spec r BITS); cbn [negb]; rewrite ?EM by lia; auto.
  - rewrite (s_overflowing_shr_ok HV), (wrapping_shr_ok HV), (checked_shr_ok HV), (strict_shr_ok HV), (op_shr_ok HV) by (auto; lia).
    rewrite ES, EF, (Z.mod_small r (2 ^ 32)) by lia. eexists _, _. split; [reflexivity|]. split; [reflexivity|].
    unfold some_if, ok_if. destruct (Z.ltb_spec r BITS); cbn [negb val]; rewrite ?EM by lia; auto.
Qed.

(** ** C58: saturation *)

Section S.
Context {c : Cfg}.
Hypothesis HV : Valid.
Definition least (sg : bool) : res (list Z) := if sg then s_min_value else u_min_value.
Definition greatest (sg : bool) : res (list Z) := if sg then s_max_value else u_max_value.
Lemma least_ok : forall sg, least sg = Ok (ofZ (lo_of sg)).
Proof. intros []; [apply (s_min_value_ok HV)|apply (u_min_value_ok HV)]. Qed.
Lemma greatest_ok : forall sg, greatest sg = Ok (ofZ (hi_of sg)).
Proof. intros []; [apply (s_max_value_ok HV)|]. rewrite (ofZ_hi_u HV). apply (u_max_value_ok HV). Qed.
Lemma saturates_ok : forall sg (v : Z) (f : bool) over sat, over = Ok (ofZ v, f) -> sat = Ok (ofZ (if f then clamp sg v else v)) ->
  (f = true -> ~ fits sg v) -> saturates over sat (least sg) (greatest sg).
Proof.
  intros sg v f over sat -> -> Hf. exists (ofZ v), f. rewrite least_ok, greatest_ok. split; [reflexivity|].
  split; intros ->; [reflexivity|]. specialize (Hf eq_refl).
  assert (v <= lo_of sg \/ hi_of sg <= v) as [H|H].
  { destruct sg; cbn in *; unfold fits_u, fits_s in Hf; lia. }
  - left. rewrite clamp_lo by auto. reflexivity.
  - right. rewrite (clamp_hi HV) by auto. reflexivity.
Qed.
Lemma saturates_fits : forall sg (v : Z) over sat, over = Ok (ofZ v, negb (fitsb sg v)) -> sat = Ok (ofZ (clamp sg v)) ->
  saturates over sat (least sg) (greatest sg).
Proof.
  intros sg v over sat H1 H2. apply (saturates_ok sg v (negb (fitsb sg v))); auto.
  - destruct (fitsb_reflect sg v) as [F|F]; cbn [negb]; auto. rewrite (clamp_fits sg v F) in H2. auto.
  - destruct (fitsb_reflect sg v) as [F|F]; cbn [negb]; auto. discriminate.
Qed.
End S.

(** Signed multiplication and power included: where the flag misses an overflow
    (finding 2) the saturating form keeps the wrapped value. *)
Theorem C58_saturating_u : forall (c : Cfg) x y, Valid -> wf x -> wf y ->
  saturates (overflowing_add false x y) (u_saturating_add x y) u_min_value u_max_value /\
  saturates (overflowing_sub false x y) (u_saturating_sub x y) u_min_value u_max_value /\
  saturates (overflowing_mul false x y) (u_saturating_mul x y) u_min_value u_max_value /\
  saturates (u_overflowing_add_signed x y) (u_saturating_add_signed x y) u_min_value u_max_value /\
  (forall e, 0 <= e < 2 ^ 32 -> saturates (overflowing_pow false x e) (u_saturating_pow x e) u_min_value u_max_value).
Proof.
  intros c x y HV Hx Hy. repeat split; intros.
  - apply (saturates_fits HV false (uval x + uval y)); [apply (overflowing_add_ok HV false)|apply (u_saturating_add_ok HV)]; auto.
  - apply (saturates_fits HV false (uval x - uval y)); [apply (overflowing_sub_ok HV false)|apply (u_saturating_sub_ok HV)]; auto.
  - apply (saturates_fits HV false (uval x * uval y)); [apply (overflowing_mul_ok HV false)|apply (u_saturating_mul_ok HV)]; auto.
  - apply (saturates_fits HV false (uval x + sval y)); [apply (u_overflowing_add_signed_ok HV)|apply (u_saturating_add_signed_ok HV)]; auto.
  - apply (saturates_fits HV false (uval x ^ e)); [apply (overflowing_pow_ok HV false)|apply (u_saturating_pow_ok HV)]; auto.
Qed.
Theorem C58_saturating_s : forall (c : Cfg) x y, Valid -> wf x -> wf y ->
  saturates (overflowing_add true x y) (s_saturating_add x y) s_min_value s_max_value /\
  saturates (overflowing_sub true x y) (s_saturating_sub x y) s_min_value s_max_value /\
  saturates (overflowing_mul true x y) (s_saturating_mul x y) s_min_value s_max_value /\
  saturates (s_overflowing_add_unsigned x y) (s_saturating_add_unsigned x y) s_min_value s_max_value /\
  saturates (s_overflowing_sub_unsigned x y) (s_saturating_sub_unsigned x y) s_min_value s_max_value /\
  saturates (s_overflowing_neg x) (s_saturating_neg x) s_min_value s_max_value /\
  saturates (s_overflowing_abs x) (s_saturating_abs x) s_min_value s_max_value /\
  (forall e, 0 <= e < 2 ^ 32 -> saturates (overflowing_pow true x e) (s_saturating_pow x e) s_min_value s_max_value).
Proof.
  intros c x y HV Hx Hy. repeat split; intros.
  - apply (saturates_fits HV true (sval x + sval y)); [apply (overflowing_add_ok HV true)|apply (s_saturating_add_ok HV)]; auto.
  - apply (saturates_fits HV true (sval x - sval y)); [apply (overflowing_sub_ok HV true)|apply (s_saturating_sub_ok HV)]; auto.
  - apply (saturates_ok HV true (sval x * sval y) (mulf true (sval x) (sval y))); [apply (overflowing_mul_ok HV true)|apply (s_saturating_mul_ok HV)|]; auto.
    intros M F. rewrite (mulf_fits HV true) in M; auto; discriminate.
  - apply (saturates_fits HV true (sval x + uval y)); [apply (s_overflowing_add_unsigned_ok HV)|apply (s_saturating_add_unsigned_ok HV)]; auto.
  - apply (saturates_fits HV true (sval x - uval y)); [apply (s_overflowing_sub_unsigned_ok HV)|apply (s_saturating_sub_unsigned_ok HV)]; auto.
  - apply (saturates_fits HV true (- sval x)); [apply (s_overflowing_neg_ok HV)|apply (s_saturating_neg_ok HV)]; auto.
  - apply (saturates_fits HV true (Z.abs (sval x))); [apply (s_overflowing_abs_ok HV)|apply (s_saturating_abs_ok HV)]; auto.
  - apply (saturates_ok HV true (sval x ^ e) (ovf true (sval x ^ e))); [apply (overflowing_pow_ok HV true)|apply (s_saturating_pow_ok HV)|]; auto.
    intros M F. rewrite (ovf_fits HV true) in M; auto; discriminate.
Qed.

(** ** C58: operations with a scalar
    Every kind, also the 128-bit ones on 32-bit limbs that are wrong on the
    signed type (finding 4): there the four forms panic together, or multiply by
    the same wrong number. *)

(** All panic, or all agree; these families have no strict form. *)
Definition coherent4 {A} (overflow_checks : bool) (over : res (A * bool)) (wrap : res A) (check : res (option A))
    (operator : res A) : Prop :=
  (over = Panic /\ wrap = Panic /\ check = Panic /\ operator = Panic) \/
  exists v f, over = Ok (v, f) /\ wrap = Ok v /\ check = Ok (if f then None else Some v)
    /\ operator = (if overflow_checks && f then Panic else Ok v).

Section S4.
Context {c : Cfg}.
Hypothesis HV : Valid.
Lemma coherent4_mk : forall over wrap, (over = Panic /\ wrap = Panic) \/ (exists (v : list Z) f, over = Ok (v, f) /\ wrap = Ok v) ->
  coherent4 chk over wrap (opt over) (if negb chk then wrap else unwrap (opt over)).
Proof.
  intros over wrap [(-> & ->)|(v & f & -> & ->)]; [left|right].
  - destruct chk; auto.
  - exists v, f. destruct f, chk; auto.
Qed.
End S4.

Theorem C58_scalar_u : forall (c : Cfg) o k sg x n, Valid -> wf x -> fits_u (kbits k) n ->
  coherent4 chk (overflowing_us o k sg x n) (wrapping_us o k sg x n) (checked_us o k sg x n) (plain_us o k sg x n).
Proof.
  intros c o k sg x n HV Hx Hn. apply coherent4_mk.
  assert (D : (sg = true /\ swapped k) \/ (sg = true -> ~ swapped k)).
  { destruct sg; [|right; discriminate]. destruct (swapped_dec HV k); auto. }
  destruct D as [(-> & -> & E)|D].
  - destruct o; [left|left|right; do 2 eexists]; [destruct (swapped_add HV SAdd x n E Hx Hn)|destruct (swapped_add HV SSub x n E Hx Hn)|destruct (swapped_mul HV x n E Hx Hn)]; eauto; discriminate.
  - right. rewrite (overflowing_us_ok HV), (wrapping_us_ok HV) by auto. eauto.
Qed.
Theorem C58_scalar_s : forall (c : Cfg) o k x n, Valid -> wf x -> fits_s (kbits k) n ->
  coherent4 chk (overflowing_is o k x n) (wrapping_is o k x n) (checked_is o k x n) (plain_is o k x n).
Proof.
  intros c o k x n HV Hx Hn. apply coherent4_mk.
  destruct (swapped_dec HV k) as [(-> & E)|D].
  - destruct o; [left|left|right; do 2 eexists]; [destruct (swapped_add_i HV SAdd x n E Hx Hn)|destruct (swapped_add_i HV SSub x n E Hx Hn)|destruct (swapped_mul_i HV x n E Hx Hn)]; eauto; discriminate.
  - right. rewrite (overflowing_is_ok HV), (wrapping_is_ok HV) by auto. eauto.
Qed.

(** ** C58: division
    Also where the quotient or remainder is wrong or the code panics (findings
    1 and 8), and for a zero divisor. *)

(** [overflow]: minimum over minus one.  [refused]: that, or a zero divisor. *)
Definition coherent_div {A} (overflow_checks overflow refused : bool) (over : res (A * bool)) (wrap : res A)
    (check : res (option A)) (strict operator : res A) : Prop :=
  (wrap = Panic /\ over = Panic \/ exists v, wrap = Ok v /\ over = Ok (v, overflow)) /\
  (refused = true -> check = Ok None /\ strict = Panic) /\
  (refused = false -> check = (let* v := wrap in Ok (Some v)) /\ strict = wrap) /\
  operator = (if overflow_checks && refused then Panic else wrap).

Section SD.
Context {c : Cfg}.
Hypothesis HV : Valid.
(** Minimum over minus one, on the numbers. *)
Definition div_overflow (sg : bool) (x y : list Z) : bool := sg && (sval x =? - 2 ^ (BITS - 1)) && (sval y =? -1).
Definition div_refused (sg : bool) (x y : list Z) : bool := (uval y =? 0) || div_overflow sg x y.
Lemma div_overflow_eq : forall sg x y, dovf sg (val sg x) (val sg y) = div_overflow sg x y.
Proof. intros [] x y; reflexivity. Qed.
Lemma div_refused_eq : forall sg x y, wf y -> dnone sg (val sg x) (val sg y) = div_refused sg x y.
Proof.
  intros sg x y Hy. unfold dnone, div_refused. rewrite div_overflow_eq. f_equal.
  rewrite <- (eqb_ofZ HV sg y 0) by (auto; apply (fits_0 HV)). rewrite (uval_lit HV) by lia. reflexivity.
Qed.
Lemma coherent_div_mk : forall (A : Type) (o r : bool) over (wrap : res A),
  (o = true -> exists v, wrap = Ok v /\ over = Ok (v, true)) ->
  (o = false -> over = (let* v := wrap in Ok (v, false))) -> wrap <> OutOfFuel ->
  coherent_div chk o r over wrap (if r then Ok None else let* v := wrap in Ok (Some v)) (if r then Panic else wrap) (if chk && r then Panic else wrap).
Proof.
  intros A o r over wrap H1 H2 H3. split; [|split; [|split]]; [|intros ->; auto|intros ->; auto|auto].
  destruct o; [right; auto|]. rewrite (H2 eq_refl). destruct wrap; [right|left|congruence]; eauto.
Qed.
Lemma min_m1 : forall x y, div_overflow true x y = true ->
  soutcome (sval x) (sval y) = Some (2 ^ (BITS - 1), 0) /\
  esq true (sval x) (sval y) = Some (2 ^ (BITS - 1)) /\ esr true (sval x) (sval y) = Some 0.
Proof.
  intros x y H. apply andb_prop in H. destruct H as [H E2]. apply andb_prop in H. destruct H as [_ E1].
  apply Z.eqb_eq in E1, E2. rewrite E1, E2.
  assert (HE : exact_division W N (Z.abs (- 2 ^ (BITS - 1))) (Z.abs (-1))) by (change (Z.abs (-1)) with 1; apply (exact_m1 HV)).
  destruct (esq_exact true (- 2 ^ (BITS - 1)) (-1) ltac:(lia) ltac:(discriminate) HE) as (-> & ->).
  rewrite soutcome_exact by (auto; lia). change (Z.abs (-1)) with 1. change (Z.sgn (-1)) with (-1).
  rewrite Z.mod_1_r, Z.div_1_r. change (-1) with (- (1)).
  rewrite Z.quot_opp_opp, Z.quot_1_r, Z.rem_opp_opp, Z.rem_1_r by lia. split; [|split]; [reflexivity|f_equal; lia|reflexivity].
Qed.
Lemma ofZ_minE : ofZ (2 ^ (BITS - 1)) = ofZ (- 2 ^ (BITS - 1)).
Proof. apply (ofZ_cong HV) with 1. pose proof (pBhalf HV). lia. Qed.
Lemma lift1_fuel : forall o, lift1 o <> OutOfFuel.
Proof. intros []; discriminate. Qed.
Lemma chko_eq : forall sg x y o, chko sg x y o = if dnone sg x y then Ok None else let* v := lift1 o in Ok (Some v).
Proof. intros. unfold chko. destruct (dnone _ _ _); auto. destruct o; reflexivity. Qed.
End SD.

Theorem C58_div : forall (c : Cfg) sg x y, Valid -> wf x -> wf y ->
  let all {A} := @coherent_div A chk (div_overflow sg x y) (div_refused sg x y) in
  all (overflowing_div sg x y) (wrapping_div sg x y) (checked_div sg x y) (strict_div sg x y) (op_div sg x y) /\
  all (overflowing_rem sg x y) (wrapping_rem sg x y) (checked_rem sg x y) (strict_rem sg x y) (op_rem sg x y) /\
  all (overflowing_div_euclid sg x y) (wrapping_div_euclid sg x y) (checked_div_euclid sg x y) (strict_div_euclid sg x y) (div_euclid sg x y) /\
  all (overflowing_rem_euclid sg x y) (wrapping_rem_euclid sg x y) (checked_rem_euclid sg x y) (strict_rem_euclid sg x y) (rem_euclid sg x y) /\
  all (overflowing_div_rem sg x y) (wrapping_div_rem sg x y) (checked_div_rem sg x y) (unwrap (checked_div_rem sg x y)) (div_rem sg x y).
Proof.
  intros c sg x y HV Hx Hy all. unfold all.
  assert (M : div_overflow sg x y = true -> soutcome (val sg x) (val sg y) = Some (2 ^ (BITS - 1), 0) /\
    esq sg (val sg x) (val sg y) = Some (2 ^ (BITS - 1)) /\ esr sg (val sg x) (val sg y) = Some 0).
  { destruct sg; [apply (min_m1 HV)|discriminate]. }
  split; [|split; [|split; [|split]]].
  - rewrite (overflowing_div_ok HV), (wrapping_div_ok HV), (checked_div_ok HV), (strict_div_ok HV), (op_div_ok HV) by auto.
    rewrite chko_eq. unfold opd. rewrite div_overflow_eq, (div_refused_eq HV) by auto.
    apply coherent_div_mk; [intros D|intros D|apply lift1_fuel]; rewrite D.
    + destruct (M D) as (E1 & E2 & E3). unfold sq. rewrite E1. cbn [option_map fst lift1]. rewrite (ofZ_minE HV). eauto.
    + destruct (sq _ _); reflexivity.
  - rewrite (overflowing_rem_ok HV), (wrapping_rem_ok HV), (checked_rem_ok HV), (strict_rem_ok HV), (op_rem_ok HV) by auto.
    rewrite chko_eq. unfold opd. rewrite div_overflow_eq, (div_refused_eq HV) by auto.
    apply coherent_div_mk; [intros D|intros D|apply lift1_fuel]; rewrite D.
    + destruct (M D) as (E1 & E2 & E3). unfold sr. rewrite E1. cbn [option_map snd lift1]. eauto.
    + destruct (sr _ _); reflexivity.
  - rewrite (overflowing_div_euclid_ok HV), (wrapping_div_euclid_ok HV), (checked_div_euclid_ok HV), (strict_div_euclid_ok HV), (div_euclid_ok HV) by auto.
    rewrite chko_eq. unfold opd. rewrite div_overflow_eq, (div_refused_eq HV) by auto.
    apply coherent_div_mk; [intros D|intros D|apply lift1_fuel]; rewrite D.
    + destruct (M D) as (E1 & E2 & E3). rewrite E2. cbn [lift1]. rewrite (ofZ_minE HV). eauto.
    + destruct (esq _ _ _); reflexivity.
  - rewrite (overflowing_rem_euclid_ok HV), (wrapping_rem_euclid_ok HV), (checked_rem_euclid_ok HV), (strict_rem_euclid_ok HV), (rem_euclid_ok HV) by auto.
    rewrite chko_eq. unfold opd. rewrite div_overflow_eq, (div_refused_eq HV) by auto.
    apply coherent_div_mk; [intros D|intros D|apply lift1_fuel]; rewrite D.
    + destruct (M D) as (E1 & E2 & E3). rewrite E3. cbn [lift1]. eauto.
    + destruct (esr _ _ _); reflexivity.
  - rewrite (overflowing_div_rem_ok HV), (wrapping_div_rem_ok HV), (checked_div_rem_ok HV), (div_rem_ok HV) by auto.
    rewrite div_overflow_eq, (div_refused_eq HV) by auto.
    replace (match soutcome (val sg x) (val sg y) with Some (q, r) => Ok (Some (ofZ q, ofZ r)) | None => Panic end)
      with (let* v := lift_qr (soutcome (val sg x) (val sg y)) in Ok (Some v)) by (destruct (soutcome _ _) as [[q r]|]; reflexivity).
    replace (unwrap (if div_refused sg x y then Ok None else let* v := lift_qr (soutcome (val sg x) (val sg y)) in Ok (Some v)))
      with (if div_refused sg x y then Panic else lift_qr (soutcome (val sg x) (val sg y)))
      by (destruct (div_refused _ _ _); auto; destruct (soutcome _ _) as [[q r]|]; reflexivity).
    apply coherent_div_mk; [intros D|intros D|destruct (soutcome _ _) as [[q r]|]; discriminate]; rewrite D.
    + destruct (M D) as (E1 & E2 & E3). rewrite E1. cbn [lift_qr]. rewrite (ofZ_minE HV). eauto.
    + destruct (soutcome _ _) as [[q r]|]; reflexivity.
Qed.
Theorem C58_saturating_div : forall (c : Cfg) sg x y, Valid -> wf x -> wf y ->
  saturating_div sg x y = if div_overflow sg x y then s_max_value else wrapping_div sg x y.
Proof.
  intros c sg x y HV Hx Hy. rewrite (saturating_div_ok HV), (wrapping_div_ok HV), div_overflow_eq by auto.
  destruct (div_overflow _ _ _); auto. symmetry. apply (s_max_value_ok HV).
Qed.

(** ** Examples *)

Local Notation E64 v := (@ofZ c256_64 v).
Local Notation E32 v := (@ofZ c256_32 v).

(** Hypotheses met, flag set, and the five answers differ as they should. *)
Example C58_ex1 : @Valid c256_64 /\ @wf c256_64 (E64 (2 ^ 255)) /\
  @overflowing_add c256_64 true (E64 (2 ^ 254)) (E64 (2 ^ 254)) = Ok (E64 (2 ^ 255), true) /\
  @wrapping_add c256_64 true (E64 (2 ^ 254)) (E64 (2 ^ 254)) = Ok (E64 (2 ^ 255)) /\
  @checked_add c256_64 true (E64 (2 ^ 254)) (E64 (2 ^ 254)) = Ok None /\
  @strict_add c256_64 true (E64 (2 ^ 254)) (E64 (2 ^ 254)) = Panic /\
  @op_add c256_64 true (E64 (2 ^ 254)) (E64 (2 ^ 254)) = Panic /\
  @s_saturating_add c256_64 (E64 (2 ^ 254)) (E64 (2 ^ 254)) = Ok (E64 (2 ^ 255 - 1)).
Proof. split; [apply valid_c256_64|]. split; [apply wf_ofZ, valid_c256_64|]. vm_compute. repeat split; reflexivity. Qed.
(** A missed overflow: coherent, and wrong in every form. *)
Example C58_ex2 :
  @overflowing_mul c256_64 true (E64 (2 ^ 254 + 1)) (E64 (-2)) = Ok (E64 (- 2 ^ 255 - 2), false) /\
  @checked_mul c256_64 true (E64 (2 ^ 254 + 1)) (E64 (-2)) = Ok (Some (E64 (- 2 ^ 255 - 2))) /\
  @s_saturating_mul c256_64 (E64 (2 ^ 254 + 1)) (E64 (-2)) = Ok (E64 (- 2 ^ 255 - 2)) /\
  @sval c256_64 (E64 (- 2 ^ 255 - 2)) = 2 ^ 255 - 2.
Proof. vm_compute. repeat split; reflexivity. Qed.
(** Signed 128-bit scalars on 32-bit limbs: addition panics in all forms. *)
Example C58_ex3 : fits_u (@kbits c256_32 K128) 5 /\
  @overflowing_us c256_32 SAdd K128 true (E32 7) 5 = Panic /\ @wrapping_us c256_32 SAdd K128 true (E32 7) 5 = Panic /\
  @checked_us c256_32 SAdd K128 true (E32 7) 5 = Panic /\ @plain_us c256_32 SAdd K128 true (E32 7) 5 = Panic /\
  @overflowing_us c256_32 SAdd K128 false (E32 7) 5 = Ok (E32 12, false).
Proof. split; [split; reflexivity || discriminate|]. vm_compute. repeat split; reflexivity. Qed.
(** Minimum over minus one, and a zero divisor. *)
Example C58_ex4 :
  @div_overflow c256_64 true (E64 (- 2 ^ 255)) (E64 (-1)) = true /\ @div_refused c256_64 true (E64 9) (E64 0) = true /\
  @overflowing_div c256_64 true (E64 (- 2 ^ 255)) (E64 (-1)) = Ok (E64 (- 2 ^ 255), true) /\
  @wrapping_div c256_64 true (E64 (- 2 ^ 255)) (E64 (-1)) = Ok (E64 (- 2 ^ 255)) /\
  @checked_div c256_64 true (E64 (- 2 ^ 255)) (E64 (-1)) = Ok None /\
  @checked_rem c256_64 true (E64 9) (E64 0) = Ok None /\ @overflowing_rem c256_64 true (E64 9) (E64 0) = Panic /\
  @saturating_div c256_64 true (E64 (- 2 ^ 255)) (E64 (-1)) = Ok (E64 (2 ^ 255 - 1)).
Proof. vm_compute. repeat split; reflexivity. Qed.
Example C58_ex5 :
  @s_overflowing_shl c256_64 (E64 3) 257 = Ok (E64 6, true) /\ @checked_shl c256_64 (E64 3) 257 = Ok None /\
  @op_shl c256_64 false 32 (E64 3) 257 = Panic /\ @op_shl c512_32 false 32 (@ofZ c512_32 3) 513 = Ok (@ofZ c512_32 6) /\
  @s_overflowing_abs c256_64 (E64 (- 2 ^ 255)) = Ok (E64 (- 2 ^ 255), true) /\ @s_abs c512_32 (@ofZ c512_32 (- 2 ^ 511)) = Panic /\
  @overflowing_pow c256_64 false (E64 16) 64 = Ok (E64 0, true) /\ @u_saturating_pow c256_64 (E64 16) 64 = Ok (E64 (2 ^ 256 - 1)).
Proof. vm_compute. repeat split; reflexivity. Qed.

(** ** Assumptions (each must print "Closed under the global context") *)

Print Assumptions C58_add_sub_mul.
Print Assumptions C58_pow.
Print Assumptions C58_neg_abs.
Print Assumptions C58_mixed.
Print Assumptions C58_shift.
Print Assumptions C58_saturating_u.
Print Assumptions C58_saturating_s.
Print Assumptions C58_scalar_u.
Print Assumptions C58_scalar_s.
Print Assumptions C58_div.
Print Assumptions C58_saturating_div.
