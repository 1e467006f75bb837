(** * Properties: the remaining forms of modelled operations (C61-C63)

    C61: quotient-only and remainder-only divisions by a scalar.
    C62: operators by reference and in place, [Default], [Debug], [From].
    C63: num-traits impls that forward to inherent methods, and the error type. *)

Require Import ZArith List Bool Lia String.
From Verif Require Import Prim Spec Facts MAdd MMul MShift MCore PCore PBits PWide MArith PArith PArith2 PPow PMisc PBits2 PRet
  MDiv DivSpec PDiv PDivFull MApi PApi PApi2 PApi3 MScalar PScalar PScalarDiv MTraits PTraits MParse MWrite TextSpec MForms
  PParse PropsScalar PropsBits PropsMisc PropsArith PropsDiv PropsTraits PropsParse PropsWrite.
Import ListNotations.
Local Open Scope Z_scope.

(** [m] returns the number [v]. *)
Definition gives {c : Cfg} (sg : bool) (m : res (list Z)) (v : Z) : Prop := if sg then returns_s m v else returns_u m v.
(** The number [x] stands for, and the numbers that fit. *)
Definition num {c : Cfg} (sg : bool) (x : list Z) : Z := if sg then sval x else uval x.
Definition in_range {c : Cfg} (sg : bool) (v : Z) : Prop := if sg then fits_s BITS v else fits_u BITS v.

Section A.
Context {c : Cfg}.
Hypothesis HV : Valid.
Lemma gives1 : forall sg m v, m = Ok (ofZ v) -> in_range sg v -> gives sg m v.
Proof. intros [] m v E F; [apply (retS1 HV)|apply (retU1 HV)]; auto. Qed.
Lemma div_in_range : forall sg x n, wf x -> 0 < n -> in_range sg (num sg x / n).
Proof.
  intros [] x n Hx Hn; cbn.
  - apply (sdiv_fits HV); auto.
  - apply (div_fits HV); auto.
Qed.
Lemma fitsb_range : forall sg v, reflect (in_range sg v) (fitsb sg v).
Proof. intros [] v; [apply (fitsb_reflect true)|apply (fitsb_reflect false)]. Qed.
End A.

(** ** C61 *)

Theorem C61_by_unsigned : forall (c : Cfg) k sg x n, Valid -> wf x -> fits_u (kbits k) n -> n <> 0 ->
  exact_scalar W N (kbits k) (Z.abs (num sg x)) n ->
  gives sg (div_us k sg x n) (num sg x / n) /\ rem_us k sg x n = Ok (num sg x mod n) /\
  gives sg (wrapping_div_us k sg x n) (num sg x / n) /\ wrapping_rem_us k sg x n = Ok (num sg x mod n) /\
  (exists q, overflowing_div_us k sg x n = Ok (q, false) /\ gives sg (Ok q) (num sg x / n)) /\
  overflowing_rem_us k sg x n = Ok (num sg x mod n, false) /\
  (exists q, checked_div_us k sg x n = Ok (Some q) /\ gives sg (Ok q) (num sg x / n)) /\
  checked_rem_us k sg x n = Ok (Some (num sg x mod n)).
Proof.
  intros c k sg x n HV Hx Hn H0 HE. assert (P : 0 < n) by (destruct Hn; lia).
  pose proof (div_in_range HV sg x n Hx P) as R.
  unfold div_us, rem_us, wrapping_div_us, wrapping_rem_us, overflowing_div_us, overflowing_rem_us, checked_div_us, checked_rem_us,
    overflowing_div_rem_us.
  change (num sg x) with (val sg x) in *.
  rewrite (div_rem_us_ok HV), (wrapping_div_rem_us_ok HV), (checked_div_rem_us_ok HV) by auto.
  destruct (Z.eqb_spec n 0); [contradiction|].
  cbn [quo_of rem_of quo_flag rem_flag quo_opt rem_opt bind fst snd].
  split; [apply (gives1 HV); auto|]. split; [reflexivity|]. split; [apply (gives1 HV); auto|]. split; [reflexivity|].
  split; [eexists; split; [reflexivity|apply (gives1 HV); auto]|]. split; [reflexivity|].
  split; [eexists; split; [reflexivity|apply (gives1 HV); auto]|]. reflexivity.
Qed.
Theorem C61_by_signed : forall (c : Cfg) k x n, Valid -> wf x -> fits_s (kbits k) n -> n <> 0 ->
  exact_scalar W N (kbits k) (Z.abs (sval x)) (Z.abs n) ->
  returns_s (wrapping_div_is k x n) (swrap BITS (Z.quot (sval x) n)) /\ wrapping_rem_is k x n = Ok (Z.rem (sval x) n) /\
  returns_s_flag (overflowing_div_is k x n) (swrap BITS (Z.quot (sval x) n)) (sval x = - 2 ^ (BITS - 1) /\ n = -1) /\
  (exists f, overflowing_rem_is k x n = Ok (Z.rem (sval x) n, f) /\ (f = true <-> sval x = - 2 ^ (BITS - 1) /\ n = -1)) /\
  (~ (sval x = - 2 ^ (BITS - 1) /\ n = -1) ->
     returns_s (div_is k x n) (Z.quot (sval x) n) /\ rem_is k x n = Ok (Z.rem (sval x) n) /\
     (exists q, checked_div_is k x n = Ok (Some q) /\ returns_s (Ok q) (Z.quot (sval x) n)) /\
     checked_rem_is k x n = Ok (Some (Z.rem (sval x) n))) /\
  (sval x = - 2 ^ (BITS - 1) /\ n = -1 ->
     checked_div_is k x n = Ok None /\ checked_rem_is k x n = Ok None /\
     (chk = true -> div_is k x n = Panic /\ rem_is k x n = Panic)).
Proof.
  intros c k x n HV Hx Hn H0 HE.
  pose proof (BITS_pos HV) as HB.
  assert (FI : fits_s BITS (Z.quot (sval x) n) <-> ~ (sval x = - 2 ^ (BITS - 1) /\ n = -1)).
  { pose proof (sval_range HV x Hx) as R. pose proof (pBh HV) as P2. unfold fits_s in *. split.
    - intros H [E1 ->]. rewrite E1 in H. change (-1) with (- (1)) in H. rewrite Z.quot_opp_opp, Z.quot_1_r in H by lia. lia.
    - intros H. destruct (quot_abs (sval x) n H0) as [Eq _].
      assert (0 <= Z.abs (sval x) / Z.abs n) by (apply Z.div_pos; lia).
      destruct (Z.eq_dec (Z.abs n) 1) as [E1|E1].
      + rewrite E1, Z.div_1_r in *. destruct (Z.ltb_spec (sval x) 0), (Z.ltb_spec n 0); cbn [xorb] in Eq; rewrite Eq; lia.
      + assert (Z.abs (sval x) / Z.abs n <= Z.abs (sval x) / 2) by (apply Z.div_le_compat_l; lia).
        assert (Z.abs (sval x) / 2 <= 2 ^ (BITS - 1) / 2) by (apply Z.div_le_mono; lia).
        assert (2 ^ (BITS - 1) / 2 < 2 ^ (BITS - 1)) by (apply Z.div_lt; lia).
        rewrite Eq. destruct (xorb _ _); lia. }
  assert (OV : overflowing_div_is k x n = Ok (ofZ (Z.quot (sval x) n), negb (fitsb true (Z.quot (sval x) n))) /\
               overflowing_rem_is k x n = Ok (Z.rem (sval x) n, negb (fitsb true (Z.quot (sval x) n)))).
  { assert (G : overflowing_div_rem_is k x n = Ok (ofZ (Z.quot (sval x) n), Z.rem (sval x) n, negb (fitsb true (Z.quot (sval x) n))))
      by (apply (overflowing_div_rem_is_ok HV); auto).
    unfold overflowing_div_is, overflowing_rem_is. destruct k; try (rewrite G; split; reflexivity). clear G.
    assert (W32 : 32 <= W) by (destruct (W_cases HV); lia). cbn [kbits] in Hn, HE.
    assert (FW : fits_s W n).
    { unfold fits_s in *. assert (2 ^ (32 - 1) <= 2 ^ (W - 1)) by (apply Z.pow_le_mono_r; lia). lia. }
    rewrite (scast_small W n) by (auto; lia).
    rewrite (overflowing_div_rem_is_ok HV) by (auto; apply limb_exact; cbn; lia).
    cbn [quo_flag rem_flag bind fst snd]. split; [reflexivity|]. f_equal. f_equal.
    apply (scast_small 32); [lia|]. unfold fits_s in *. pose proof (Z.rem_bound_abs (sval x) n H0). lia. }
  destruct OV as (O1 & O2). rewrite O1, O2.
  unfold wrapping_div_is, wrapping_rem_is, div_is, rem_is, checked_div_is, checked_rem_is.
  rewrite (wrapping_div_rem_is_ok HV), (checked_div_rem_is_ok HV), (div_rem_is_ok HV) by auto.
  destruct (Z.eqb_spec n 0); [contradiction|].
  split; [apply (retS HV); reflexivity|]. split; [reflexivity|].
  destruct (fitsb_reflect true (Z.quot (sval x) n)) as [F|F]; cbn in F; cbn [negb orb andb].
  - rewrite andb_false_r. pose proof (proj1 FI F) as NF.
    split. { eexists _, _. split; [reflexivity|]. split; [apply (wf_ofZ HV)|]. split; [apply (sval_ofZ HV)|]. split; [discriminate|tauto]. }
    split. { eexists. split; [reflexivity|]. split; [discriminate|tauto]. }
    split; [|tauto]. intros _. cbn [quo_of rem_of quo_opt rem_opt bind fst snd].
    split; [apply (retS1 HV); auto|]. split; [reflexivity|]. split; [|reflexivity].
    eexists. split; [reflexivity|apply (retS1 HV); auto].
  - assert (NF : sval x = - 2 ^ (BITS - 1) /\ n = -1).
    { destruct (Z.eq_dec (sval x) (- 2 ^ (BITS - 1))), (Z.eq_dec n (-1)); auto; exfalso; apply F, FI; tauto. }
    split. { eexists _, _. split; [reflexivity|]. split; [apply (wf_ofZ HV)|]. split; [apply (sval_ofZ HV)|]. tauto. }
    split. { eexists. split; [reflexivity|]. tauto. }
    split; [tauto|]. intros _. cbn [quo_opt rem_opt bind]. split; [reflexivity|]. split; [reflexivity|].
    intros ->. split; reflexivity.
Qed.
(** Zero divisors: the checked forms refuse them whatever the kind of scalar. *)
Theorem C61_checked_zero : forall (c : Cfg) k sg x, Valid -> wf x ->
  checked_div_us k sg x 0 = Ok None /\ checked_rem_us k sg x 0 = Ok None /\
  checked_div_is k x 0 = Ok None /\ checked_rem_is k x 0 = Ok None /\
  (chk = true -> div_us k sg x 0 = Panic /\ rem_us k sg x 0 = Panic /\ div_is k x 0 = Panic /\ rem_is k x 0 = Panic).
Proof.
  intros c k sg x HV Hx. repeat (split; [reflexivity|]). intros H.
  unfold div_us, rem_us, div_is, rem_is, div_rem_us, div_rem_is. rewrite H. repeat split.
Qed.
(** The single-result forms never disagree with the pair, right or wrong. *)
Theorem C61_projections : forall (c : Cfg) k sg x n q r,
  (div_rem_us k sg x n = Ok (q, r) -> div_us k sg x n = Ok q /\ rem_us k sg x n = Ok r) /\
  (div_rem_us k sg x n = Panic -> div_us k sg x n = Panic /\ rem_us k sg x n = Panic) /\
  (div_rem_is k x n = Ok (q, r) -> div_is k x n = Ok q /\ rem_is k x n = Ok r) /\
  (div_rem_is k x n = Panic -> div_is k x n = Panic /\ rem_is k x n = Panic).
Proof.
  intros c k sg x n q r. unfold div_us, rem_us, div_is, rem_is. split; [|split; [|split]]; intros ->; split; reflexivity.
Qed.
Example C61_ex1 : @div_us c256_64 KLimb true (E64 (- 65)) 64 = Ok (E64 (- 2)) /\ @rem_us c256_32 K32 false (E32 (2 ^ 255 + 9)) 10 = Ok ((2 ^ 255 + 9) mod 10)
  /\ @checked_rem_us c384_64 K64 true (E384 (- 7)) 5 = Ok (Some 3).
Proof. vm_compute. auto. Qed.
Example C61_ex2 : @overflowing_div_is c256_64 K32 (E64 (- 2 ^ 255)) (-1) = Ok (E64 (- 2 ^ 255), true) /\
  @overflowing_rem_is c256_64 K32 (E64 (- 65)) 64 = Ok (-1, false) /\ @checked_div_is c256_32 KLimb (E32 (- 2 ^ 255)) (-1) = Ok None /\
  @div_is c256_32 K64 (E32 (- 2 ^ 255)) (-1) = Panic /\ @rem_is c512_32 K64 (E512 (- 7)) (-4) = Ok (-3).
Proof. vm_compute. auto 10. Qed.

(** ** C62: operators by reference and in place

    All four ways of writing an operator compute the same number. *)

(** The number an operator stands for; quotient and remainder truncate. *)
Definition opz (o : binop) (a b : Z) : Z :=
  match o with
  | OAdd => a + b | OSub => a - b | OMul => a * b | ODiv => Z.quot a b | ORem => Z.rem a b
  | OAnd => Z.land a b | OOr => Z.lor a b | OXor => Z.lxor a b
  end.
(** When the division routine is exact (C08). *)
Definition op_exact {c : Cfg} (o : binop) (a b : Z) : Prop :=
  match o with
  | ODiv | ORem => b <> 0 /\ exact_division W N (Z.abs a) (Z.abs b)
  | _ => True
  end.

Section B.
Context {c : Cfg}.
Hypothesis HV : Valid.
Lemma num_ofZ : forall sg v, in_range sg v -> num sg (ofZ v) = v.
Proof. intros [] v F; [exact (val_ofZ_small HV true v F)|exact (val_ofZ_small HV false v F)]. Qed.
Lemma num_wf : forall sg x, wf x -> in_range sg (num sg x).
Proof. intros [] x Hx; [exact (sval_range HV x Hx)|exact (uval_range HV x Hx)]. Qed.
Lemma gives_iff : forall sg m v, gives sg m v -> exists r, m = Ok r /\ wf r /\ num sg r = v.
Proof. intros [] m v (r & H); exists r; exact H. Qed.
End B.

(** In range, every form gives the number, whether or not checks are on.  The
    remainder also needs a quotient in range: MIN % -1 is refused (C10). *)
Theorem C62_forms : forall (c : Cfg) f o sg x y, Valid -> wf x -> wf y ->
  op_exact o (num sg x) (num sg y) -> in_range sg (opz o (num sg x) (num sg y)) ->
  (o = ORem -> in_range sg (Z.quot (num sg x) (num sg y))) ->
  gives sg (binary f o sg x y) (opz o (num sg x) (num sg y)).
Proof.
  intros c f o sg x y HV Hx Hy HE HR HQ.
  assert (V : gives sg (binary_value o sg x y) (opz o (num sg x) (num sg y))).
  { pose proof (BITS_pos HV) as HB. change (num sg x) with (val sg x) in *. change (num sg y) with (val sg y) in *.
    assert (ND : forall m, (val sg y <> 0 -> in_range sg (Z.quot (val sg x) (val sg y)) -> m = lift1 (Some (opz o (val sg x) (val sg y)))) ->
      val sg y <> 0 -> in_range sg (Z.quot (val sg x) (val sg y)) -> gives sg m (opz o (val sg x) (val sg y))).
    { intros m H A B. rewrite (H A B). apply (gives1 HV); auto. }
    assert (NN : val sg y <> 0 -> in_range sg (Z.quot (val sg x) (val sg y)) -> dnone sg (val sg x) (val sg y) = false).
    { intros A B. unfold dnone, dovf. destruct (Z.eqb_spec (val sg y) 0); [contradiction|]. destruct sg; auto. cbn [orb andb val] in *.
      destruct (Z.eqb_spec (sval x) (- 2 ^ (BITS - 1))) as [E1|]; auto. destruct (Z.eqb_spec (sval y) (-1)) as [E2|]; auto.
      rewrite E1, E2 in B. change (-1) with (- (1)) in B. rewrite Z.quot_opp_opp, Z.quot_1_r in B by lia. cbn in B. unfold fits_s in B. lia. }
    destruct o; cbn [binary_value opz op_exact] in *.
    - rewrite (op_add_ok HV) by auto. unfold op_result. destruct (fitsb_range sg (val sg x + val sg y)); [|contradiction].
      rewrite andb_false_r. apply (gives1 HV); auto.
    - rewrite (op_sub_ok HV) by auto. unfold op_result. destruct (fitsb_range sg (val sg x - val sg y)); [|contradiction].
      rewrite andb_false_r. apply (gives1 HV); auto.
    - destruct sg; [apply C44_mul_s; auto|]. cbn [gives]. rewrite (op_mul_ok HV) by auto. unfold mulf.
      destruct (fitsb_range false (val false x * val false y)); [|contradiction]. rewrite andb_false_r. apply (gives1 HV false); auto.
    - destruct HE as (H0 & HE). apply ND; auto. intros A B. rewrite (op_div_ok HV) by auto. unfold opd.
      rewrite NN, andb_false_r, (sq_exact) by auto. reflexivity.
    - destruct HE as (H0 & HE). apply ND; auto. intros A B. rewrite (op_rem_ok HV) by auto. unfold opd.
      rewrite NN, andb_false_r, (sr_exact) by auto. reflexivity.
    - destruct sg; [apply (C19_signed c x y); auto|]. apply (gives1 HV); auto. exact (bitand_ok HV x y Hx Hy).
    - destruct sg; [apply (C19_signed c x y); auto|]. apply (gives1 HV); auto. exact (bitor_ok HV x y Hx Hy).
    - destruct sg; [apply (C19_signed c x y); auto|]. apply (gives1 HV); auto. exact (bitxor_ok HV x y Hx Hy). }
  destruct f; cbn [binary]; auto; destruct (gives_iff _ _ _ V) as (r & E & Hr); rewrite E in V |- *; exact V.
Qed.
(** Out of range, every form panics when checks are on (products: unsigned;
    signed products have the gap of C06). *)
Theorem C62_forms_overflow : forall (c : Cfg) f o sg x y, Valid -> wf x -> wf y ->
  o = OAdd \/ o = OSub \/ o = OMul /\ sg = false -> ~ in_range sg (opz o (num sg x) (num sg y)) ->
  chk = true -> binary f o sg x y = Panic.
Proof.
  intros c f o sg x y HV Hx Hy HO HR HC.
  assert (V : binary_value o sg x y = Panic).
  { change (num sg x) with (val sg x) in *. change (num sg y) with (val sg y) in *.
    destruct HO as [->|[->|(-> & ->)]]; cbn [binary_value opz] in *.
    - rewrite (op_add_ok HV) by auto. unfold op_result. destruct (fitsb_range sg (val sg x + val sg y)); [contradiction|]. rewrite HC. reflexivity.
    - rewrite (op_sub_ok HV) by auto. unfold op_result. destruct (fitsb_range sg (val sg x - val sg y)); [contradiction|]. rewrite HC. reflexivity.
    - rewrite (op_mul_ok HV) by auto. unfold mulf. destruct (fitsb_range false (val false x * val false y)); [contradiction|]. rewrite HC. reflexivity. }
  destruct f; cbn [binary]; rewrite V; reflexivity.
Qed.

(** A run of assignments on integers, and the condition that every step is
    exact and in range. *)
Fixpoint zrun {c : Cfg} (sg : bool) (v : Z) (steps : list (binop * list Z)) : Z :=
  match steps with
  | [] => v
  | (o, y) :: rest => zrun sg (opz o v (num sg y)) rest
  end.
Fixpoint run_fits {c : Cfg} (sg : bool) (v : Z) (steps : list (binop * list Z)) : Prop :=
  match steps with
  | [] => True
  | (o, y) :: rest =>
      op_exact o v (num sg y) /\ in_range sg (opz o v (num sg y)) /\ (o = ORem -> in_range sg (Z.quot v (num sg y))) /\
      run_fits sg (opz o v (num sg y)) rest
  end.
Definition operands_wf {c : Cfg} (steps : list (binop * list Z)) : Prop := Forall (fun s => wf (snd s)) steps.

(** If every intermediate number fits, the run of assignments ends at the number
    computed on the integers, with or without overflow checks. *)
Theorem C62_run_exact : forall (c : Cfg) sg steps x, Valid -> wf x -> operands_wf steps ->
  run_fits sg (num sg x) steps -> gives sg (assign_all sg x steps) (zrun sg (num sg x) steps).
Proof.
  intros c sg steps x HV. revert x. induction steps as [|(o, y) rest IH]; intros x Hx HW HF; cbn [assign_all zrun run_fits] in *.
  - destruct sg; exists x; auto.
  - inversion HW as [|? ? Hy HW']; subst. cbn [snd] in Hy. destruct HF as (F1 & F2 & F3 & F4).
    destruct (gives_iff _ _ _ (C62_forms c Assign o sg x y HV Hx Hy F1 F2 F3)) as (r & E & Hr & Er).
    rewrite E. cbn [bind]. rewrite <- Er in F4 |- *. apply IH; auto.
Qed.
(** Without overflow checks a run of additions, subtractions and products is
    right modulo 2^BITS, however often it wraps in between. *)
Theorem C62_run_wrapping : forall (c : Cfg) sg steps x, Valid -> wf x -> operands_wf steps -> chk = false ->
  Forall (fun s => fst s = OAdd \/ fst s = OSub \/ fst s = OMul) steps ->
  gives sg (assign_all sg x steps) ((if sg then swrap BITS else fun v => v mod 2 ^ BITS) (zrun sg (num sg x) steps)).
Proof.
  intros c sg steps x HV Hx HW HC HO. pose proof (BITS_pos HV) as HB.
  assert (G : forall v x, wf x -> x = ofZ v -> exists r, assign_all sg x steps = Ok r /\ wf r /\ r = ofZ (zrun sg v steps)).
  { clear x Hx. induction steps as [|(o, y) rest IH]; intros v x Hx HX; cbn [assign_all zrun].
    - exists x. auto.
    - inversion HW as [|? ? Hy HW']; subst. inversion HO as [|? ? Ho HO']; subst. cbn [fst snd] in *.
      destruct (val_cong HV sg (ofZ v) Hx) as (k1 & E1).
      assert (EV : exists k, val sg (ofZ v) = v + k * 2 ^ BITS).
      { pose proof (uval_ofZ HV v) as U. rewrite U in E1. exists (k1 - v / 2 ^ BITS). rewrite E1.
        rewrite (Z.mod_eq v (2 ^ BITS)) by (apply Z.pow_nonzero; lia). ring. }
      destruct EV as (k & EV).
      assert (S : binary_value o sg (ofZ v) y = Ok (ofZ (opz o v (num sg y)))).
      { change (num sg y) with (val sg y). destruct Ho as [->|[->| -> ]]; cbn [binary_value opz].
        - rewrite (op_add_ok HV) by auto. unfold op_result. rewrite HC. cbn [andb]. f_equal.
          apply (ofZ_cong HV) with (k := k). rewrite EV. ring.
        - rewrite (op_sub_ok HV) by auto. unfold op_result. rewrite HC. cbn [andb]. f_equal.
          apply (ofZ_cong HV) with (k := k). rewrite EV. ring.
        - rewrite (op_mul_ok HV) by auto. rewrite HC. cbn [andb]. f_equal.
          apply (ofZ_cong HV) with (k := k * val sg y). rewrite EV. ring. }
      cbn [binary]. rewrite S. cbn [bind]. apply IH; auto. apply (wf_ofZ HV). }
  assert (X : x = ofZ (num sg x)).
  { change (num sg x) with (val sg x). destruct (val_cong HV sg x Hx) as (k & E). rewrite <- (ofZ_uval HV x Hx) at 1. symmetry.
    apply (ofZ_cong HV) with (k := k). exact E. }
  destruct (G (num sg x) x Hx X) as (r & E & Hr & Er). rewrite E, Er.
  destruct sg; [apply (retS HV)|apply (retU HV)]; reflexivity.
Qed.
(** With overflow checks a run of additions and subtractions panics exactly when
    some intermediate number does not fit. *)
Theorem C62_run_checked : forall (c : Cfg) sg steps x, Valid -> wf x -> operands_wf steps -> chk = true ->
  Forall (fun s => fst s = OAdd \/ fst s = OSub \/ fst s = OMul /\ sg = false) steps ->
  run_fits sg (num sg x) steps /\ gives sg (assign_all sg x steps) (zrun sg (num sg x) steps) \/
  ~ run_fits sg (num sg x) steps /\ assign_all sg x steps = Panic.
Proof.
  intros c sg steps x HV Hx HW HC HO. revert x Hx. induction steps as [|(o, y) rest IH]; intros x Hx.
  - left. split; [exact I|]. apply C62_run_exact; auto. exact I.
  - inversion HW as [|? ? Hy HW']; subst. inversion HO as [|? ? Ho HO']; subst. cbn [fst snd] in *.
    assert (T1 : op_exact o (num sg x) (num sg y)) by (destruct Ho as [->|[->|(-> & _)]]; exact I).
    assert (T2 : o = ORem -> in_range sg (Z.quot (num sg x) (num sg y))) by (intros ->; destruct Ho as [?|[?|(? & _)]]; discriminate).
    destruct (fitsb_range sg (opz o (num sg x) (num sg y))) as [F|F].
    + destruct (gives_iff _ _ _ (C62_forms c Assign o sg x y HV Hx Hy T1 F T2)) as (r & E & Hr & Er).
      cbn [assign_all zrun run_fits]. rewrite E. cbn [bind]. rewrite <- Er.
      destruct (IH HW' HO' r Hr) as [(A & B)|(A & B)]; [left|right]; rewrite Er in *; tauto.
    + right. split; [cbn [run_fits]; tauto|]. cbn [assign_all]. rewrite (C62_forms_overflow c Assign o sg x y); auto.
Qed.
Example C62_ex1 : @assign_all c256_64 true (E64 10) [(OMul, E64 (-7)); (OSub, E64 (2 ^ 200)); (ODiv, E64 1000); (OXor, E64 5)]
  = Ok (E64 (Z.lxor (Z.quot (-70 - 2 ^ 200) 1000) 5)).
Proof. vm_compute. auto. Qed.
Example C62_ex2 : @run_fits c256_64 true 10 [(OMul, E64 (-7)); (OSub, E64 (2 ^ 200)); (OAdd, E64 3)] /\
  @assign_all c256_64 false (E64 (2 ^ 256 - 1)) [(OAdd, E64 2); (OSub, E64 2)] = Panic /\
  @assign_all c512_32 false (E512 (2 ^ 512 - 1)) [(OAdd, E512 2); (OSub, E512 2)] = Ok (E512 (2 ^ 512 - 1)).
Proof.
  split; [|vm_compute; auto]. cbn [run_fits]. repeat (split; [exact I|split; [vm_compute; split; congruence|split; [discriminate|]]]). exact I.
Qed.

(** Shifts by a primitive amount that fits the amount type (C45): every form. *)
Theorem C62_shift_forms : forall (c : Cfg) f (ps : bool) b x n, Valid -> wf x -> 1 <= b ->
  BITS < 2 ^ (if ps then b - 1 else b) -> 0 <= n < BITS ->
  returns_u (shl_form f ps b x n) ((uval x * 2 ^ n) mod 2 ^ BITS) /\
  returns_u (shr_form f false ps b x n) (uval x / 2 ^ n) /\ returns_s (shr_form f true ps b x n) (sval x / 2 ^ n).
Proof.
  intros c f ps b x n HV Hx Hb HB Hn.
  assert (V : returns_u (op_shl ps b x n) ((uval x * 2 ^ n) mod 2 ^ BITS) /\
              returns_u (op_shr false ps b x n) (uval x / 2 ^ n) /\ returns_s (op_shr true ps b x n) (sval x / 2 ^ n)).
  { destruct (C45_shl_partial c ps b x n HV Hx Hb HB) as (L1 & L2). destruct (C45_shr_partial c ps b x n HV Hx Hb HB) as (R1 & R2).
    rewrite !(amount_exact HV) in L2, R2 by lia. destruct chk.
    - destruct (L1 eq_refl) as [(_ & A)|(A & _)]; [|contradiction]. destruct (R1 eq_refl) as ([(_ & B)|(B & _)] & [(_ & C)|(C & _)]); try contradiction. auto.
    - split; [apply L2|apply R2]; reflexivity. }
  destruct V as ((a & A & A') & (d & B & B') & (e & C & C')).
  destruct f; cbn [shl_form shr_form]; rewrite A, B, C; (split; [exists a|split; [exists d|exists e]]); auto.
Qed.
(** Out of range every form panics when checks are on. *)
Theorem C62_shift_forms_panic : forall (c : Cfg) f sg (ps : bool) b x n, Valid -> wf x -> 1 <= b ->
  BITS < 2 ^ (if ps then b - 1 else b) -> ~ 0 <= n < BITS -> chk = true ->
  shl_form f ps b x n = Panic /\ shr_form f sg ps b x n = Panic.
Proof.
  intros c f sg ps b x n HV Hx Hb HB Hn HC.
  assert (A : op_shl ps b x n = Panic).
  { destruct (proj1 (C45_shl_partial c ps b x n HV Hx Hb HB) HC) as [(A & _)|(_ & A)]; [contradiction|exact A]. }
  assert (B : op_shr sg ps b x n = Panic).
  { destruct (proj1 (C45_shr_partial c ps b x n HV Hx Hb HB) HC) as ([(B & _)|(_ & B)] & [(D & _)|(_ & D)]); try contradiction. destruct sg; auto. }
  destruct f; cbn [shl_form shr_form]; rewrite A, B; auto.
Qed.
(** Shifts by the big integer of the other signedness. *)
Theorem C62_shift_big_forms : forall (c : Cfg) f (ps : bool) x o, Valid -> wf x -> wf o ->
  (0 <= num ps o < BITS ->
     returns_u (shl_big_form f ps x o) ((uval x * 2 ^ num ps o) mod 2 ^ BITS) /\
     returns_u (shr_big_form f false ps x o) (uval x / 2 ^ num ps o) /\ returns_s (shr_big_form f true ps x o) (sval x / 2 ^ num ps o)) /\
  (~ 0 <= num ps o < BITS -> chk = true ->
     shl_big_form f ps x o = Panic /\ shr_big_form f false ps x o = Panic /\ shr_big_form f true ps x o = Panic).
Proof.
  intros c f ps x o HV Hx Ho.
  destruct (C45_shl_big c ps x o HV Hx Ho) as (L1 & L2). destruct (C45_shr_big c ps x o HV Hx Ho) as (R1 & R2).
  fold (num ps o) in L1, R1. split.
  - intros Hn.
    assert (V : returns_u (op_shl_big ps x o) ((uval x * 2 ^ num ps o) mod 2 ^ BITS) /\
              returns_u (op_shr_big false ps x o) (uval x / 2 ^ num ps o) /\ returns_s (op_shr_big true ps x o) (sval x / 2 ^ num ps o)).
    { assert (EU : uval o = num ps o).
      { destruct ps; auto. cbn [num] in *. rewrite (sval_uval o) in *. destruct (uval o <? 2 ^ (BITS - 1)); auto.
        pose proof (uval_range HV o Ho). lia. }
      rewrite EU, !(amount_exact HV) in L2, R2 by lia. destruct chk.
      - destruct (L1 eq_refl) as [(_ & A)|(A & _)]; [|contradiction]. destruct (R1 eq_refl) as ([(_ & B)|(B & _)] & [(_ & C)|(C & _)]); try contradiction. auto.
      - split; [apply L2|apply R2]; reflexivity. }
    destruct V as ((a & A & A') & (d & B & B') & (e & C & C')).
    destruct f; cbn [shl_big_form shr_big_form]; rewrite A, B, C; (split; [exists a|split; [exists d|exists e]]); auto.
  - intros Hn HC. destruct (L1 HC) as [(A & _)|(_ & A)]; [contradiction|].
    destruct (R1 HC) as ([(B & _)|(_ & B)] & [(D & _)|(_ & D)]); try contradiction.
    destruct f; cbn [shl_big_form shr_big_form]; rewrite A, B, D; auto.
Qed.
Theorem C62_unary_forms : forall (c : Cfg) f x, Valid -> wf x ->
  (chk = true -> returns_s_or_panics (neg_form f x) (fits_s BITS (- sval x)) (- sval x)) /\
  (chk = false -> returns_s (neg_form f x) (swrap BITS (- sval x))) /\
  returns_u (not_form f x) (2 ^ BITS - 1 - uval x) /\ returns_s (not_form f x) (- 1 - sval x).
Proof.
  intros c f x HV Hx. destruct (C44_neg c x HV Hx) as (A & B). split; [exact A|]. split; [exact B|]. split.
  - apply (retU1 HV).
    + unfold not_form. rewrite (not_const_ok HV) by auto. f_equal. apply (ofZ_cong HV) with (k := -1). ring.
    + pose proof (uval_range HV x Hx). unfold fits_u. lia.
  - replace (- 1 - sval x) with (- sval x - 1) by ring. apply (C19_not_signed c x HV Hx).
Qed.
(** [Default] is zero, [From] keeps the value, [Debug] prints like [Display]. *)
Theorem C62_default : forall (c : Cfg), Valid -> wf default_value /\ uval default_value = 0 /\ sval default_value = 0.
Proof.
  intros c HV. assert (E : default_value = ofZ 0).
  { unfold default_value, ofZ. generalize N. induction n; cbn [lenc repeat]; auto. rewrite Z.mod_0_l, Z.div_0_l by (destruct (proj1 HV) as [-> | ->]; discriminate).
    rewrite IHn. reflexivity. }
  rewrite E. split; [apply (wf_ofZ HV)|]. split; [apply (uval_lit HV)|apply (sval_lit HV)]; lia.
Qed.
Theorem C62_from : forall (c : Cfg) ps p v, Valid -> prim_ok p -> pfits ps p v ->
  returns_s (from_trait ps p v) v /\ (0 <= v -> returns_u (from_trait ps p v) v).
Proof.
  intros c ps p v HV Hp Hv. destruct (C55_as_in c ps p v HV Hp Hv) as (A & B). split; [exact A|]. intros H.
  rewrite Z.mod_small in B; [exact B|]. destruct A as (r & _ & Hr & E). pose proof (sval_range HV r Hr). pose proof (pBhalf HV). lia.
Qed.
Theorem C62_debug : forall (c : Cfg) sg x f, Valid -> wf x ->
  prints (debug_fmt sg x f) (fun s => exists d, upper_numeral 10 (Z.abs (num sg x)) d /\
    s = (if sg then if sval x <? 0 then [45] else if sign_plus f then [43] else [] else []) ++ d).
Proof.
  intros c [] x f HV Hx; unfold debug_fmt; [exact (C30_signed c x f HV Hx)|].
  destruct (C30_unsigned c x HV Hx) as (s & E & H). exists s. split; auto. exists s. split; auto.
  cbn [num]. rewrite Z.abs_eq; auto. apply (uval_range HV x Hx).
Qed.
Example C62_ex3 : @shl_form c256_64 AssignRef true 16 (E64 5) 250 = Ok (E64 (5 * 2 ^ 250)) /\ @shr_form c256_64 ByRef true false 16 (E64 (- 5)) 1 = Ok (E64 (- 3))
  /\ @shr_form c256_64 Assign true true 32 (E64 (- 5)) (- 1) = Panic /\ @neg_form c256_64 ByRef (E64 (- 2 ^ 255)) = Panic
  /\ @not_form c256_32 ByRef (E32 5) = Ok (E32 (- 6)) /\ @shl_big_form c384_64 Assign true (E384 1) (E384 383) = Ok (E384 (2 ^ 383)).
Proof. vm_compute. auto 10. Qed.
Example C62_ex4 : @debug_fmt c256_64 true (E64 (- 10)) {| alternate := true; sign_plus := true; width := Some 9; fill := [32] |} = Ok (Some [45; 49; 48])
  /\ @from_trait c256_64 true P16 (- 7) = Ok (E64 (- 7)).
Proof. vm_compute. auto. Qed.

(** ** C63: num-traits impls that forward to inherent methods; the error type *)

Definition nt_spec {c : Cfg} (sg : bool) (o : nt_value) (a b : Z) : Z :=
  let lo := if sg then - 2 ^ (BITS - 1) else 0 in
  let hi := if sg then 2 ^ (BITS - 1) - 1 else 2 ^ BITS - 1 in
  let clamp v := Z.max lo (Z.min hi v) in
  let wrap v := if sg then swrap BITS v else v mod 2 ^ BITS in
  match o with
  | NSaturatingAdd => clamp (a + b) | NSaturatingSub => clamp (a - b) | NSaturatingMul => clamp (a * b)
  | NWrappingAdd => wrap (a + b) | NWrappingSub => wrap (a - b) | NWrappingMul => wrap (a * b)
  end.
(** The products signed multiplication does not notice leaving the range (C06). *)
Definition unnoticed {c : Cfg} (sg : bool) (v : Z) : Prop :=
  sg = true /\ - (2 ^ (BITS - 1) + 2 ^ (BITS - W)) < v < - 2 ^ (BITS - 1).
Lemma noticed_cases : forall {c : Cfg} v, ~ unnoticed true v ->
  fits_s BITS v \/ 2 ^ (BITS - 1) <= v \/ v <= - (2 ^ (BITS - 1) + 2 ^ (BITS - W)).
Proof. intros c v H. unfold fits_s. unfold unnoticed in H. lia. Qed.

Theorem C63_value : forall (c : Cfg) o sg x y, Valid -> wf x -> wf y ->
  (o = NSaturatingMul -> ~ unnoticed sg (num sg x * num sg y)) ->
  gives sg (nt_binary o sg x y) (nt_spec sg o (num sg x) (num sg y)).
Proof.
  intros c o [] x y HV Hx Hy HU; cbn [num] in *; destruct o; cbn [nt_binary nt_spec gives].
  - apply C05_saturating_add; auto.
  - apply C05_saturating_sub; auto.
  - apply C06_checked_mul_partial; auto. apply noticed_cases. auto.
  - apply C04_wrapping_add; auto.
  - apply C04_wrapping_sub; auto.
  - apply C04_wrapping_mul; auto.
  - apply C02_saturating_add; auto.
  - apply C02_saturating_sub; auto.
  - apply C03_saturating_mul; auto.
  - apply C01_wrapping_add; auto.
  - apply C01_wrapping_sub; auto.
  - apply C01_wrapping_mul; auto.
Qed.
(** Euclidean quotient and remainder on the integers. *)
Definition ediv (a b : Z) : Z := if b <? 0 then - (a / - b) else a / b.
Definition emod (a b : Z) : Z := a mod Z.abs b.
Lemma ediv_unique : forall a b q r, a = q * b + r -> 0 <= r < Z.abs b -> q = ediv a b /\ r = emod a b.
Proof.
  intros a b q r E R. unfold ediv, emod. destruct (Z.ltb_spec b 0).
  - rewrite Z.abs_neq in * by lia. assert (E' : a = - b * (- q) + r) by (rewrite E; ring).
    split; [|apply Z.mod_unique_pos with (- q); auto]. rewrite <- (Z.div_unique_pos _ _ _ _ R E'). ring.
  - rewrite Z.abs_eq in * by lia. assert (E' : a = b * q + r) by (rewrite E; ring).
    split; [|apply Z.mod_unique_pos with q; auto]. apply Z.div_unique_pos with r; auto.
Qed.
Definition nt_opz (o : nt_option) (a b : Z) : Z :=
  match o with
  | NCheckedAdd => a + b | NCheckedSub => a - b | NCheckedMul => a * b
  | NCheckedDiv => Z.quot a b | NCheckedRem => Z.rem a b
  | NCheckedDivEuclid => ediv a b | NCheckedRemEuclid => emod a b
  end.
Definition divides (o : nt_option) : bool :=
  match o with NCheckedAdd | NCheckedSub | NCheckedMul => false | _ => true end.
(** There is an answer iff the number fits; division also refuses zero, and the
    remainder of MIN by -1. *)
Definition nt_defined {c : Cfg} (sg : bool) (o : nt_option) (a b : Z) : Prop :=
  if divides o then b <> 0 /\ ~ (sg = true /\ a = - 2 ^ (BITS - 1) /\ b = -1) else in_range sg (nt_opz o a b).
Theorem C63_checked : forall (c : Cfg) o sg x y, Valid -> wf x -> wf y ->
  (o = NCheckedMul -> ~ unnoticed sg (num sg x * num sg y)) ->
  (divides o = true -> num sg y <> 0 -> exact_division W N (Z.abs (num sg x)) (Z.abs (num sg y))) ->
  nt_defined sg o (num sg x) (num sg y) /\ (exists r, nt_checked o sg x y = Ok (Some r) /\ gives sg (Ok r) (nt_opz o (num sg x) (num sg y))) \/
  ~ nt_defined sg o (num sg x) (num sg y) /\ nt_checked o sg x y = Ok None.
Proof.
  intros c o sg x y HV Hx Hy HU HE.
  assert (OU : forall m (P : Prop) v, returns_u_opt m P v -> P /\ (exists r, m = Ok (Some r) /\ returns_u (Ok r) v) \/ ~ P /\ m = Ok None).
  { intros m P v [(p & r & E & H)|(p & E)]; [left|right]; auto. split; auto. exists r. split; auto. exists r. auto. }
  assert (OS : forall m (P : Prop) v, returns_s_opt m P v -> P /\ (exists r, m = Ok (Some r) /\ returns_s (Ok r) v) \/ ~ P /\ m = Ok None).
  { intros m P v [(p & r & E & H)|(p & E)]; [left|right]; auto. split; auto. exists r. split; auto. exists r. auto. }
  destruct (divides o) eqn:D.
  - destruct (Z.eq_dec (num sg y) 0) as [Z0|Z0].
    { right. unfold nt_defined. rewrite D. split; [tauto|]. destruct sg; cbn [num] in Z0.
      - destruct (C10_checked_none_s c x y HV Hx Hy) as (A1 & A2 & A3 & A4 & _). destruct o; try discriminate; cbn [nt_checked]; tauto.
      - destruct (C10_checked_none_u c x y HV Hx Hy) as (A1 & A2 & A3 & A4 & _). destruct o; try discriminate; cbn [nt_checked]; tauto. }
    specialize (HE eq_refl Z0). destruct sg; cbn [num] in *.
    + assert (DM : {min_over_m1 x y} + {~ min_over_m1 x y}).
      { unfold min_over_m1. destruct (Z.eq_dec (sval x) (- 2 ^ (BITS - 1))), (Z.eq_dec (sval y) (-1)); [left; auto|right; tauto..]. }
      destruct DM as [M|M].
      * right. unfold nt_defined. rewrite D. split; [unfold min_over_m1 in M; tauto|].
        destruct (C10_checked_none_s c x y HV Hx Hy) as (A1 & A2 & A3 & A4 & _). destruct o; try discriminate; cbn [nt_checked]; tauto.
      * left. unfold nt_defined. rewrite D. split; [unfold min_over_m1 in M; tauto|].
        destruct (C11_forms_s c x y HV Hx Hy Z0 M HE) as (_ & _ & _ & _ & Q & R & _).
        destruct (C12_euclid_s c x y HV Hx Hy Z0 HE) as (q & r & E & Rr & _ & _ & F). destruct (F M) as (_ & _ & _ & _ & _ & CQ & CR & _).
        pose proof (ediv_unique _ _ _ _ E Rr) as (UQ & UR). apply OS in Q. apply OS in R.
        destruct o; try discriminate; cbn [nt_checked nt_opz gives].
        -- destruct Q as [(_ & Q)|(Q & _)]; tauto.
        -- destruct R as [(_ & R)|(R & _)]; tauto.
        -- rewrite UQ in CQ. destruct CQ as (a & C1 & C2). exists a. split; auto. exists a. auto.
        -- rewrite UR in CR. destruct CR as (a & C1 & C2). exists a. split; auto. exists a. auto.
    + left. unfold nt_defined. rewrite D. split; [split; [auto|intros (? & _); discriminate]|].
      pose proof (uval_range HV x Hx) as Rx. pose proof (uval_range HV y Hy) as Ry.
      assert (HE' : exact_division W N (uval x) (uval y)) by (rewrite !Z.abs_eq in HE by lia; auto).
      destruct (C08_forms_u c x y HV Hx Hy Z0 HE') as (_ & _ & _ & Q & R & _). apply OU in Q. apply OU in R.
      assert (EQ : ediv (uval x) (uval y) = uval x / uval y) by (unfold ediv; destruct (Z.ltb_spec (uval y) 0); [lia|reflexivity]).
      assert (ER : emod (uval x) (uval y) = uval x mod uval y) by (unfold emod; rewrite Z.abs_eq by lia; reflexivity).
      assert (C1 : checked_div_euclid false x y = checked_div false x y) by (rewrite (checked_div_euclid_ok HV), (checked_div_ok HV) by auto; reflexivity).
      assert (C2 : checked_rem_euclid false x y = checked_rem false x y) by (rewrite (checked_rem_euclid_ok HV), (checked_rem_ok HV) by auto; reflexivity).
      destruct o; try discriminate; cbn [nt_checked nt_opz gives].
      * rewrite Z.quot_div_nonneg by lia. destruct Q as [(_ & Q)|(Q & _)]; tauto.
      * rewrite Z.rem_mod_nonneg by lia. destruct R as [(_ & R)|(R & _)]; tauto.
      * rewrite C1, EQ. destruct Q as [(_ & Q)|(Q & _)]; tauto.
      * rewrite C2, ER. destruct R as [(_ & R)|(R & _)]; tauto.
  - unfold nt_defined. rewrite D. destruct sg, o; try discriminate; cbn [nt_checked nt_opz gives in_range num] in *; first [apply OS|apply OU].
    + apply C05_checked_add; auto.
    + apply C05_checked_sub; auto.
    + apply C06_checked_mul_partial; auto. apply noticed_cases. auto.
    + apply C02_checked_add; auto.
    + apply C02_checked_sub; auto.
    + apply C03_checked_mul; auto.
Qed.
Theorem C63_neg : forall (c : Cfg) x, Valid -> wf x ->
  returns_u (nt_wrapping_neg false x) ((- uval x) mod 2 ^ BITS) /\ returns_s (nt_wrapping_neg true x) (swrap BITS (- sval x)) /\
  returns_u_opt (nt_checked_neg false x) (fits_u BITS (- uval x)) (- uval x) /\
  returns_s_opt (nt_checked_neg true x) (fits_s BITS (- sval x)) (- sval x).
Proof.
  intros c x HV Hx. split; [apply C01_wrapping_neg; auto|]. split; [apply C04_wrapping_neg; auto|]. split; [|apply C05_checked_neg; auto].
  pose proof (uval_range HV x Hx). unfold nt_checked_neg.
  destruct (C02_checked_neg c x HV Hx) as [(E & r & A & B & D)|(E & A)]; [left|right].
  - split; [unfold fits_u; lia|]. exists r. split; auto. split; auto. lia.
  - split; [unfold fits_u; lia|auto].
Qed.
Theorem C63_shift : forall (c : Cfg) x n, Valid -> wf x -> 0 <= n < 2 ^ 32 ->
  returns_u (nt_wrapping_shl x n) ((uval x * 2 ^ (n mod BITS)) mod 2 ^ BITS) /\
  returns_u (nt_wrapping_shr false x n) (uval x / 2 ^ (n mod BITS)) /\ returns_s (nt_wrapping_shr true x n) (sval x / 2 ^ (n mod BITS)) /\
  returns_u_opt (nt_checked_shl x n) (n < BITS) ((uval x * 2 ^ n) mod 2 ^ BITS) /\
  returns_u_opt (nt_checked_shr false x n) (n < BITS) (uval x / 2 ^ n) /\ returns_s_opt (nt_checked_shr true x n) (n < BITS) (sval x / 2 ^ n).
Proof.
  intros c x n HV Hx Hn. split; [apply C15_wrapping_shl; auto|]. split; [apply C16_wrapping_shr_u; auto|]. split; [apply C16_wrapping_shr_s; auto|].
  split; [apply C15_checked_shl; auto|]. destruct (C16_checked_shr c x n HV Hx Hn) as (A & B).
  destruct (Z.lt_ge_cases n BITS) as [L|L].
  - destruct (A L) as (a & b & A1 & (a' & E & A2) & A3 & (b' & E' & A4)). injection E as <-. injection E' as <-.
    split; left; (split; [auto|]); [exists a|exists b]; auto.
  - destruct (B L) as (B1 & B2). split; right; (split; [lia|auto]).
Qed.
Theorem C63_pow : forall (c : Cfg) x e, Valid -> wf x -> 0 <= e < 2 ^ 32 ->
  (chk = true -> returns_u_or_panics (nt_pow false x e) (fits_u BITS (uval x ^ e)) (uval x ^ e)) /\
  (chk = false -> returns_u (nt_pow false x e) ((uval x ^ e) mod 2 ^ BITS)) /\
  (fits_s BITS (sval x ^ e) -> returns_s (nt_pow true x e) (sval x ^ e)).
Proof.
  intros c x e HV Hx He. destruct (C33_pow_u c x e HV Hx He) as (A & B). split; [exact A|]. split; [exact B|].
  intros F. apply (C33_pow_s_fits_partial c x e HV Hx He F).
Qed.
Theorem C63_euclid : forall (c : Cfg) sg x y, Valid -> wf x -> wf y ->
  num sg y <> 0 -> ~ (sg = true /\ min_over_m1 x y) -> exact_division W N (Z.abs (num sg x)) (Z.abs (num sg y)) ->
  gives sg (nt_div_euclid sg x y) (ediv (num sg x) (num sg y)) /\ gives sg (nt_rem_euclid sg x y) (emod (num sg x) (num sg y)).
Proof.
  intros c [] x y HV Hx Hy Z0 M HE; cbn [num gives] in *.
  - destruct (C12_euclid_s c x y HV Hx Hy Z0 HE) as (q & r & E & Rr & _ & _ & F). destruct F as (_ & CQ & CR & _); [tauto|].
    destruct (ediv_unique _ _ _ _ E Rr) as (-> & ->). auto.
  - pose proof (uval_range HV x Hx) as Rx. pose proof (uval_range HV y Hy) as Ry.
    assert (HE' : exact_division W N (uval x) (uval y)) by (rewrite !Z.abs_eq in HE by lia; auto).
    destruct (C12_euclid_u c x y HV Hx Hy Z0 HE') as (_ & _ & A & B).
    unfold ediv, emod. rewrite Z.abs_eq by lia. destruct (Z.ltb_spec (uval y) 0); [lia|]. auto.
Qed.
Theorem C63_mul_add_assign : forall (c : Cfg) x a b, Valid -> wf x -> wf a -> wf b ->
  (fits_u BITS (uval x * uval a + uval b) -> returns_u (nt_mul_add_assign false x a b) (uval x * uval a + uval b)) /\
  (fits_s BITS (sval x * sval a) -> fits_s BITS (sval x * sval a + sval b) ->
     returns_s (nt_mul_add_assign true x a b) (sval x * sval a + sval b)) /\
  (chk = true -> ~ fits_u BITS (uval x * uval a + uval b) -> nt_mul_add_assign false x a b = Panic) /\
  (chk = true -> fits_s BITS (sval x * sval a) -> ~ fits_s BITS (sval x * sval a + sval b) -> nt_mul_add_assign true x a b = Panic).
Proof.
  intros c x a b HV Hx Ha Hb. pose proof (BITS_pos HV). destruct (C57_mul_add_u c x a b HV Hx Ha Hb) as (U1 & U2). destruct (C57_mul_add_s c x a b HV Hx Ha Hb) as (S1 & S2).
  unfold nt_mul_add_assign. destruct chk.
  - split; [|split; [|split]].
    + intros F. destruct (U1 eq_refl) as [(_ & r & E & V)|(N' & _)]; [|contradiction]. rewrite E. exists r. auto.
    + intros F G. destruct (S1 eq_refl F) as [(_ & r & E & V)|(N' & _)]; [|contradiction]. rewrite E. exists r. auto.
    + intros _ F. destruct (U1 eq_refl) as [(G & _)|(_ & E)]; [contradiction|]. rewrite E. reflexivity.
    + intros _ F G. destruct (S1 eq_refl F) as [(G' & _)|(_ & E)]; [contradiction|]. rewrite E. reflexivity.
  - split; [|split; [|split; discriminate]].
    + intros F. destruct (U2 eq_refl) as (r & E & V1 & V2). rewrite E. exists r. split; auto. split; auto. rewrite V2, Z.mod_small; auto.
    + intros _ F. destruct (S2 eq_refl) as (r & E & V1 & V2). rewrite E. exists r. split; auto. split; auto. rewrite V2. apply swrap_small; auto; lia.
Qed.
Theorem C63_parse_unsigned : forall (c : Cfg) s radix v, Valid -> bytes s -> 2 <= radix <= 36 -> s <> [43] ->
  (parses_u (nt_from_str_radix false s radix) v <-> numeral false radix s v /\ fits_u BITS v).
Proof. exact C27_unsigned. Qed.
Theorem C63_parse_signed : forall (c : Cfg) s radix v, Valid -> bytes s -> 2 <= radix <= 36 ->
  numeral true radix s v -> fits_s BITS v -> parses_s (nt_from_str_radix true s radix) v.
Proof. exact C27_complete_signed. Qed.
(** The error type: distinct kinds have distinct texts, translating a standard
    error loses nothing, and parsing never reports the two kinds reserved for
    other uses. *)
Theorem C63_errors :
  (forall a b, error_text a = error_text b -> a = b) /\
  (forall a b, error_from_std a = error_from_std b -> a = b) /\
  (forall k, exists s, error_from_std s = k) /\
  (forall a b, error_kind a = error_kind b -> a = b) /\
  (forall e, error_kind e <> KZero /\ error_kind e <> KUnknown).
Proof.
  split; [|split; [|split; [|split]]].
  - intros [] []; cbn; intros; congruence.
  - intros [] []; cbn; intros; congruence.
  - intros []; [exists StdEmpty|exists StdInvalidDigit|exists StdPosOverflow|exists StdNegOverflow|exists StdZero|exists StdOther]; reflexivity.
  - intros [] []; cbn; intros; congruence.
  - intros []; cbn; split; discriminate.
Qed.
(** [Bounded]: the bounds belong to the type and every value lies between them. *)
Theorem C63_bounds : forall (c : Cfg) sg, Valid -> exists mn mx, nt_min_value sg = Ok mn /\ nt_max_value sg = Ok mx /\ wf mn /\ wf mx /\
  (forall v, in_range sg v <-> num sg mn <= v <= num sg mx) /\ (forall x, wf x -> num sg mn <= num sg x <= num sg mx).
Proof.
  intros c [] HV; unfold nt_min_value, nt_max_value, min_value, max_value, in_range, num.
  - destruct (C46_signed c HV) as (mn & mx & A & B & Wn & Wx & E1 & E2 & H & _). exists mn, mx. repeat (split; [assumption|]).
    split; [|exact H]. intros v. unfold fits_s. lia.
  - destruct (C46_unsigned c HV) as (mn & mx & A & B & Wn & Wx & E1 & E2 & H & _). exists mn, mx. repeat (split; [assumption|]).
    split; [|exact H]. intros v. unfold fits_u. lia.
Qed.
Example C63_ex1 : @nt_binary c256_64 NSaturatingMul true (E64 (2 ^ 200)) (E64 (- 2 ^ 100)) = Ok (E64 (- 2 ^ 255))
  /\ @nt_binary c256_32 NWrappingSub false (E32 3) (E32 5) = Ok (E32 (2 ^ 256 - 2))
  /\ @nt_checked c256_64 NCheckedDivEuclid true (E64 (- 7)) (E64 (- 2)) = Ok (Some (E64 4))
  /\ @nt_checked c256_64 NCheckedRem true (E64 (- 2 ^ 255)) (E64 (- 1)) = Ok None
  /\ @nt_checked c256_64 NCheckedRemEuclid false (E64 7) (E64 0) = Ok None
  /\ @nt_mul_add_assign c256_64 true (E64 (- 3)) (E64 5) (E64 7) = Ok (E64 (- 8))
  /\ @nt_rem_euclid c256_32 true (E32 (- 7)) (E32 (- 2)) = Ok (E32 1) /\ ediv (- 7) (- 2) = 4 /\ ediv (- 7) 2 = - 4.
Proof. vm_compute. auto 20. Qed.
Example C63_ex2 : @nt_checked_neg c256_64 false (E64 1) = Ok None /\ @nt_checked_shl c256_64 (E64 1) 256 = Ok None
  /\ @nt_pow c384_64 true (E384 (- 3)) 5 = Ok (E384 (- 243)) /\ @nt_max_value c256_64 true = Ok (E64 (2 ^ 255 - 1))
  /\ @nt_from_str_radix c256_64 true [45; 50; 97] 16 = Ok (POk (E64 (- 42)))
  /\ error_text (error_kind ENegOverflow) = "number too small to fit in target type"%string.
Proof. vm_compute. auto 10. Qed.

(** ** Assumptions (each must print "Closed under the global context") *)

Print Assumptions C61_by_unsigned.
Print Assumptions C61_by_signed.
Print Assumptions C61_checked_zero.
Print Assumptions C61_projections.
Print Assumptions C62_forms.
Print Assumptions C62_forms_overflow.
Print Assumptions C62_run_exact.
Print Assumptions C62_run_wrapping.
Print Assumptions C62_run_checked.
Print Assumptions C62_shift_forms.
Print Assumptions C62_shift_forms_panic.
Print Assumptions C62_shift_big_forms.
Print Assumptions C62_unary_forms.
Print Assumptions C62_default.
Print Assumptions C62_from.
Print Assumptions C62_debug.
Print Assumptions C63_value.
Print Assumptions C63_checked.
Print Assumptions C63_neg.
Print Assumptions C63_shift.
Print Assumptions C63_pow.
Print Assumptions C63_euclid.
Print Assumptions C63_mul_add_assign.
Print Assumptions C63_parse_unsigned.
Print Assumptions C63_parse_signed.
Print Assumptions C63_errors.
Print Assumptions C63_bounds.
