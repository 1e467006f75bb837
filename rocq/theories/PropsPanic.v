(** * When the methods panic, and when they are documented to (C108)

    The documentation gives a panic condition for some seventy methods ("# Panics"
    sections and the texts of shared/docs.rs).  Here: for each the exact condition
    under which it panics, beside the documented one. *)

Require Import ZArith List Bool Lia.
From Verif Require Import Prim Spec Facts MAdd MMul MShift MCore PCore PBits PWide MArith PArith PArith2 PPow PMisc PRet
  MDiv DivSpec PDiv PKnuth PDivFull PDivExact MScalar PScalar PScalarDiv MApi PApi PApi2 PApi3 PropsDiv PropsDivAll PropsScalarAll
  MParse PParse TextSpec PropsParse PropsReadAll MWrite PWrite PropsWrite.
Import ListNotations.
Local Open Scope Z_scope.

(** ** The division methods *)

(** The methods of two numbers with a documented panic: uint/wrapping.rs 228-304,
    int/wrapping.rs 74-165, uint/overflowing.rs 122-179, int/overflowing.rs 102-162,
    shared/overflowing.rs 57, uint/strict.rs 44-112, int/strict.rs 61-127,
    uint/saturating.rs 81, int/saturating.rs 124, shared/ops.rs 36, uint/ops.rs 39-94,
    int/ops.rs 90-156. *)
Inductive divm :=
| WrappingDivRem | WrappingDiv | WrappingRem | WrappingDivEuclid | WrappingRemEuclid
| OverflowingDivRem | OverflowingDiv | OverflowingRem | OverflowingDivEuclid | OverflowingRemEuclid
| StrictDiv | StrictRem | StrictDivEuclid | StrictRemEuclid
| SaturatingDiv | DivRem | DivEuclid | RemEuclid | DivFloor | DivCeil.

(** the outcome of a call without its value *)
Definition shape {A} (m : res A) : res unit := let* _ := m in Ok tt.

Section Methods.
Context {c : Cfg}.
Definition run (m : divm) (sg : bool) (x y : list Z) : res unit :=
  match m with
  | WrappingDivRem => shape (wrapping_div_rem sg x y) | WrappingDiv => shape (wrapping_div sg x y)
  | WrappingRem => shape (wrapping_rem sg x y) | WrappingDivEuclid => shape (wrapping_div_euclid sg x y)
  | WrappingRemEuclid => shape (wrapping_rem_euclid sg x y)
  | OverflowingDivRem => shape (overflowing_div_rem sg x y) | OverflowingDiv => shape (overflowing_div sg x y)
  | OverflowingRem => shape (overflowing_rem sg x y) | OverflowingDivEuclid => shape (overflowing_div_euclid sg x y)
  | OverflowingRemEuclid => shape (overflowing_rem_euclid sg x y)
  | StrictDiv => shape (strict_div sg x y) | StrictRem => shape (strict_rem sg x y)
  | StrictDivEuclid => shape (strict_div_euclid sg x y) | StrictRemEuclid => shape (strict_rem_euclid sg x y)
  | SaturatingDiv => shape (saturating_div sg x y) | DivRem => shape (div_rem sg x y)
  | DivEuclid => shape (div_euclid sg x y) | RemEuclid => shape (rem_euclid sg x y)
  | DivFloor => shape (if sg then s_div_floor x y else u_div_floor x y)
  | DivCeil => shape (if sg then s_div_ceil x y else u_div_ceil x y)
  end.

(** MIN / -1 *)
Definition overflows (sg : bool) (x y : Z) : Prop := sg = true /\ x = - 2 ^ (BITS - 1) /\ y = -1.
(** The documented condition: shared/docs.rs 38-49 [strict_doc], 54-61 [div_by_zero_doc],
    65-73 [div_by_zero_signed_doc]. *)
Definition documented (m : divm) (sg : bool) (x y : Z) : Prop :=
  match m with
  | StrictDiv | StrictRem | StrictDivEuclid | StrictRemEuclid => y = 0 \/ overflows sg x y
  | DivEuclid | RemEuclid | DivFloor | DivCeil => y = 0 \/ overflows sg x y
  | _ => y = 0
  end.
(** the methods that look at the operands first, always or with overflow checks *)
Definition guarded (m : divm) : bool :=
  match m with
  | StrictDiv | StrictRem | StrictDivEuclid | StrictRemEuclid => true
  | DivRem | DivEuclid | RemEuclid => chk
  | _ => false
  end.
End Methods.

Section P.
Context {c : Cfg}.
Hypothesis HV : Valid.
Lemma dnone_iff : forall sg x y, dnone sg x y = true <-> y = 0 \/ overflows sg x y.
Proof.
  intros sg x y. unfold dnone, dovf, overflows. rewrite orb_true_iff, !andb_true_iff, !Z.eqb_eq. tauto.
Qed.
Lemma shape_lift1 : forall o, shape (lift1 o) = match o with Some _ => Ok tt | None => Panic end.
Proof. intros []; reflexivity. Qed.
Lemma shape_lift_qr : forall o, shape (lift_qr o) = match o with Some _ => Ok tt | None => Panic end.
Proof. intros [[? ?]|]; reflexivity. Qed.
Lemma shape_lift_f : forall o, shape (lift_f o) = match o with Some _ => Ok tt | None => Panic end.
Proof. intros []; reflexivity. Qed.
Definition undone (x y : Z) : res unit := match soutcome x y with Some _ => Ok tt | None => Panic end.
Lemma undone_map : forall {A} (f : Z * Z -> A) x y, match option_map f (soutcome x y) with Some _ => Ok tt | None => Panic end = undone x y.
Proof. intros A f x y. unfold undone. destruct (soutcome x y); reflexivity. Qed.
Lemma undone_iff : forall x y, (undone x y = Panic <-> (y = 0 /\ x <> 0) \/ division_fails x y) /\ undone x y <> OutOfFuel.
Proof.
  intros x y. unfold undone. assert (PW : 0 < 2 ^ (BITS - W)) by apply (pow_slack HV). destruct (Z.eq_dec y 0) as [->|Hy].
  - rewrite soutcome_0. assert (ND : ~ division_fails x 0) by (intros ((H & _) & _); change (Z.abs 0) with 0 in H; lia).
    destruct (Z.eqb_spec x 0); (split; [|discriminate]); split; try discriminate; try tauto; intros [(_ & H)|H]; contradiction.
  - destruct (outcomes HV x y Hy) as [(F & _ & ->)|[(F & _ & ->)|(F & _ & t & _ & _ & ->)]]; (split; [|discriminate]); split; try discriminate; try tauto; intros [(H & _)|H]; contradiction.
Qed.
Lemma overflow_done : forall sg x y, overflows sg x y -> undone x y = Ok tt.
Proof.
  intros sg x y (_ & -> & ->). unfold undone. destruct (outcomes HV (- 2 ^ (BITS - 1)) (-1) ltac:(lia)) as [(_ & E & _)|[(_ & _ & ->)|(_ & E & _)]]; auto;
  exfalso; apply E; right; left; change (Z.abs (-1)) with 1; destruct (W_cases HV) as [-> | ->]; lia.
Qed.
(** every method is one of two shapes *)
Lemma run_eq : forall m sg x y, wf x -> wf y ->
  run m sg x y = if guarded m && dnone sg (num sg x) (num sg y) then Panic else undone (num sg x) (num sg y).
Proof.
  intros m sg x y Hx Hy.
  assert (OV : forall A (r : A), (if dovf sg (val sg x) (val sg y) then Ok tt else undone (num sg x) (num sg y)) = undone (num sg x) (num sg y)).
  { intros _ _. destruct (dovf sg (val sg x) (val sg y)) eqn:D; auto. symmetry. apply (overflow_done sg). unfold dovf in D. rewrite !andb_true_iff, !Z.eqb_eq in D. unfold overflows. tauto. }
  destruct m; cbn [run guarded andb];
    rewrite ?(wrapping_div_rem_ok HV), ?(wrapping_div_ok HV), ?(wrapping_rem_ok HV), ?(wrapping_div_euclid_ok HV), ?(wrapping_rem_euclid_ok HV),
      ?(overflowing_div_rem_ok HV), ?(overflowing_div_ok HV), ?(overflowing_rem_ok HV), ?(overflowing_div_euclid_ok HV), ?(overflowing_rem_euclid_ok HV),
      ?(strict_div_ok HV), ?(strict_rem_ok HV), ?(strict_div_euclid_ok HV), ?(strict_rem_euclid_ok HV),
      ?(saturating_div_ok HV), ?(div_rem_ok HV), ?(div_euclid_ok HV), ?(rem_euclid_ok HV) by auto;
    unfold u_div_floor; rewrite ?(s_div_floor_ok HV), ?(s_div_ceil_ok HV), ?(wrapping_div_ok HV false), ?(u_div_ceil_ok HV) by auto;
    unfold opd, sq, sr, esq, esr; unfold sq, sr; change (num sg x) with (val sg x) in *; change (num sg y) with (val sg y) in *.
  all: try (rewrite <- (OV unit tt); destruct (dovf _ _ _); [reflexivity|]).
  all: try (destruct (chk && dnone _ _ _); [reflexivity|]).
  all: try (destruct (dnone _ _ _); [reflexivity|]).
  all: unfold undone; try destruct sg; cbn [val]; rewrite ?shape_lift1, ?shape_lift_qr, ?shape_lift_f; destruct (soutcome _ _) as [[? ?]|]; reflexivity.
Qed.
End P.

(** Exactly when they panic: a guarded method refuses a zero divisor and MIN / -1; every method
    fails for a zero divisor under a number other than zero, and where the long division does. *)
Theorem C108_division : forall (c : Cfg) m sg x y, Valid -> wf x -> wf y ->
  (run m sg x y = Panic <->
   (guarded m = true /\ (num sg y = 0 \/ overflows sg (num sg x) (num sg y))) \/ (num sg y = 0 /\ num sg x <> 0) \/ division_fails (num sg x) (num sg y)) /\
  run m sg x y <> OutOfFuel.
Proof.
  intros c m sg x y HV Hx Hy. rewrite (run_eq HV) by auto. destruct (undone_iff HV (num sg x) (num sg y)) as (U & F).
  pose proof (dnone_iff sg (num sg x) (num sg y)) as D. destruct (guarded m); cbn [andb].
  - destruct (dnone sg (num sg x) (num sg y)); [split; [|discriminate]; split; auto; intros _; left; tauto|].
    split; auto. rewrite U. split; [tauto|]. intros [(_ & H)|H]; auto. exfalso. apply D in H. discriminate.
  - split; auto. rewrite U. split; [tauto|]. intros [(H & _)|H]; [discriminate|auto].
Qed.
(** A documented panic happens unless zero is divided by zero or MIN by -1, by a method that does
    not look first. *)
Theorem C108_documented : forall (c : Cfg) m sg x y, Valid -> wf x -> wf y -> documented m sg (num sg x) (num sg y) ->
  (run m sg x y = Panic <-> guarded m = true \/ (num sg y = 0 /\ num sg x <> 0)).
Proof.
  intros c m sg x y HV Hx Hy HD. destruct (C108_division c m sg x y HV Hx Hy) as (-> & _).
  assert (D : num sg y = 0 \/ overflows sg (num sg x) (num sg y)) by (destruct m; cbn [documented] in HD; tauto).
  split; [|tauto]. intros [(G & _)|[H|((H & _) & _)]]; auto. exfalso.
  assert (2 < 2 ^ (BITS - W)). { destruct (slack_room HV) as (_ & S1). assert (2 < 2 ^ 192) by reflexivity. lia. }
  destruct D as [E|(_ & _ & E)]; rewrite E in H; cbn in H; lia.
Qed.
(** A panic that is not documented is one of the long division, or MIN / -1 under [div_rem] with
    overflow checks. *)
Theorem C108_undocumented : forall (c : Cfg) m sg x y, Valid -> wf x -> wf y -> ~ documented m sg (num sg x) (num sg y) ->
  (run m sg x y = Panic <-> division_fails (num sg x) (num sg y) \/ (m = DivRem /\ chk = true /\ overflows sg (num sg x) (num sg y))).
Proof.
  intros c m sg x y HV Hx Hy HD. destruct (C108_division c m sg x y HV Hx Hy) as (-> & _).
  destruct m; cbn [documented guarded] in *; split; intros H; try tauto;
    (destruct H as [(G & H)|[H|H]] || destruct H as [H|(E & H)]); try tauto; try discriminate.
Qed.

(** ** next_multiple_of *)

Section P2.
Context {c : Cfg}.
Hypothesis HV : Valid.
Lemma op_result_panic : forall sg v, op_result sg v = Panic <-> chk = true /\ ~ fits sg v.
Proof.
  intros sg v. unfold op_result. destruct (fitsb_reflect sg v) as [F|F]; cbn [negb]; rewrite ?andb_false_r, ?andb_true_r.
  - split; [discriminate|]. intros (_ & H). contradiction.
  - destruct chk; split; auto; try discriminate. intros (H & _). discriminate.
Qed.
Lemma nm_multiple : forall x y, y <> 0 -> next_multiple x y (nm x y).
Proof.
  intros x y Hy. destruct (Z.lt_trichotomy y 0) as [L|[L|L]]; [|contradiction|].
  - destruct (nm_neg x y L). unfold next_multiple. repeat split; auto; lia.
  - destruct (nm_pos x y L). unfold next_multiple. repeat split; auto; lia.
Qed.
Lemma u_next_zero : forall x y, wf x -> wf y -> uval y = 0 ->
  u_next_multiple_of x y = if chk || negb (uval x =? 0) then Panic else Ok x.
Proof.
  intros x y Hx Hy H0. unfold u_next_multiple_of. rewrite (op_rem_ok HV) by auto. cbn [val]. unfold opd, sr. rewrite dnone_u, H0, soutcome_0. change (0 =? 0) with true. rewrite andb_true_r.
  destruct chk; cbn [orb]; [reflexivity|]. destruct (uval x =? 0); cbn [option_map snd lift1 bind negb]; [|reflexivity].
  rewrite (u_min_value_ok HV). cbn [bind]. rewrite (derived_eq_ok HV) by wfauto. rewrite Z.eqb_refl. reflexivity.
Qed.
Lemma s_next_head : forall x y, wf x -> wf y -> sval y <> -1 ->
  s_next_multiple_of x y =
    let* r := op_rem true x y in
    let* m := (if ((0 <? sval r) && (sval y <? 0)) || ((sval r <? 0) && (0 <? sval y)) then op_add true r y else Ok r) in
    let* e := eq_const m (ofZ 0) in
    if e then Ok x else let* d := op_sub true y m in op_add true x d.
Proof.
  intros x y Hx Hy E. unfold s_next_multiple_of. rewrite (from_i8_ok HV) by wfauto. cbn [bind]. rewrite (eq_const_ok HV) by wfauto. cbn [bind].
  rewrite (eqb_ofZ HV true) by (auto; apply (fits_m1 HV)). cbn [val].
  destruct (Z.eqb_spec (sval y) (-1)); [contradiction|]. rewrite (from_u8_ok HV) by wfauto. cbn [bind].
  rewrite (op_rem_ok HV) by auto. cbn [val]. unfold opd. destruct (chk && _); [reflexivity|]. destruct (sr _ _) as [r|]; [|reflexivity]. cbn [lift1 bind].
  rewrite (gt_const_ok HV) by wfauto. cbn [bind val]. rewrite (lt_const_ok HV) by wfauto. cbn [bind val].
  rewrite (lt_const_ok HV) by wfauto. cbn [bind val]. rewrite (gt_const_ok HV) by wfauto. cbn [bind val].
  rewrite !(sval_lit HV 0) by lia. reflexivity.
Qed.
Lemma s_next_zero : forall x y, wf x -> wf y -> sval y = 0 ->
  s_next_multiple_of x y = if chk || negb (sval x =? 0) then Panic else Ok x.
Proof.
  intros x y Hx Hy H0. rewrite s_next_head by (auto; lia). rewrite (op_rem_ok HV) by auto. cbn [val]. unfold opd, sr. rewrite H0, soutcome_0.
  assert (D : dnone true (sval x) 0 = true) by reflexivity. rewrite D, andb_true_r.
  destruct chk; cbn [orb]; [reflexivity|]. destruct (sval x =? 0); cbn [option_map snd lift1 bind negb]; [|reflexivity].
  rewrite !(sval_lit HV 0) by lia. change (0 <? 0) with false. cbn [andb orb bind]. rewrite (eq_const_ok HV) by wfauto. cbn [bind]. rewrite Z.eqb_refl. reflexivity.
Qed.
(** outside the exact divisions the signed method never panics by overflow *)
Lemma s_next_inexact : forall x y, wf x -> wf y -> sval y <> 0 -> ~ exact (sval x) (sval y) ->
  s_next_multiple_of x y = Panic <-> division_fails (sval x) (sval y).
Proof.
  intros x y Hx Hy H0 HE.
  assert (M1 : sval y <> -1). { intros E. apply HE. right. left. rewrite E. change (Z.abs (-1)) with 1. destruct (W_cases HV) as [-> | ->]; lia. }
  rewrite s_next_head by auto. rewrite (op_rem_ok HV) by auto. cbn [val]. unfold opd. rewrite dnone_m1, andb_false_r by auto. unfold sr.
  destruct (outcomes HV (sval x) (sval y) H0) as [(F & NE & ->)|[(F & E & ->)|(F & NE & t & Ht & Et & EO)]]; [|contradiction|].
  { cbn [option_map lift1 bind]. tauto. }
  pose proof (soutcome_rfits HV _ _ _ _ (sval_range HV x Hx) (sval_range HV y Hy) EO) as FR.
  assert (SM : - 2 ^ (BITS - 1) < (if sval x <? 0 then Z.rem (sval x) (sval y) - t else Z.rem (sval x) (sval y) + t)).
  { pose proof (sval_range HV x Hx) as Rx. pose proof (sval_range HV y Hy) as Ry. unfold fits_s in *. pose proof (pBhalf HV). pose proof (pBh HV).
    unfold soutcome in EO. destruct (div_outcome W N (Z.abs (sval x)) (Z.abs (sval y))) as [[q' r']|] eqn:D; [|discriminate].
    assert (A1 : 0 <= Z.abs (sval x) < 2 ^ BITS) by lia. assert (A2 : 0 <= Z.abs (sval y) < 2 ^ BITS) by lia.
    destruct (outcome_range HV (Z.abs (sval x)) (Z.abs (sval y)) q' r' A1 A2 D) as (R1 & R2). destruct R2 as [R2|(_ & R2)]; [lia|lia| |].
    - inversion EO as [[E1 E2]]. destruct (sval x <? 0); lia.
    - exfalso. apply HE. left. lia. }
  rewrite EO. cbn [option_map lift1 bind snd]. destruct (rem_x_sign (sval x) (sval y) H0) as (RA & RP & RN).
  set (r := Z.rem (sval x) (sval y)) in *. set (r' := if sval x <? 0 then r - t else r + t) in *.
  assert (K : (0 <= sval x -> Z.abs (sval y) < r') /\ (sval x < 0 -> r' < - Z.abs (sval y))).
  { unfold r'. destruct (Z.ltb_spec (sval x) 0); lia. }
  clearbody r r'. destruct K as (K1 & K2). rewrite !(sval_ofZ_fits HV r') by auto.
  pose proof (sval_range HV x Hx) as Rx. pose proof (sval_range HV y Hy) as Ry. unfold fits_s in *. pose proof (pBh HV) as PH.
  assert (M : exists m, (if ((0 <? r') && (sval y <? 0)) || ((r' <? 0) && (0 <? sval y)) then op_add true (ofZ r') y else Ok (ofZ r')) = Ok (ofZ m) /\
     ((0 <= sval x /\ 0 < m /\ m <= r') \/ (sval x < 0 /\ m < 0 /\ r' <= m)) /\
     (m = r' + sval y \/ (m = r' /\ ((0 < m /\ 0 < sval y) \/ (m < 0 /\ sval y < 0))))).
  { destruct (Z.ltb_spec 0 r'), (Z.ltb_spec (sval y) 0), (Z.ltb_spec r' 0), (Z.ltb_spec 0 (sval y)); cbn [andb orb]; try lia;
    try (exists (r' + sval y); rewrite (op_add_ok HV) by wfauto; cbn [val]; rewrite (sval_ofZ_fits HV) by (unfold fits_s; lia);
         rewrite op_result_fits by (unfold fits, fits_s; lia); split; [reflexivity|]; split; lia);
    (exists r'; split; [reflexivity|]; split; lia). }
  destruct M as (m & -> & M1' & M2'). cbn [bind]. rewrite (eq_const_ok HV) by wfauto. cbn [bind]. rewrite (eqb0 HV true) by wfauto. cbn [val].
  assert (FM : fits_s BITS m) by (unfold fits_s; lia). rewrite (sval_ofZ_fits HV) by auto. destruct (Z.eqb_spec m 0); [lia|].
  rewrite (op_sub_ok HV) by wfauto. cbn [val]. rewrite (sval_ofZ_fits HV) by auto. unfold fits_s in FM.
  rewrite op_result_fits by (unfold fits, fits_s; lia). cbn [bind]. rewrite (op_add_ok HV) by wfauto. cbn [val].
  rewrite (sval_ofZ_fits HV) by (unfold fits_s; lia). rewrite op_result_fits by (unfold fits, fits_s; lia). split; [discriminate|contradiction].
Qed.
End P2.

(** Documented: a zero divisor, and overflow with checks.  Unsigned, with checks: these and every
    inexact division. *)
Theorem C108_next_multiple_u : forall (c : Cfg) x y, Valid -> wf x -> wf y ->
  (uval y = 0 -> (u_next_multiple_of x y = Panic <-> chk = true \/ uval x <> 0)) /\
  (uval y <> 0 -> exact (uval x) (uval y) ->
     (u_next_multiple_of x y = Panic <-> chk = true /\ exists m, next_multiple (uval x) (uval y) m /\ ~ fits_u BITS m)) /\
  (uval y <> 0 -> ~ exact (uval x) (uval y) -> (u_next_multiple_of x y = Panic <-> chk = true \/ division_fails (uval x) (uval y))).
Proof.
  intros c x y HV Hx Hy. pose proof (uval_range HV x Hx) as Rx. pose proof (uval_range HV y Hy) as Ry. split; [|split].
  - intros H0. rewrite (u_next_zero HV) by auto. destruct (Z.eqb_spec (uval x) 0); destruct chk; cbn [orb negb]; split; try discriminate; auto; intros [H|H]; try discriminate; contradiction.
  - intros H0 HE. unfold exact in HE. rewrite !Z.abs_eq in HE by lia. rewrite (u_next_multiple_of_ok HV), op_result_panic by auto.
    split; (intros (C & H); split; [exact C|]).
    + exists (nm (uval x) (uval y)). split; [apply nm_multiple; auto|exact H].
    + destruct H as (m & HM & HF). assert (E : m = nm (uval x) (uval y)); [|rewrite <- E; exact HF].
      pose proof (nm_multiple (uval x) (uval y) H0) as HN. unfold next_multiple in *. destruct HM as (D1 & L1 & _), HN as (D2 & L2 & _).
      assert (P : 0 < uval y) by lia. specialize (L1 P). specialize (L2 P). destruct D1 as (i & ->), D2 as (j & Ej). rewrite Ej in *. assert (i = j) by nia. congruence.
  - intros H0 HE. destruct (C76_next_multiple c x y HV Hx Hy H0 HE) as (HC & _). split.
    + intros HP. destruct chk eqn:C; [auto|]. right.
      unfold u_next_multiple_of in HP. rewrite (op_rem_ok HV) in HP by auto. cbn [val] in HP. unfold opd, sr in HP. rewrite C in HP. cbn [andb] in HP.
      destruct (outcomes HV (uval x) (uval y) H0) as [(F & _)|[(F & E & _)|(F & NE & t & Ht & Et & EO)]]; [exact F|contradiction|]. exfalso.
      rewrite EO in HP. cbn [option_map lift1 bind snd] in HP. rewrite (u_min_value_ok HV) in HP. cbn [bind] in HP.
      destruct (derived_eq _ _); [discriminate|]. rewrite (op_sub_ok HV) in HP by wfauto. unfold op_result at 1 in HP. rewrite C in HP. cbn [andb bind] in HP.
      rewrite (op_add_ok HV) in HP by wfauto. unfold op_result in HP. rewrite C in HP. discriminate.
    + intros [C|F]; [auto|]. unfold u_next_multiple_of. rewrite (op_rem_ok HV) by auto. cbn [val]. unfold opd, sr.
      destruct (outcomes HV (uval x) (uval y) H0) as [(_ & _ & ->)|[(F' & _)|(F' & _)]]; try contradiction. destruct (chk && _); reflexivity.
Qed.
(** Signed: an inexact division is never noticed. *)
Theorem C108_next_multiple_s : forall (c : Cfg) x y, Valid -> wf x -> wf y ->
  (sval y = 0 -> (s_next_multiple_of x y = Panic <-> chk = true \/ sval x <> 0)) /\
  (sval y <> 0 -> exact (sval x) (sval y) ->
     (s_next_multiple_of x y = Panic <-> chk = true /\ exists m, next_multiple (sval x) (sval y) m /\ ~ fits_s BITS m)) /\
  (sval y <> 0 -> ~ exact (sval x) (sval y) -> (s_next_multiple_of x y = Panic <-> division_fails (sval x) (sval y))).
Proof.
  intros c x y HV Hx Hy. split; [|split].
  - intros H0. rewrite (s_next_zero HV) by auto. destruct (Z.eqb_spec (sval x) 0); destruct chk; cbn [orb negb]; split; try discriminate; auto; intros [H|H]; try discriminate; contradiction.
  - intros H0 HE. rewrite (s_next_multiple_of_ok HV), op_result_panic by auto.
    split; (intros (C & H); split; [exact C|]).
    + exists (nm (sval x) (sval y)). split; [apply nm_multiple; auto|exact H].
    + destruct H as (m & HM & HF). assert (E : m = nm (sval x) (sval y)); [|rewrite <- E; exact HF].
      pose proof (nm_multiple (sval x) (sval y) H0) as HN. unfold next_multiple in *. destruct HM as (D1 & L1 & G1), HN as (D2 & L2 & G2).
      destruct D1 as (i & ->), D2 as (j & Ej). rewrite Ej in *. destruct (Z.lt_trichotomy (sval y) 0) as [P|[P|P]]; [|contradiction|].
      * specialize (G1 P). specialize (G2 P). assert (i = j) by nia. congruence.
      * specialize (L1 P). specialize (L2 P). assert (i = j) by nia. congruence.
  - intros H0 HE. apply (s_next_inexact HV); auto.
Qed.

(** ** Strict arithmetic, shifts and logarithms *)

Section P3.
Context {c : Cfg}.
Lemma ok_if_panic : forall sg v, ok_if (fitsb sg v) v = Panic <-> ~ fits sg v.
Proof. intros sg v. unfold ok_if. destruct (fitsb_reflect sg v); split; auto; try discriminate; contradiction. Qed.
Definition in_range (sg : bool) (v : Z) : Prop := if sg then fits_s BITS v else fits_u BITS v.
End P3.

(** "Always panic on overflow" (shared/docs.rs 26-40): true of all but the signed product and power. *)
Theorem C108_strict : forall (c : Cfg) x y, Valid -> wf x -> wf y ->
  (forall sg, (strict_add sg x y = Panic <-> ~ in_range sg (num sg x + num sg y)) /\
              (strict_sub sg x y = Panic <-> ~ in_range sg (num sg x - num sg y))) /\
  (strict_mul false x y = Panic <-> ~ fits_u BITS (uval x * uval y)) /\
  (forall e, 0 <= e < 2 ^ 32 -> (strict_pow false x e = Panic <-> ~ fits_u BITS (uval x ^ e))) /\
  (u_strict_add_signed x y = Panic <-> ~ fits_u BITS (uval x + sval y)) /\
  (s_strict_add_unsigned x y = Panic <-> ~ fits_s BITS (sval x + uval y)) /\
  (s_strict_sub_unsigned x y = Panic <-> ~ fits_s BITS (sval x - uval y)) /\
  (s_strict_neg x = Panic <-> ~ fits_s BITS (- sval x)) /\ (u_strict_neg x = Panic <-> ~ fits_u BITS (- uval x)) /\
  (s_strict_abs x = Panic <-> ~ fits_s BITS (Z.abs (sval x))).
Proof.
  intros c x y HV Hx Hy. split.
  { intros sg. rewrite (strict_add_ok HV), (strict_sub_ok HV) by auto. split; rewrite ok_if_panic; destruct sg; reflexivity. }
  rewrite (strict_mul_ok HV), mulf_u, negb_involutive by auto. cbn [val]. split; [apply (ok_if_panic false)|]. split.
  { intros e He. rewrite (strict_pow_ok HV) by auto. unfold ovf. rewrite negb_involutive. apply (ok_if_panic false). }
  rewrite (u_strict_add_signed_ok HV), (s_strict_add_unsigned_ok HV), (s_strict_sub_unsigned_ok HV), (s_strict_neg_ok HV), (s_strict_abs_ok HV) by auto.
  split; [apply (ok_if_panic false)|]. split; [apply (ok_if_panic true)|]. split; [apply (ok_if_panic true)|]. split; [apply (ok_if_panic true)|]. split; [|apply (ok_if_panic true)].
  unfold u_strict_neg. rewrite (u_checked_neg_ok HV) by auto. rewrite unwrap_some_if. unfold ok_if, fits_u. pose proof (uval_range HV x Hx) as R. pose proof (pB HV).
  destruct (Z.eqb_spec (uval x) 0); split; try discriminate; auto; lia.
Qed.
(** … which miss the results below the range by less than 2^(BITS-W). *)
Theorem C108_strict_products : forall (c : Cfg) x y e, Valid -> wf x -> wf y -> 0 <= e < 2 ^ 32 ->
  let missed v := - 2 ^ (BITS - 1) - 2 ^ (BITS - W) < v < - 2 ^ (BITS - 1) in
  (strict_mul true x y = Panic <-> ~ fits_s BITS (sval x * sval y) /\ ~ missed (sval x * sval y)) /\
  (strict_pow true x e = Panic <-> ~ fits_s BITS (sval x ^ e) /\ ~ missed (sval x ^ e)).
Proof.
  intros c x y e HV Hx Hy He missed. rewrite (strict_mul_ok HV), (strict_pow_ok HV) by auto. rewrite (mulf_ovf HV). cbn [val].
  assert (G : forall v, ok_if (negb (ovf true v)) v = Panic <-> ~ fits_s BITS v /\ ~ missed v).
  { intros v. pose proof (pow_slack HV). unfold ok_if, missed, fits_s. destruct (ovf true v) eqn:O; cbn [negb].
    - apply ovf_s_spec in O. unfold ovP in O. split; auto. intros _. lia.
    - split; [discriminate|]. intros (H1 & H2). exfalso. assert (ovf true v = true); [|congruence]. apply ovf_s_spec. unfold ovP. lia. }
  split; apply G.
Qed.
Theorem C108_shifts_logs : forall (c : Cfg) sg x r, Valid -> wf x -> 0 <= r < 2 ^ 32 ->
  (strict_shl x r = Panic <-> BITS <= r) /\ (strict_shr sg x r = Panic <-> BITS <= r) /\
  (ilog2 sg x = Panic <-> num sg x <= 0) /\
  (next_power_of_two x = Panic <-> chk = true /\ 2 ^ (BITS - 1) < uval x).
Proof.
  intros c sg x r HV Hx Hr. rewrite (strict_shl_ok HV), (strict_shr_ok HV), (ilog2_ok HV), (next_power_of_two_ok HV), op_result_panic by (auto; lia).
  unfold ok_if. change (num sg x) with (val sg x).
  split; [destruct (Z.ltb_spec r BITS); split; try discriminate; auto; lia|].
  split; [destruct (Z.ltb_spec r BITS); split; try discriminate; auto; lia|].
  split; [destruct (Z.leb_spec (val sg x) 0); split; try discriminate; auto; lia|].
  assert (G : ~ fits false (2 ^ Z.log2_up (uval x)) <-> 2 ^ (BITS - 1) < uval x); [|rewrite G; reflexivity].
  cbn [fits]. unfold fits_u. pose proof (uval_range HV x Hx) as R. pose proof (BITS_pos HV) as BP. pose proof (Z.log2_up_nonneg (uval x)) as LN.
  assert (P0 : 0 < 2 ^ Z.log2_up (uval x)) by (apply Z.pow_pos_nonneg; lia). split; intros H.
  - assert (Q : 2 ^ BITS <= 2 ^ Z.log2_up (uval x)) by lia. destruct (Z.lt_ge_cases (2 ^ (BITS - 1)) (uval x)) as [L|L]; auto. exfalso.
    assert (Z.log2_up (uval x) <= BITS - 1) by (rewrite <- (Z.log2_up_pow2 (BITS - 1)) by lia; apply Z.log2_up_le_mono; auto).
    assert (2 ^ Z.log2_up (uval x) <= 2 ^ (BITS - 1)) by (apply Z.pow_le_mono_r; lia). pose proof (pBhalf HV). pose proof (pBh HV). lia.
  - intros (_ & Q). assert (BITS - 1 < Z.log2_up (uval x)) by (apply Z.log2_up_lt_pow2; [pose proof (pBh HV); lia|auto]).
    assert (2 ^ BITS <= 2 ^ Z.log2_up (uval x)) by (apply Z.pow_le_mono_r; lia). lia.
Qed.
(** [ilog] is documented to panic for a number that is not positive and for a base below two.  It also
    panics for a number below the base and where the long division fails; base one never returns a
    value, but is no panic without overflow checks. *)
Theorem C108_ilog_u : forall (c : Cfg) x b, Valid -> wf x -> wf b ->
  (uval x = 0 \/ uval b <> 1 -> (u_ilog x b = Panic <-> (uval x = 0 \/ uval b < 2) \/ uval x < uval b \/ log_panics (uval x) (uval b))) /\
  (1 <= uval x -> uval b = 1 -> chk = false -> forall fuel, u_checked_ilog_fuel fuel x b = OutOfFuel).
Proof.
  intros c x b HV Hx Hb. pose proof (uval_range HV x Hx) as Rx. pose proof (uval_range HV b Hb) as Rb. split.
  - intros H. assert (H1 : uval b = 1 -> uval x = 0) by tauto.
    destruct (C79_ilog_unsigned c x b HV Hx Hb H1) as (N1 & _ & P1 & F1 & _). unfold u_ilog.
    destruct (u_checked_ilog x b) as [[k|]| |] eqn:E; cbn [unwrap].
    + split; [discriminate|]. intros K. exfalso. assert (L : ~ log_panics (uval x) (uval b)) by (intros L; apply P1 in L; discriminate).
      assert (~ (uval x = 0 \/ uval x < uval b \/ uval b = 0)) by (intros L'; apply N1 in L'; discriminate). lia || (destruct K as [K|[K|K]]; [lia|lia|contradiction]).
    + split; auto. intros _. assert (K : uval x = 0 \/ uval x < uval b \/ uval b = 0) by (apply N1; reflexivity). lia.
    + split; auto. intros _. right. right. apply P1. reflexivity.
    + contradiction.
  - intros H0 H1 HC fuel. rewrite (C79_ilog_one c x b fuel HV Hx Hb H1 H0), HC. reflexivity.
Qed.
Theorem C108_ilog_s : forall (c : Cfg) x b, Valid -> wf x -> wf b ->
  (s_ilog x b = Panic <-> (sval x <= 0 \/ sval b < 2) \/ sval x < sval b \/ log_panics (sval x) (sval b)).
Proof.
  intros c x b HV Hx Hb. destruct (C79_ilog_signed c x b HV Hx Hb) as (N1 & _ & P1 & F1 & _). rewrite (s_ilog_eq HV) by auto.
  destruct (Z.leb_spec 2 (sval b)); [|split; auto; intros _; left; lia].
  destruct (s_checked_ilog x b) as [[k|]| |] eqn:E; cbn [unwrap].
  - split; [discriminate|]. intros K. exfalso. assert (L : ~ (0 < sval x < sval b \/ log_panics (sval x) (sval b))) by (intros L; apply P1 in L; discriminate).
    assert (L2 : ~ (sval x <= 0 \/ sval b <= 1)) by (intros L'; apply N1 in L'; discriminate). destruct K as [K|[K|K]]; [lia|apply L; left; lia|tauto].
  - split; auto. intros _. assert (K : sval x <= 0 \/ sval b <= 1) by (apply N1; reflexivity). lia.
  - split; auto. intros _. assert (K : 0 < sval x < sval b \/ log_panics (sval x) (sval b)) by (apply P1; reflexivity). destruct K; [right; left; lia|tauto].
  - contradiction.
Qed.

(** ** Division by scalars *)

(** "Panics if the divisor is 0" (shared/limb.rs 60-449, uint/limb.rs 103-362): not for zero divided by
    a scalar type wider than a limb, without overflow checks or in the wrapping form. *)
Theorem C108_scalar_zero : forall (c : Cfg) k sg x, Valid -> wf x ->
  (wrapping_div_rem_us k sg x 0 = Panic <-> kbits k <= W \/ num sg x <> 0) /\
  (div_rem_us k sg x 0 = Panic <-> chk = true \/ kbits k <= W \/ num sg x <> 0).
Proof.
  intros c k sg x HV Hx.
  assert (Wd : wrapping_div_rem_us k sg x 0 = Panic <-> kbits k <= W \/ num sg x <> 0).
  { assert (F0 : fits_u (kbits k) 0) by (pose proof (dbits_1 HV k); unfold fits_u; split; [lia|apply pow2_pos; lia]).
    destruct (scalar_outcome W N (kbits k) (Z.abs (val sg x)) 0) as [[q r]|] eqn:E.
    - unfold scalar_outcome in E. cbn [Z.eqb] in E. destruct (Z.leb_spec (kbits k) W) as [L|L]; [discriminate|].
      destruct (Z.eqb_spec (Z.abs (val sg x)) 0) as [Z0|Z0]; [|discriminate].
      split; [|intros [H|H]; [lia|change (num sg x) with (val sg x) in H; lia]].
      intros P. exfalso. unfold wrapping_div_rem_us in P. cbn zeta in P. rewrite (ucast_d HV) in P by auto. unfold fits_u in F0.
      destruct sg; cbn [val] in *.
      + unfold s_div_rem_u in P. rewrite (unsigned_abs_ok HV) in P by auto. cbn [bind] in P.
        rewrite (div_by_ok HV) in P by (try apply (wf_ofZ HV); lia). rewrite (uval_abs HV) in P by auto. rewrite Z0 in P. unfold scalar_outcome in P.
        destruct (Z.leb_spec (kbits k) W); [lia|]. cbn [Z.eqb lift2 bind] in P. rewrite (mk_ok HV) in P. cbn [bind] in P. rewrite (is_negative_ok HV) in P by auto. cbn [bind] in P.
        destruct (Z.ltb_spec (sval x) 0); [lia|]. cbn [bind andb] in P. discriminate.
      + unfold u_div_rem in P. rewrite (div_by_ok HV) in P by (auto; lia). pose proof (uval_range HV x Hx). rewrite Z.abs_eq in Z0 by lia. rewrite Z0 in P. unfold scalar_outcome in P.
        destruct (Z.leb_spec (kbits k) W); [lia|]. cbn [Z.eqb lift2 bind] in P. rewrite (mk_ok HV) in P. cbn [bind] in P. discriminate.
    - rewrite (wrapping_div_rem_us_panic HV) by auto. split; auto. intros _. unfold scalar_outcome in E. cbn [Z.eqb] in E.
      destruct (Z.leb_spec (kbits k) W); [auto|]. destruct (Z.eqb_spec (Z.abs (val sg x)) 0); [discriminate|]. right. change (num sg x) with (val sg x). lia. }
  split; [exact Wd|]. unfold div_rem_us, checked_div_rem_us. cbn [Z.eqb]. destruct chk; cbn [negb unwrap bind].
  - split; auto.
  - rewrite Wd. split; [auto|]. intros [H|H]; [discriminate|auto].
Qed.
(** Other divisors: exactly the failures of the two-limb division, and with overflow checks a wrong
    remainder under a negative number. *)
Theorem C108_scalar : forall (c : Cfg) k sg x n, Valid -> wf x -> fits_u (kbits k) n -> n <> 0 ->
  (div_rem_us k sg x n = Panic <->
   scalar_fails k (num sg x) n \/ (sg = true /\ chk = true /\ sval x < 0 /\ ~ scalar_right k (sval x) n)) /\
  wrapping_div_rem_us k sg x n = div_rem_us k sg x n.
Proof.
  intros c k sg x n HV Hx Hf Hn. assert (EQ : wrapping_div_rem_us k sg x n = div_rem_us k sg x n) by (symmetry; apply (div_us_eq Operator); auto).
  split; [|exact EQ]. assert (Pn : 0 < n) by (destruct Hf; lia). destruct sg; cbn [num].
  - destruct (C78_signed_by_unsigned c Operator k x n HV Hx Hf Hn) as (P1 & _ & _ & P2). cbn [div_us] in P1, P2. split; [|intros [H|(_ & H)]; tauto].
    rewrite <- EQ, (wrapping_div_rem_us_all HV) by auto. intros P.
    destruct (scalar_outcomes HV k (Z.abs (sval x)) n (Z.abs_nonneg _) (conj Pn (proj2 Hf))) as [(F & _)|[(F & R & E)|(F & R & HW & HK & HR & N2 & t & T1 & T2 & E)]].
    + left. apply abs_fails. rewrite (Z.abs_eq n) by lia. exact F.
    + exfalso. rewrite E in P. destruct ((sval x <? 0) && negb (Z.abs (sval x) mod n =? 0)); [|discriminate].
      pose proof (Z.mod_pos_bound (Z.abs (sval x)) n Pn). destruct (dbits_1 HV k) as (D1 & D2). unfold fits_u in Hf.
      pose proof (pow2_le_mono (kbits k) (dbits (route k))). unfold usub in P. rewrite uchk_ok in P by (unfold fits_u; lia). discriminate.
    + right. split; [reflexivity|]. rewrite E in P. destruct (Z.ltb_spec (sval x) 0) as [Ng|Ng]; cbn [andb] in P; [|discriminate].
      assert (R' : ~ scalar_right k (sval x) n) by (intros H; apply R; apply abs_right in H; rewrite (Z.abs_eq n) in H by lia; exact H).
      destruct chk eqn:C; [auto|]. exfalso. destruct (negb _); [|discriminate]. unfold usub, uchk in P. rewrite C in P. destruct (in_u _ _); cbn [bind] in P; discriminate.
  - destruct (C78_unsigned c Operator k x n HV Hx Hf Hn) as (P1 & P2 & _). cbn [div_us] in *. split; [|intros [H|(H & _)]; [auto|discriminate]].
    intros P. left. pose proof (uval_range HV x Hx) as Rx. unfold fits_u in Hf.
    destruct (scalar_outcomes HV k (uval x) n (proj1 Rx) (conj Pn (proj2 Hf))) as [(F & _)|[(F & _)|(F & _)]]; [exact F| |];
      exfalso; destruct (P2 F) as (r & E & _); rewrite P in E; discriminate.
Qed.

(** ** Radix and buffer

    ([from_str_radix] panics exactly as documented: [C28_panic].) *)

(** [to_str_radix] is documented (write.rs 25-28) to panic for a radix outside 2 to 36 and for a buffer
    that does not hold the digits [s] and the sign: it does, … *)
Theorem C108_to_str_radix : forall (c : Cfg) sg x buffer radix s, Valid -> wf x -> upper_numeral radix (Z.abs (num sg x)) s ->
  ~ 2 <= radix <= 36 \/ (length buffer < length s + (if (num sg x <? 0)%Z then 1 else 0))%nat ->
  to_str_radix sg x buffer radix = Panic.
Proof.
  intros c sg x buffer radix s HV Hx HS H. apply to_str_radix_panic. intros (Hr & HB). destruct H as [H|H]; [contradiction|].
  set (b := repeat 0 (Z.to_nat BITS)). pose proof (BITS_pos HV) as BP. assert (LB : length b = Z.to_nat BITS) by apply repeat_length.
  assert (A : 0 <= Z.abs (num sg x) < 2 ^ BITS).
  { destruct (fits_range HV sg x Hx) as (R & Ru). pose proof (pBhalf HV). pose proof (pBh HV). lia. }
  assert (U : uval (ofZ (Z.abs (num sg x))) = Z.abs (num sg x)) by (rewrite (uval_ofZ HV); apply Z.mod_small; auto).
  assert (LB2 : BITS <= Z.of_nat (length b)) by (rewrite LB; lia).
  destruct (C29_unsigned c (ofZ (Z.abs (num sg x))) b radix HV (wf_ofZ HV _) Hr LB2) as (i & t & _ & L & HT).
  rewrite U in HT. assert (R2 : 2 <= radix) by lia. rewrite (C29_unique radix _ t s R2 HT HS) in L. rewrite LB in L.
  assert (num sg x < 0 -> sg = true) by (destruct sg; auto; cbn [num]; pose proof (uval_range HV x Hx); lia).
  destruct (Z.ltb_spec (num sg x) 0) as [Ng|Ng]; [rewrite H0 in HB by auto; cbn [b2z] in HB; lia|]. destruct sg; cbn [b2z] in HB; lia.
Qed.
(** … but it panics for every buffer below BITS bytes (one more for the signed types), and with
    overflow checks for some negative numbers. *)
Theorem C108_to_str_radix_exact : forall (c : Cfg) sg x buffer radix, Valid -> wf x ->
  (to_str_radix sg x buffer radix = Panic <->
   ~ 2 <= radix <= 36 \/ Z.of_nat (length buffer) < BITS + b2z sg \/
   (chk = true /\ num sg x < 0 /\ 256 <= sval x mod 256 + (if (radix <=? 10) || (sval x mod 2 ^ 32 <? 10) then 48 else 65))).
Proof.
  intros c sg x buffer radix HV Hx. split.
  - intros P. destruct (Z.le_gt_cases 2 radix) as [R1|]; [|left; lia]. destruct (Z.le_gt_cases radix 36) as [R2|]; [|left; lia].
    destruct (Z.lt_ge_cases (Z.of_nat (length buffer)) (BITS + b2z sg)) as [|L]; [auto|]. right. right.
    destruct (Z.lt_ge_cases (num sg x) 0) as [Ng|Ng].
    + destruct sg; cbn [num b2z] in *; [|pose proof (uval_range HV x Hx); lia].
      destruct (C29_negative c x buffer radix HV Hx Ng (conj R1 R2) L) as [(C & B & _)|(_ & i & s & E & _)]; [auto|]. rewrite E in P. discriminate.
    + destruct (to_str_radix_ok HV sg x buffer radix Hx Ng (conj R1 R2) L) as (i & s & E & _). rewrite E in P. discriminate.
  - intros [H|[H|(C & Ng & H)]]; [apply to_str_radix_panic; tauto|apply to_str_radix_panic; lia|].
    destruct sg; cbn [num] in *; [|pose proof (uval_range HV x Hx); lia].
    destruct (Z.le_gt_cases 2 radix) as [R1|]; [|apply to_str_radix_panic; lia]. destruct (Z.le_gt_cases radix 36) as [R2|]; [|apply to_str_radix_panic; lia].
    destruct (Z.lt_ge_cases (Z.of_nat (length buffer)) (BITS + 1)) as [L|L]; [apply to_str_radix_panic; cbn [b2z]; lia|].
    destruct (C29_negative c x buffer radix HV Hx Ng (conj R1 R2) L) as [(_ & _ & P)|([B|B] & _)]; [exact P|congruence|lia].
Qed.

(** ** What the documentation says, refuted *)

(** a zero divisor does not always panic: 0 / 0 returns (quotient one, see C10), here without overflow checks in every
    method that is not strict *)
Theorem C108_zero_refuted : exists (c : Cfg) x y, Valid /\ wf x /\ wf y /\ uval y = 0 /\
  forall m sg, documented m sg (num sg x) (num sg y) /\ (guarded m = false -> run m sg x y = Ok tt) /\
               (In m [WrappingDivRem; OverflowingDivRem; SaturatingDiv; DivRem; DivEuclid; RemEuclid; DivFloor; DivCeil] -> guarded m = false).
Proof.
  pose proof (wf_ofZ valid_c512_32 0) as H0. exists c512_32, (@ofZ c512_32 0), (@ofZ c512_32 0). split; [exact valid_c512_32|]. split; [exact H0|]. split; [exact H0|]. split; [vm_compute; reflexivity|].
  intros m sg. split; [destruct m, sg; vm_compute; auto|]. split; [intros G; destruct m; try discriminate G; destruct sg; vm_compute; reflexivity|].
  cbn [In]. intros H. repeat (destruct H as [<-|H]; [reflexivity|]). contradiction.
Qed.
(** MIN / -1 does not panic under the methods documented to, "not affected by the overflow-checks flag" *)
Theorem C108_min_refuted : exists (c : Cfg) x y, Valid /\ wf x /\ wf y /\
  forall m, In m [DivEuclid; RemEuclid; DivFloor; DivCeil] -> documented m true (sval x) (sval y) /\ sval y <> 0 /\ run m true x y = Ok tt.
Proof.
  exists c512_32, (E512 (- 2 ^ 511)), (E512 (-1)). split; [exact valid_c512_32|]. split; [apply (wf_ofZ valid_c512_32)|]. split; [apply (wf_ofZ valid_c512_32)|].
  cbn [In]. intros m H. repeat (destruct H as [<-|H]; [split; [right; vm_compute; auto|split; [vm_compute; discriminate|vm_compute; reflexivity]]|]). contradiction.
Qed.
(** an undocumented panic: MIN / -1 under [div_rem] with overflow checks *)
Theorem C108_div_rem_refuted : exists (c : Cfg) x y, Valid /\ wf x /\ wf y /\ ~ documented DivRem true (sval x) (sval y) /\
  ~ division_fails (sval x) (sval y) /\ run DivRem true x y = Panic.
Proof.
  exists c256_64, (E64 (- 2 ^ 255)), (E64 (-1)). split; [exact valid_c256_64|]. split; [apply (wf_ofZ valid_c256_64)|]. split; [apply (wf_ofZ valid_c256_64)|].
  split; [vm_compute; discriminate|]. split; [intros ((H & _) & _); vm_compute in H; apply H; reflexivity|]. vm_compute. reflexivity.
Qed.
(** an overflow that the strict product and power return *)
Theorem C108_strict_refuted : exists (c : Cfg) x y, Valid /\ wf x /\ wf y /\ ~ fits_s BITS (sval x * sval y) /\ strict_mul true x y <> Panic.
Proof.
  exists c256_64, (E64 (- (2 ^ 254 + 1))), (E64 2). split; [exact valid_c256_64|]. split; [apply (wf_ofZ valid_c256_64)|]. split; [apply (wf_ofZ valid_c256_64)|].
  split; [intros (H & _); vm_compute in H; apply H; reflexivity|]. vm_compute. discriminate.
Qed.
(** a buffer with room for the digits *)
Theorem C108_buffer_refuted : exists (c : Cfg) x buffer radix s, Valid /\ wf x /\ 2 <= radix <= 36 /\ upper_numeral radix (uval x) s /\
  (length s <= length buffer)%nat /\ to_str_radix false x buffer radix = Panic.
Proof.
  exists c256_64, (E64 7), (repeat 0 255), 10, [55]. split; [exact valid_c256_64|]. split; [apply (wf_ofZ valid_c256_64)|]. split; [lia|].
  split; [|split; [vm_compute; repeat constructor|vm_compute; reflexivity]].
  split; [split; [discriminate|split; [vm_compute; reflexivity|discriminate]]|]. constructor; [left; lia|constructor].
Qed.

(** ** Examples *)

(** the documented panics of every kind, and a panic of the long division *)
Example C108_ex1 : (forall m sg, run (c := c256_64) m sg (E64 7) (E64 0) = Panic) /\
  (forall m, documented (c := c256_64) m false (2 ^ 193 + 1) 0 /\ ~ documented (c := c256_64) m false (2 ^ 193 + 1) (2 ^ 192 + 1)) /\
  division_fails (c := c256_64) (2 ^ 193 + 1) (2 ^ 192 + 1) /\ (forall m, run (c := c256_64) m false (E64 (2 ^ 193 + 1)) (E64 (2 ^ 192 + 1)) = Panic) /\
  (forall m, run (c := c256_64) m true (E64 (- 7)) (E64 2) = Ok tt).
Proof.
  split; [intros m sg; destruct m, sg; vm_compute; reflexivity|]. split.
  { intros m. split; [destruct m; cbn [documented]; auto|]. destruct m; cbn [documented]; unfold overflows; intuition discriminate. }
  split; [split; [vm_compute; split; [discriminate|reflexivity]|vm_compute; reflexivity]|].
  split; intros m; destruct m; vm_compute; reflexivity.
Qed.
(** MIN / -1: the strict methods and, with overflow checks, three more *)
Example C108_ex2 : map (fun m => run (c := c256_64) m true (E64 (- 2 ^ 255)) (E64 (-1))) [StrictDiv; StrictRemEuclid; DivRem; DivEuclid; DivFloor; WrappingDiv] =
  [Panic; Panic; Panic; Panic; Ok tt; Ok tt].
Proof. vm_compute. reflexivity. Qed.
Example C108_ex3 : @u_next_multiple_of c256_64 (E64 0) (E64 0) = Panic /\ @s_next_multiple_of c512_32 (E512 0) (E512 0) = Ok (E512 0) /\
  @u_next_multiple_of c256_64 (E64 (2 ^ 256 - 1)) (E64 10) = Panic /\ @s_next_multiple_of c256_64 (E64 (2 ^ 255 - 1)) (E64 10) = Panic /\
  @s_next_multiple_of c256_64 (E64 (- 23)) (E64 10) = Ok (E64 (- 20)) /\ next_multiple (-23) 10 (-20) /\
  (let y := 2 ^ 126 + 2 ^ 63 - 1 in let x := ((2 ^ 64 - 2) * 2 ^ 64 + 100) * y in
   u_next_multiple_of (c := c256_64) (E64 x) (E64 y) = Panic /\ s_next_multiple_of (c := c256_64) (E64 x) (E64 y) <> Panic).
Proof.
  cbv zeta. do 5 (split; [vm_compute; reflexivity|]). split; [|split; [vm_compute; reflexivity|vm_compute; discriminate]].
  unfold next_multiple. split; [exists (-2); reflexivity|]. lia.
Qed.
Example C108_ex4 : @strict_add c256_64 true (E64 (2 ^ 255 - 1)) (E64 1) = Panic /\ @strict_sub c256_64 false (E64 1) (E64 2) = Panic /\ @strict_mul c512_32 false (E512 (2 ^ 300)) (E512 (2 ^ 212)) = Panic /\
  @strict_pow c512_32 false (E512 2) 512 = Panic /\ @strict_pow c512_32 false (E512 2) 511 = Ok (E512 (2 ^ 511)) /\ @u_strict_add_signed c256_64 (E64 1) (E64 (-2)) = Panic /\
  @s_strict_sub_unsigned c256_64 (E64 (- 2 ^ 255)) (E64 1) = Panic /\ @s_strict_neg c256_64 (E64 (- 2 ^ 255)) = Panic /\ @u_strict_neg c256_64 (E64 0) = Ok (E64 0) /\
  @strict_mul c256_64 true (E64 (- 2 ^ 254)) (E64 4) = Panic /\ @strict_pow c256_64 true (E64 (-2)) 255 = Ok (E64 (- 2 ^ 255)) /\ @strict_pow c256_64 true (E64 (-2)) 257 = Panic.
Proof. repeat split; vm_compute; reflexivity. Qed.
Example C108_ex5 : @strict_shl c256_64 (E64 1) 256 = Panic /\ @strict_shl c256_64 (E64 1) 255 = Ok (E64 (2 ^ 255)) /\ @ilog2 c256_64 true (E64 (-1)) = Panic /\
  @next_power_of_two c256_64 (E64 (2 ^ 255 + 1)) = Panic /\ @next_power_of_two c256_64 (E64 (2 ^ 255)) = Ok (E64 (2 ^ 255)) /\
  @u_ilog c256_64 (E64 5) (E64 10) = Panic /\ @u_ilog c256_64 (E64 125) (E64 5) = Ok 3 /\ @s_ilog c256_64 (E64 125) (E64 1) = Panic /\ @s_ilog c256_64 (E64 125) (E64 5) = Ok 3 /\
  @u_ilog c256_64 (E64 (2 ^ 193 + 1)) (E64 (2 ^ 192 + 1)) = Panic.
Proof. repeat split; vm_compute; reflexivity. Qed.
Example C108_ex6 : @div_rem_us c256_64 K128 false (E64 0) 0 = Panic /\ @wrapping_div_rem_us c256_64 K128 false (E64 0) 0 = Ok (E64 0, 0) /\ @wrapping_div_rem_us c256_64 K64 false (E64 0) 0 = Panic /\
  @div_rem_us c512_32 K64 true (E512 0) 0 = Ok (E512 0, 0) /\ @div_rem_us c256_64 K128 false (E64 (2 ^ 191)) (2 ^ 127 + 2 ^ 64 - 1) = Panic /\ @div_rem_us c256_64 K128 true (E64 (-7)) 2 = Ok (E64 (-4), 1).
Proof. repeat split; vm_compute; reflexivity. Qed.
Example C108_ex7 : @to_str_radix c256_64 false (E64 7) (repeat 0 256) 37 = Panic /\ upper_numeral 10 1000 [49; 48; 48; 48] /\ @to_str_radix c256_64 false (E64 1000) (repeat 0 3) 10 = Panic /\
  @to_str_radix c256_64 false (E64 7) (repeat 0 256) 10 <> Panic /\ @to_str_radix c256_64 true (E64 (-1)) (repeat 0 257) 10 = Panic.
Proof.
  split; [vm_compute; reflexivity|]. split; [|split; [vm_compute; reflexivity|split; [vm_compute; discriminate|vm_compute; reflexivity]]].
  split; [split; [discriminate|split; [vm_compute; reflexivity|discriminate]]|]. repeat (constructor; [left; lia|]). constructor.
Qed.

(** ** Assumptions (each must print "Closed under the global context") *)

Print Assumptions C108_division.
Print Assumptions C108_documented.
Print Assumptions C108_undocumented.
Print Assumptions C108_next_multiple_u.
Print Assumptions C108_next_multiple_s.
Print Assumptions C108_strict.
Print Assumptions C108_strict_products.
Print Assumptions C108_shifts_logs.
Print Assumptions C108_ilog_u.
Print Assumptions C108_ilog_s.
Print Assumptions C108_scalar_zero.
Print Assumptions C108_scalar.
Print Assumptions C108_to_str_radix.
Print Assumptions C108_to_str_radix_exact.
Print Assumptions C108_zero_refuted.
Print Assumptions C108_min_refuted.
Print Assumptions C108_div_rem_refuted.
Print Assumptions C108_strict_refuted.
Print Assumptions C108_buffer_refuted.
