(** * Client programs: the operations of the code in the language (for C87)

    Lang.v defines programs with variables, expressions, conditions, branches on
    [checked_*] and [overflowing_*] results, and loops, and gives them a meaning
    over the integers.  Here: the operations with the corrections of MFix.v,
    MFix2.v and MFix3.v ([corrected]) and as published ([published]), the inputs on
    which the latter are wrong ([known_defects]), and the proofs that programs run
    with the former do what they mean. *)

Require Import ZArith List Bool Lia.
From Verif Require Import Prim Spec Facts MAdd MMul MShift MCore PCore PBits PWide MArith PArith PArith2 PPow PMisc PBits2 PRet
  MDiv DivSpec PDiv PKnuth PDivFull PDivExact MApi PApi PApi2 PApi3 MScalar PScalar TextSpec MTraits PTraits PropsDiv PropsDivAll
  MFix PFixDiv PFixApi PFixScalar PropsFix MFix2 PFixMul PFixPow PFixScalar2 PropsFix2 MFix3 PropsFix3 MOrd Lang.
Import ListNotations.
Local Open Scope Z_scope.

(** ** Vocabulary *)
Section Vocabulary.
Context {c : Cfg}.
(** the value [x] stands for [v] *)
Definition stands (sg : bool) (v : Z) (x : list Z) : Prop := wf x /\ number sg x = v.
Definition opt_rel {A B} (R : A -> B -> Prop) (o : option A) (p : option B) : Prop :=
  match o, p with Some a, Some b => R a b | None, None => True | _, _ => False end.
Definition same_store (z : store Z) (s : store (list Z)) : Prop := forall sg i, stands sg (z sg i) (s sg i).
End Vocabulary.
(** the run [m] ends as foreseen by [z] *)
Definition meets {A B} (R : A -> B -> Prop) (z : outcome A) (m : res B) : Prop :=
  match z with
  | Done a => exists b, m = Ok b /\ R a b
  | Panicked => m = Panic
  | Unfinished => m = OutOfFuel
  | Unknown => True
  end.

(** The operations, with the corrections and as published. *)
Section Operations.
Context {c : Cfg}.
Definition literal (sg : bool) (v : Z) : res (list Z) := if sg then from_i128 v else from_u128 v.
Definition equal (sg : bool) (x y : list Z) : res bool := Ok (derived_eq x y).
Definition corrected : ops := {|
  lit := literal;
  run1 := fun sg o x => match o with
    | Neg => op_neg x | Not => not_const x | Abs => fix_s_abs x | UnsignedAbs => unsigned_abs x | Signum => signum x
    | Cast => if sg then cast_unsigned x else cast_signed x
    | TryCast => unwrap (if sg then u_try_from_signed x else fix_s_try_from_unsigned x)
    | Shl k => fix_op_shl x k | Shr k => fix_op_shr sg x k
    | Pow e => m_pow fix_smul_overflowing_full sg x e end;
  run2 := fun sg o x y => match o with
    | Add => op_add sg x y | Sub => op_sub sg x y | Mul => m_op_mul fix_smul_overflowing_full sg x y
    | Div => d_op_div fix_wrapping_div_rem sg x y | Rem => d_op_rem fix_wrapping_div_rem sg x y
    | And => bitand_const x y | Or => bitor_const x y | Xor => bitxor_const x y
    | ShlBy => fix_op_shl_self sg x y | ShrBy => fix_op_shr_self sg x y
    | DivEuclid => if sg then fix_s_div_euclid x y else d_div_euclid fix_wrapping_div_rem false x y
    | RemEuclid => if sg then fix_s_rem_euclid x y else d_rem_euclid fix_wrapping_div_rem false x y
    | DivFloor => if sg then fix_s_div_floor x y else d_u_div_floor fix_wrapping_div_rem x y
    | DivCeil => if sg then fix_s_div_ceil x y else d_u_div_ceil fix_wrapping_div_rem x y
    | Midpoint => if sg then fix_s_midpoint x y else u_midpoint x y
    | AbsDiff => abs_diff sg x y | Max => ord_max sg x y | Min => ord_min sg x y
    | WrappingAdd => wrapping_add sg x y | WrappingSub => wrapping_sub sg x y | WrappingMul => wrapping_mul sg x y
    | SaturatingAdd => if sg then s_saturating_add x y else u_saturating_add x y
    | SaturatingSub => if sg then s_saturating_sub x y else u_saturating_sub x y
    | SaturatingMul => m_saturating_mul fix_smul_overflowing_full sg x y end;
  runc := fun sg o x y => match o with
    | CAdd => checked_add sg x y | CSub => checked_sub sg x y | CMul => m_checked_mul fix_smul_overflowing_full sg x y
    | CDiv => d_checked_div fix_wrapping_div_rem sg x y | CRem => d_checked_rem fix_wrapping_div_rem sg x y
    | CDivEuclid => d_checked_div_euclid fix_wrapping_div_rem sg x y | CRemEuclid => d_checked_rem_euclid fix_wrapping_div_rem sg x y end;
  runo := fun sg o x y => match o with
    | OAdd => overflowing_add sg x y | OSub => overflowing_sub sg x y
    | OMul => m_overflowing_mul fix_smul_overflowing_full sg x y end;
  run_eq := equal; run_lt := ord_lt; run_le := ord_le |}.
Definition published : ops := {|
  lit := literal;
  run1 := fun sg o x => match o with
    | Neg => op_neg x | Not => not_const x | Abs => s_abs x | UnsignedAbs => unsigned_abs x | Signum => signum x
    | Cast => if sg then cast_unsigned x else cast_signed x
    | TryCast => unwrap (if sg then u_try_from_signed x else s_try_from_unsigned x)
    | Shl k => op_shl false 32 x k | Shr k => op_shr sg false 32 x k
    | Pow e => pow sg x e end;
  run2 := fun sg o x y => match o with
    | Add => op_add sg x y | Sub => op_sub sg x y | Mul => op_mul sg x y
    | Div => op_div sg x y | Rem => op_rem sg x y
    | And => bitand_const x y | Or => bitor_const x y | Xor => bitxor_const x y
    | ShlBy => op_shl_self x y | ShrBy => op_shr_self sg x y
    | DivEuclid => div_euclid sg x y
    | RemEuclid => rem_euclid sg x y
    | DivFloor => if sg then s_div_floor x y else u_div_floor x y
    | DivCeil => if sg then s_div_ceil x y else u_div_ceil x y
    | Midpoint => if sg then s_midpoint x y else u_midpoint x y
    | AbsDiff => abs_diff sg x y | Max => ord_max sg x y | Min => ord_min sg x y
    | WrappingAdd => wrapping_add sg x y | WrappingSub => wrapping_sub sg x y | WrappingMul => wrapping_mul sg x y
    | SaturatingAdd => if sg then s_saturating_add x y else u_saturating_add x y
    | SaturatingSub => if sg then s_saturating_sub x y else u_saturating_sub x y
    | SaturatingMul => if sg then s_saturating_mul x y else u_saturating_mul x y end;
  runc := fun sg o x y => match o with
    | CAdd => checked_add sg x y | CSub => checked_sub sg x y | CMul => checked_mul sg x y
    | CDiv => checked_div sg x y | CRem => checked_rem sg x y
    | CDivEuclid => checked_div_euclid sg x y | CRemEuclid => checked_rem_euclid sg x y end;
  runo := fun sg o x y => match o with
    | OAdd => overflowing_add sg x y | OSub => overflowing_sub sg x y | OMul => overflowing_mul sg x y end;
  run_eq := equal; run_lt := ord_lt; run_le := ord_le |}.

(** The inputs on which the published operations are wrong. *)
(** a signed product slightly below the smallest value *)
Definition bad_product (sg : bool) (p : Z) : bool :=
  sg && (- (2 ^ (BITS - 1) + 2 ^ (BITS - W)) <? p) && (p <? - 2 ^ (BITS - 1)).
(** a division with a quotient digit to be corrected: it panics if the divisor
    fills all limbs, and may leave a wrong remainder otherwise *)
Definition fails (x y : Z) : bool :=
  (2 ^ (BITS - W) <=? Z.abs y) && (Z.abs y <? Z.abs x) && has_correction W (Z.abs x) (Z.abs y).
Definition inexact (x y : Z) : bool :=
  (2 ^ W <=? Z.abs y) && (Z.abs y <? Z.abs x) && has_correction W (Z.abs x) (Z.abs y) &&
  negb ((Z.abs y <? 2 ^ (W * (Z.of_nat N - 1))) && (stray W N (Z.abs x) (Z.abs y) =? 0)).
(** a quotient rounded by looking at a wrong remainder, where the true one is zero *)
Definition misrounded (x y : Z) : bool := inexact x y && (Z.rem x y =? 0).
Definition known_defects : doubts := {|
  bad1 := fun sg o x => match o with
    | Abs => negb chk && (x =? - 2 ^ (BITS - 1))
    | TryCast => negb sg && (x =? 2 ^ (BITS - 1) - 1)
    | Pow e => chk && bad_product sg (x ^ e)
    | _ => false end;
  bad2 := fun sg o x y =>
    let none := (x =? 0) && (y =? 0) in let over := min_m1 BITS sg x y in
    match o with
    | Mul => chk && bad_product sg (x * y)
    | SaturatingMul => bad_product sg (x * y)
    | Div => fails x y || (negb chk && none)
    | Rem => inexact x y || (negb chk && none)
    | DivEuclid => fails x y || (misrounded x y && (x <? 0)) || (negb chk && (none || over))
    | RemEuclid => inexact x y || (negb chk && (none || over))
    | DivFloor => fails x y || (misrounded x y && xorb (x <? 0) (y <? 0)) || none || over
    | DivCeil => fails x y || (misrounded x y && negb (xorb (x <? 0) (y <? 0))) || none || over
    | ShlBy | ShrBy => chk && negb ((0 <=? y) && (y <? BITS))
    | Midpoint => sg && (x + y <? 0) && Z.odd (x + y)
    | _ => false end;
  badc := fun sg o x y => match o with
    | CMul => bad_product sg (x * y)
    | CDiv => fails x y
    | CRem | CRemEuclid => inexact x y
    | CDivEuclid => fails x y || (misrounded x y && (x <? 0))
    | _ => false end;
  bado := fun sg o x y => match o with OMul => bad_product sg (x * y) | _ => false end |}.

(** An implementation and a list of doubts: away from the doubts, each operation
    does what is meant. *)
Definition faithful (M : ops) (D : doubts) : Prop :=
  (forall sg v, (if sg : bool then fits_s 128 v else fits_u 128 v) -> meets (stands sg) (Done v) (lit M sg v)) /\
  (forall sg o x, proper1 sg o -> wf x -> let v := number sg x in
     meets (stands (ty1 o sg)) (unless (bad1 D sg o v) (exact1 BITS chk sg o v)) (run1 M sg o x)) /\
  (forall sg o x y, wf x -> wf y -> let v := number sg x in let w := number sg y in
     meets (stands (ty2 o sg)) (unless (bad2 D sg o v w) (exact2 BITS chk sg o v w)) (run2 M sg o x y) /\
     (forall o, meets (opt_rel (stands sg)) (unless (badc D sg o v w) (exactc BITS sg o v w)) (runc M sg o x y)) /\
     (forall o, meets (fun a b => stands sg (fst a) (fst b) /\ snd a = snd b) (unless (bado D sg o v w) (exacto BITS sg o v w)) (runo M sg o x y)) /\
     meets eq (Done (v =? w)) (run_eq M sg x y) /\ meets eq (Done (v <? w)) (run_lt M sg x y) /\ meets eq (Done (v <=? w)) (run_le M sg x y)).
End Operations.

(** ** Programs *)
Section Programs.
Context {c : Cfg}.
Variable M : ops.
Variable D : doubts.
Hypothesis F : faithful M D.

Lemma bind_meets : forall {A B A' B'} (R : A -> A' -> Prop) (S : B -> B' -> Prop) z m (k : A -> outcome B) (k' : A' -> res B'),
  meets R z m -> (forall a a', R a a' -> meets S (k a) (k' a')) -> meets S (and_then z k) (bind m k').
Proof.
  intros A B A' B' R S z m k k' H K. destruct z; cbn [and_then meets] in *; [destruct H as (b & -> & HR); cbn [bind]; apply K; auto|subst; reflexivity|subst; reflexivity|exact I].
Qed.
Lemma eval_meets : forall sg (e : expr sg) z s, proper_e e -> same_store z s -> meets (stands sg) (zeval BITS chk D z e) (eval M s e).
Proof.
  destruct F as (F0 & F1 & F2). induction e as [g i|g v|g o a IH|g o a IHa b IHb]; intros z s P S; cbn [zeval eval proper_e] in *.
  - exists (s g i). split; auto.
  - apply F0. exact P.
  - apply (bind_meets (stands g)); [apply IH; tauto|]. intros v x (Wx & <-). apply F1; tauto.
  - apply (bind_meets (stands g)); [apply IHa; tauto|]. intros v x (Wx & <-).
    apply (bind_meets (stands g)); [apply IHb; tauto|]. intros w y (Wy & <-). apply F2; auto.
Qed.
Lemma test_meets : forall b z s, proper_b b -> same_store z s -> meets eq (ztest BITS chk D z b) (test M s b).
Proof.
  destruct F as (F0 & F1 & F2).
  induction b as [g a b|g a b|g a b|a IH|a IHa b IHb]; intros z s P S; cbn [ztest test proper_b] in *.
  1-3: apply (bind_meets (stands g)); [apply eval_meets; tauto|]; intros v x (Wx & <-);
    apply (bind_meets (stands g)); [apply eval_meets; tauto|]; intros w y (Wy & <-); apply (F2 g Add x y Wx Wy).
  - apply (bind_meets eq); [apply IH; auto|]. intros r r' <-. exists (negb r). auto.
  - apply (bind_meets eq); [apply IHa; tauto|]. intros r r' <-. destruct r; [apply IHb; tauto|exists false; auto].
Qed.
Lemma update_same : forall z s sg i v x, same_store z s -> stands sg v x -> same_store (update z sg i v) (update s sg i x).
Proof.
  intros z s sg i v x S H sg' j. unfold update. destruct (Bool.eqb sg sg') eqn:E; cbn [andb]; [|apply S].
  apply eqb_prop in E. subst sg'. destruct (Nat.eqb i j); [exact H|apply S].
Qed.
Lemma exec_meets : forall fuel p z s, proper p -> same_store z s -> meets same_store (zexec BITS chk D fuel p z) (exec M fuel p s).
Proof.
  pose proof F as (F0 & F1 & F2).
  induction fuel as [|fuel IH]; intros p z s P S; [reflexivity|].
  destruct p as [|g i e|p q|b p q|b p|g o i a b p q|g o i a b p q]; cbn [zexec exec proper] in *.
  - exists s. auto.
  - apply (bind_meets (stands g)); [apply eval_meets; auto|]. intros v x H. eexists. split; [reflexivity|]. apply update_same; auto.
  - apply (bind_meets same_store); [apply IH; tauto|]. intros z' s' H. apply IH; tauto.
  - apply (bind_meets eq); [apply test_meets; tauto|]. intros r r' <-. destruct r; apply IH; tauto.
  - apply (bind_meets eq); [apply test_meets; tauto|]. intros r r' <-. destruct r; [|exists s; auto].
    apply (bind_meets same_store); [apply IH; tauto|]. intros z' s' H. apply IH; auto.
  - apply (bind_meets (stands g)); [apply eval_meets; tauto|]. intros v x (Wx & <-).
    apply (bind_meets (stands g)); [apply eval_meets; tauto|]. intros w y (Wy & <-).
    apply (bind_meets (opt_rel (stands g))); [apply (F2 g Add x y Wx Wy)|]. intros r r' H.
    destruct r as [v|], r' as [x'|]; cbn [opt_rel] in H; try contradiction; apply IH; try tauto. apply update_same; auto.
  - apply (bind_meets (stands g)); [apply eval_meets; tauto|]. intros v x (Wx & <-).
    apply (bind_meets (stands g)); [apply eval_meets; tauto|]. intros w y (Wy & <-).
    eapply bind_meets; [apply (F2 g Add x y Wx Wy)|]. intros [v f] [x' f'] (H & E). cbn [fst snd] in *. subst f'.
    destruct f; apply IH; try tauto; apply update_same; auto.
Qed.
End Programs.

(** ** The operations *)
Section P.
Context {c : Cfg}.
Hypothesis HV : Valid.

Lemma inside_fitsb : forall sg v, inside BITS sg v = fitsb sg v.
Proof. destruct sg; reflexivity. Qed.
Lemma inside_spec : forall sg v, inside BITS sg v = true <-> in_range sg v.
Proof. intros. rewrite inside_fitsb. exact (fitsb_spec sg v). Qed.
Lemma inside_dec : forall sg v, {in_range sg v /\ inside BITS sg v = true} + {~ in_range sg v /\ inside BITS sg v = false}.
Proof.
  intros sg v. destruct (inside BITS sg v) eqn:E; [left|right]; split; auto.
  - apply inside_spec; auto.
  - intros H. apply inside_spec in H. congruence.
Qed.
Lemma number_range : forall sg x, wf x -> in_range sg (number sg x).
Proof. exact (fits_val HV). Qed.
Lemma m_small : forall sg v, in_range sg v -> meets (stands sg) (Done v) (Ok (ofZ v)).
Proof. intros sg v H. destruct (give_small HV sg v H) as (r & E & Hr & V). exists r. split; [exact E|]. split; auto. Qed.
Lemma m_wrap : forall sg v, meets (stands sg) (Done (reduced BITS sg v)) (Ok (ofZ v)).
Proof. intros sg v. destruct (give HV sg v) as (r & E & Hr & V). exists r. split; [exact E|]. split; auto. Qed.
Lemma m_if : forall sg v, meets (stands sg) (ranged BITS chk sg v) (if chk && negb (fitsb sg v) then Panic else Ok (ofZ v)).
Proof.
  intros sg v. unfold ranged. rewrite <- inside_fitsb. destruct (inside_dec sg v) as [(R & ->)|(R & ->)]; cbn [negb].
  - rewrite andb_false_r. apply m_small; auto.
  - rewrite andb_true_r. destruct chk; [reflexivity|apply m_wrap].
Qed.
Lemma m_clamp : forall sg v, meets (stands sg) (Done (pinned BITS sg v)) (Ok (ofZ (clamp sg v))).
Proof.
  intros sg v. destruct (nearest_ok HV sg v _ eq_refl) as (r & E & Hr & V). exists r. split; [exact E|]. split; [exact Hr|]. exact V.
Qed.
Lemma m_self : forall sg x, wf x -> meets (stands sg) (Done (number sg x)) (Ok x).
Proof. intros sg x Hx. exists x. split; auto. split; auto. Qed.
Lemma m_if_some : forall sg v, meets (opt_rel (stands sg)) (within BITS sg v) (Ok (some_if (fitsb sg v) v)).
Proof.
  intros sg v. unfold within. rewrite <- inside_fitsb. destruct (inside_dec sg v) as [(R & ->)|(R & ->)]; cbn [some_if]; [|exists None; split; [reflexivity|exact I]].
  destruct (m_small sg v R) as (r & E & H). inversion E; subst. eexists. split; [reflexivity|]. exact H.
Qed.
Lemma m_flag : forall sg v, meets (fun a b => stands sg (fst a) (fst b) /\ snd a = snd b) (Done (reduced BITS sg v, negb (inside BITS sg v))) (Ok (ofZ v, negb (fitsb sg v))).
Proof.
  intros sg v. rewrite inside_fitsb. destruct (m_wrap sg v) as (r & E & H). inversion E; subst. eexists. split; [reflexivity|]. auto.
Qed.

(** *** One operand *)
Lemma m_not : forall sg x, wf x -> meets (stands sg) (Done (if sg then - number sg x - 1 else 2 ^ BITS - 1 - number sg x)) (not_const x).
Proof.
  intros sg x Hx. rewrite (not_const_ok HV) by auto. pose proof (pBh HV). pose proof (number_range sg x Hx) as R.
  assert (E : ofZ (-1 - uval x) = ofZ (if sg then - number sg x - 1 else 2 ^ BITS - 1 - number sg x)).
  { apply (ofZ_cong2 HV). destruct sg; cbn [number].
    - rewrite (sval_uval x). destruct (uval x <? 2 ^ (BITS - 1)); [exists 0|exists (-1)]; lia.
    - exists (-1). lia. }
  rewrite E. apply m_small. destruct sg; cbn in *; unfold fits_s, fits_u in *; lia.
Qed.
Lemma m_cast : forall sg x, wf x -> meets (stands (negb sg)) (Done (reduced BITS (negb sg) (number sg x))) (if sg then cast_unsigned x else cast_signed x).
Proof.
  intros sg x Hx. assert (E : (if sg then cast_unsigned x else cast_signed x) = Ok (ofZ (number sg x))).
  { change (number sg x) with (val sg x). rewrite (ofZ_val HV) by auto. unfold cast_unsigned, cast_signed, as_unsigned, as_signed. rewrite (mk_ok HV). destruct sg; reflexivity. }
  rewrite E. apply m_wrap.
Qed.
Lemma m_shl : forall sg x k m raw, wf x ->
  m = (if chk && negb ((0 <=? k) && (k <? BITS)) then Panic else Ok (ofZ (uval x * 2 ^ (raw mod 2 ^ 32 mod BITS)))) ->
  (0 <= k < BITS -> raw = k) ->
  meets (stands sg) (and_then (amount BITS chk k raw) (fun k => Done (reduced BITS sg (number sg x * 2 ^ k)))) m.
Proof.
  intros sg x k m raw Hx -> Hr. unfold amount. rewrite (ofZ_mulc_uval HV sg) by auto. change (val sg x) with (number sg x).
  destruct ((0 <=? k) && (k <? BITS)) eqn:E; cbn [negb].
  - rewrite andb_false_r. apply andb_true_iff in E. destruct E as (E1 & E2). apply Z.leb_le in E1. apply Z.ltb_lt in E2.
    rewrite Hr, (amount_exact HV) by auto. apply m_wrap.
  - rewrite andb_true_r. destruct chk; [reflexivity|apply m_wrap].
Qed.
Lemma m_shr : forall sg x k m raw, wf x ->
  m = (if chk && negb ((0 <=? k) && (k <? BITS)) then Panic else Ok (ofZ (val sg x / 2 ^ (raw mod 2 ^ 32 mod BITS)))) ->
  (0 <= k < BITS -> raw = k) ->
  meets (stands sg) (and_then (amount BITS chk k raw) (fun k => Done (number sg x / 2 ^ k))) m.
Proof.
  intros sg x k m raw Hx -> Hr. unfold amount.
  assert (G : forall k, 0 <= k -> meets (stands sg) (Done (number sg x / 2 ^ k)) (Ok (ofZ (val sg x / 2 ^ k)))).
  { intros j Hj. destruct (shr_give HV sg x j Hx Hj) as (r & E & Hw & V). exists r. split; auto. split; auto. }
  destruct ((0 <=? k) && (k <? BITS)) eqn:E; cbn [negb].
  - rewrite andb_false_r. apply andb_true_iff in E. destruct E as (E1 & E2). apply Z.leb_le in E1. apply Z.ltb_lt in E2.
    rewrite Hr, (amount_exact HV) by auto. apply G; auto.
  - rewrite andb_true_r. destruct chk; [reflexivity|apply G]. pose proof (BITS_pos HV). apply Z.mod_pos_bound. lia.
Qed.
Lemma try_range : forall sg x, wf x -> in_range (negb sg) (number sg x) ->  number (negb sg) x = number sg x.
Proof.
  intros sg x Hx R. change (number (negb sg) x) with (val (negb sg) x). rewrite <- (ofZ_val HV sg x Hx) at 1. apply (val_ofZ_small HV). exact R.
Qed.
Lemma m_try : forall sg x, wf x -> meets (stands (negb sg)) (if inside BITS (negb sg) (number sg x) then Done (number sg x) else Panicked)
  (unwrap (Ok (if fitsb (negb sg) (number sg x) then Some x else None))).
Proof.
  intros sg x Hx. rewrite <- inside_fitsb. destruct (inside_dec (negb sg) (number sg x)) as [(R & ->)|(R & ->)]; [|reflexivity].
  exists x. split; [reflexivity|]. split; auto. apply try_range; auto.
Qed.
Lemma lit_meets : forall sg v, (if sg : bool then fits_s 128 v else fits_u 128 v) -> meets (stands sg) (Done v) (literal sg v).
Proof.
  intros sg v H. unfold literal. assert (E : (if sg then from_i128 v else from_u128 v) = Ok (ofZ v)).
  { destruct sg; [apply (from_i128_ok HV)|apply (from_u128_ok HV)]; auto. }
  rewrite E. apply m_small. pose proof (BITS_ge HV).
  assert (2 ^ 127 <= 2 ^ (BITS - 1)) by (apply pow2_le_mono; lia). assert (2 ^ 128 <= 2 ^ BITS) by (apply pow2_le_mono; lia).
  destruct sg; cbn in *; unfold fits_s, fits_u in *; change (128 - 1) with 127 in H; lia.
Qed.

(** *** Two operands *)
Lemma m_and : forall sg x y, wf x -> wf y -> meets (stands sg) (Done (Z.land (number sg x) (number sg y))) (bitand_const x y).
Proof.
  intros sg x y Hx Hy. rewrite (bitand_ok HV) by auto. pose proof (BITS_pos HV).
  destruct sg; cbn [number]; [rewrite (ofZ_land_s HV) by auto|]; apply m_small.
  - apply land_fits_s; [lia| |]; apply (sval_range HV); auto.
  - cbn. rewrite <- (uval_land HV) by auto. apply (uval_range HV). apply (wf_ofZ HV).
Qed.
Lemma m_or : forall sg x y, wf x -> wf y -> meets (stands sg) (Done (Z.lor (number sg x) (number sg y))) (bitor_const x y).
Proof.
  intros sg x y Hx Hy. rewrite (bitor_ok HV) by auto. pose proof (BITS_pos HV).
  destruct sg; cbn [number]; [rewrite (ofZ_lor_s HV) by auto|]; apply m_small.
  - apply lor_fits_s; [lia| |]; apply (sval_range HV); auto.
  - cbn. pose proof (uval_range HV x Hx). pose proof (uval_range HV y Hy). rewrite <- (Z.mod_small (uval x) (2 ^ BITS)), <- (Z.mod_small (uval y) (2 ^ BITS)) by lia.
    rewrite lor_mod by lia. apply Z.mod_pos_bound. lia.
Qed.
Lemma m_xor : forall sg x y, wf x -> wf y -> meets (stands sg) (Done (Z.lxor (number sg x) (number sg y))) (bitxor_const x y).
Proof.
  intros sg x y Hx Hy. rewrite (bitxor_ok HV) by auto. pose proof (BITS_pos HV).
  destruct sg; cbn [number]; [rewrite (ofZ_lxor_s HV) by auto|]; apply m_small.
  - apply lxor_fits_s; [lia| |]; apply (sval_range HV); auto.
  - cbn. rewrite <- (uval_lxor HV) by auto. apply (uval_range HV). apply (wf_ofZ HV).
Qed.
Lemma raw_self : forall sg y, wf y -> number sg y mod 2 ^ BITS = uval y.
Proof.
  intros sg y Hy. rewrite <- (uval_ofZ HV). change (number sg y) with (val sg y). rewrite (ofZ_val HV) by auto. reflexivity.
Qed.
Lemma raw_small : forall sg y, wf y -> 0 <= number sg y < BITS -> number sg y mod 2 ^ BITS = number sg y.
Proof. intros sg y Hy R. pose proof (BITS_pos HV). apply Z.mod_small. pose proof (Z.pow_gt_lin_r 2 BITS). lia. Qed.

Lemma dnone_split : forall sg v w, dnone sg v w = (w =? 0) || min_m1 BITS sg v w.
Proof. reflexivity. Qed.
Lemma m_div : forall sg x y, wf x -> wf y -> let v := number sg x in let w := number sg y in
  meets (stands sg) (if w =? 0 then Panicked else ranged BITS chk sg (Z.quot v w)) (opd sg v w (tq v w)).
Proof.
  intros sg x y Hx Hy v w. unfold opd. rewrite dnone_split. destruct (Z.eqb_spec w 0) as [E|E]; cbn [orb].
  - rewrite andb_true_r. unfold tq, tdiv. rewrite E. destruct chk; reflexivity.
  - rewrite tq_nz by auto. cbn [lift1]. destruct (min_m1 BITS sg v w) eqn:O.
    + rewrite andb_true_r. unfold min_m1 in O. apply andb_true_iff in O. destruct O as (O & O3). apply andb_true_iff in O. destruct O as (O1 & O2).
      apply Z.eqb_eq in O2, O3. pose proof (m_if sg (Z.quot v w)) as H. rewrite O2, O3 in *.
      assert (Q : Z.quot (- 2 ^ (BITS - 1)) (-1) = 2 ^ (BITS - 1)) by (symmetry; apply Z.quot_unique_exact; lia).
      rewrite Q in *. assert (B : fitsb sg (2 ^ (BITS - 1)) = false).
      { rewrite O1. destruct (fitsb true (2 ^ (BITS - 1))) eqn:B; auto. apply fitsb_spec in B. cbn in B. unfold fits_s in B. lia. }
      rewrite B in H. cbn [negb] in H. rewrite andb_true_r in H. exact H.
    + rewrite andb_false_r. assert (DV : divisible sg v w).
      { split; auto. intros (-> & A & B). unfold min_m1 in O. rewrite A, B, !Z.eqb_refl in O. discriminate. }
      pose proof (quot_in HV sg x y Hx Hy DV) as Q. unfold ranged. rewrite (proj2 (inside_spec sg (Z.quot v w))) by exact Q. apply m_small. exact Q.
Qed.
Lemma m_rem : forall sg x y, wf x -> wf y -> let v := number sg x in let w := number sg y in
  meets (stands sg) (if (w =? 0) || (chk && min_m1 BITS sg v w) then Panicked else Done (Z.rem v w)) (opd sg v w (tr v w)).
Proof.
  intros sg x y Hx Hy v w. unfold opd. rewrite dnone_split. destruct (Z.eqb_spec w 0) as [E|E]; cbn [orb].
  - rewrite andb_true_r. unfold tr, tdiv. rewrite E. destruct chk; reflexivity.
  - rewrite tr_nz by auto. cbn [lift1]. destruct (chk && min_m1 BITS sg v w); [reflexivity|]. apply m_small. exact (rem_in HV sg x y Hx Hy E).
Qed.
(** the values of the rounding divisions, for every divisor they accept *)
Lemma rounding_values : forall sg x y, wf x -> wf y -> let v := number sg x in let w := number sg y in
  (w =? 0) || min_m1 BITS sg v w = false ->
  in_range sg (Z.quot v w) /\ in_range sg (Z.rem v w) /\ in_range sg (Z.sgn w * (v / Z.abs w)) /\ in_range sg (v mod Z.abs w) /\
  in_range sg (v / w) /\ in_range sg (- (- v / w)) /\ divisible sg v w /\ (sg = false -> 0 <= v /\ 0 <= w).
Proof.
  intros sg x y Hx Hy v w H. apply orb_false_iff in H. destruct H as (H0 & H1). apply Z.eqb_neq in H0.
  assert (DV : divisible sg v w).
  { split; auto. intros (-> & A & B). unfold min_m1 in H1. rewrite A, B, !Z.eqb_refl in H1. discriminate. }
  destruct (C84_division c Wrapping sg x y HV Hx Hy DV) as (A1 & A2 & A3 & A4).
  destruct (C84_rounding c sg x y HV Hx Hy DV) as (A5 & A6).
  assert (G : forall m u, right sg m u -> in_range sg u) by (intros m u (r & _ & Hr & <-); apply (number_range sg r Hr)).
  repeat match goal with |- _ /\ _ => split end; try (eapply G; eassumption); auto.
  intros ->. pose proof (uval_range HV x Hx). pose proof (uval_range HV y Hy). unfold v, w. cbn [number]. lia.
Qed.
(** a division of any form: refused, or the value [u] *)
Lemma m_refuse : forall sg v w u (o : option Z), in_range sg u \/ (w =? 0) || min_m1 BITS sg v w = true -> ((w =? 0) || min_m1 BITS sg v w = false -> o = Some u) ->
  meets (stands sg) (if (w =? 0) || min_m1 BITS sg v w then Panicked else Done u) (if dnone sg v w then Panic else lift1 o) /\
  meets (opt_rel (stands sg)) (dividing BITS sg v w u) (chko sg v w o).
Proof.
  intros sg v w u o R H. unfold dividing, chko. rewrite dnone_split. destruct ((w =? 0) || min_m1 BITS sg v w).
  - split; [reflexivity|]. exists None. split; [reflexivity|exact I].
  - rewrite H by auto. cbn [lift1 lift_o]. destruct R as [R|R]; [|discriminate]. destruct (m_small sg u R) as (r & E & S). split; [exists r; auto|].
    inversion E; subst. eexists. split; [reflexivity|exact S].
Qed.
Lemma m_max : forall sg x y, wf x -> wf y ->
  meets (stands sg) (Done (Z.max (number sg x) (number sg y))) (ord_max sg x y) /\ meets (stands sg) (Done (Z.min (number sg x) (number sg y))) (ord_min sg x y).
Proof.
  intros sg x y Hx Hy. unfold ord_max, ord_min, ord_cmp. rewrite (cmp_const_ok HV) by auto. cbn [bind]. change (val sg) with (number sg).
  destruct (Z.compare_spec (number sg x) (number sg y)) as [E|E|E].
  - rewrite Z.max_r, Z.min_l by lia. split; apply m_self; auto.
  - rewrite Z.max_r, Z.min_l by lia. split; apply m_self; auto.
  - rewrite Z.max_l, Z.min_r by lia. split; apply m_self; auto.
Qed.
Lemma m_compare : forall sg x y, wf x -> wf y ->
  meets eq (Done (number sg x =? number sg y)) (equal sg x y) /\ meets eq (Done (number sg x <? number sg y)) (ord_lt sg x y) /\
  meets eq (Done (number sg x <=? number sg y)) (ord_le sg x y).
Proof.
  intros sg x y Hx Hy. unfold equal, ord_lt, ord_le. rewrite (derived_eq_ok HV), (lt_const_ok HV), (le_const_ok HV) by auto.
  split; [|split]; eexists; (split; [reflexivity|]); auto.
  destruct (Z.eqb_spec (uval x) (uval y)) as [E|E].
  - apply (uval_inj HV) in E; auto. subst. apply Z.eqb_refl.
  - apply Z.eqb_neq. intros E'. apply (val_inj HV) in E'; auto. subst. contradiction.
Qed.
Lemma m_abs_diff : forall sg x y, wf x -> wf y -> meets (stands false) (Done (Z.abs (number sg x - number sg y))) (abs_diff sg x y).
Proof.
  intros sg x y Hx Hy. rewrite (abs_diff_ok HV) by auto. apply m_small. pose proof (number_range sg x Hx) as A. pose proof (number_range sg y Hy) as B.
  change (val sg) with (number sg). pose proof (pBh HV). pose proof (pBhalf HV). destruct sg; cbn [in_range] in *; unfold fits_s, fits_u in *; lia.
Qed.
Lemma m_midpoint : forall sg x y, wf x -> wf y -> meets (stands sg) (Done ((number sg x + number sg y) / 2)) (if sg then fix_s_midpoint x y else u_midpoint x y).
Proof.
  intros sg x y Hx Hy. destruct sg.
  - destruct (C86_midpoint c x y HV Hx Hy) as (r & E & Hr & V). exists r. split; auto. split; auto.
  - rewrite (u_midpoint_ok HV) by auto. apply m_small. cbn [in_range number]. pose proof (uval_range HV x Hx). pose proof (uval_range HV y Hy). unfold fits_u in *.
    split; [apply Z.div_pos|apply Z.div_lt_upper_bound]; lia.
Qed.

Lemma tq_of : forall sg v w, (w =? 0) || min_m1 BITS sg v w = false -> (sg = false -> 0 <= v /\ 0 <= w) ->
  tq v w = Some (Z.quot v w) /\ tr v w = Some (Z.rem v w) /\ teq sg v w = Some (Z.sgn w * (v / Z.abs w)) /\ ter sg v w = Some (v mod Z.abs w) /\
  option_map (fl_of v w) (tdiv v w) = Some (v / w) /\ option_map (ce_of v w) (tdiv v w) = Some (- (- v / w)).
Proof.
  intros sg v w H NN. apply orb_false_iff in H. destruct H as (H & _). apply Z.eqb_neq in H.
  rewrite tq_nz, tr_nz by auto. destruct (teq_nz sg v w H NN) as (-> & ->). rewrite tdiv_nz by auto. cbn [option_map].
  rewrite floor_num, ceil_num by auto. auto 7.
Qed.
Lemma zero_panics : forall sg v w, w = 0 -> tq v w = None /\ tr v w = None /\ teq sg v w = None /\ ter sg v w = None /\ tdiv v w = None.
Proof. intros sg v w ->. unfold tq, tr, teq, ter, tq, tr, tdiv. cbn. destruct sg; auto. Qed.

Theorem corrected_faithful : faithful corrected sure.
Proof.
  pose proof (fix_wrapping_div_rem_ok HV) as Hdr.
  split; [exact lit_meets|split].
  - intros sg o x P Hx v. cbn [unless bad1 sure]. destruct o as [| | | | | | |k|k|e]; cbn [exact1 run1 corrected proper1 ty1] in *; try subst sg.
    + rewrite (op_neg_ok HV) by auto. apply m_if.
    + apply m_not; auto.
    + unfold fix_s_abs. pose proof (m_if true (Z.abs v)) as M. rewrite (s_wrapping_abs_ok HV), (s_checked_abs_ok HV), unwrap_some_if by auto.
      unfold ok_if. change (sval x) with v. destruct chk, (fitsb true (Z.abs v)); exact M.
    + rewrite (unsigned_abs_ok HV) by auto. apply m_small. pose proof (sval_range HV x Hx). pose proof (pBh HV). pose proof (pBhalf HV). unfold v.
      cbn [in_range number]. unfold fits_s, fits_u in *. lia.
    + rewrite (signum_ok HV) by auto. apply m_small. pose proof (pBh HV). pose proof (pB_big HV). cbn [in_range]. unfold fits_s. destruct v; cbn; lia.
    + apply m_cast; auto.
    + assert (E : (if sg then u_try_from_signed x else fix_s_try_from_unsigned x) = Ok (if fitsb (negb sg) v then Some x else None)).
      { destruct sg; unfold v; cbn [number negb].
        - rewrite (u_try_from_signed_ok HV) by auto. pose proof (sval_range HV x Hx) as R. pose proof (pBhalf HV). unfold fits_s in R.
          unfold fitsb, in_u. destruct (Z.leb_spec 0 (sval x)); cbn [andb]; [|reflexivity]. destruct (Z.ltb_spec (sval x) (2 ^ BITS)); [reflexivity|lia].
        - destruct (C86_try_from c x HV Hx) as [(R & r & E & Hr & V)|(R & E)]; rewrite E.
          + assert (F : fitsb true (uval x) = true) by (apply fitsb_spec; exact R). rewrite F. f_equal. f_equal. apply (val_inj HV true); auto.
            change (val true r) with (number true r). rewrite V. symmetry. apply (try_range false); auto.
          + destruct (fitsb true (uval x)) eqn:F; auto. apply fitsb_spec in F. contradiction. }
      rewrite E. apply m_try; auto.
    + apply m_shl; auto. unfold fix_op_shl. rewrite (fix_amount_ok HV false 128) by (try lia; unfold fits_u; lia). pose proof (BITS_pos HV).
      destruct (chk && negb ((0 <=? k) && (k <? BITS))); [reflexivity|]. cbn [bind]. rewrite (wrapping_shl_ok HV) by auto. reflexivity.
    + apply m_shr; auto. unfold fix_op_shr. rewrite (fix_amount_ok HV false 128) by (try lia; unfold fits_u; lia).
      destruct (chk && negb ((0 <=? k) && (k <? BITS))); [reflexivity|]. cbn [bind]. rewrite (wrapping_shr_ok HV) by auto. reflexivity.
    + rewrite (m_pow_ok HV) by auto. apply m_if.
  - intros sg o x y Hx Hy v w. cbn [unless bad2 badc bado sure]. split; [|split; [|split]].
    + pose proof (rounding_values sg x y Hx Hy) as RV. cbv zeta in RV. fold v w in RV.
      assert (RF : forall u o m, ((w =? 0) || min_m1 BITS sg v w = false -> in_range sg u /\ o = Some u) ->
        (dnone sg v w = true -> m = Panic) -> (dnone sg v w = false -> m = lift1 o) ->
        meets (stands sg) (if (w =? 0) || min_m1 BITS sg v w then Panicked else Done u) m).
      { intros u o' m H1 H2 H3. rewrite dnone_split in *. destruct ((w =? 0) || min_m1 BITS sg v w); [apply H2; auto|].
        destruct (H1 eq_refl) as (R & ->). rewrite H3 by auto. apply m_small; auto. }
      assert (ZU : sg = false -> dnone sg v w = true -> w = 0).
      { intros -> H. unfold dnone, dovf in H. cbn [andb] in H. rewrite orb_false_r in H. apply Z.eqb_eq; auto. }
      assert (TQ : (w =? 0) || min_m1 BITS sg v w = false -> _) by (intros H; exact (tq_of sg v w H (proj2 (proj2 (proj2 (proj2 (proj2 (proj2 (proj2 (RV H)))))))))).
      destruct o; cbn [exact2 run2 corrected ty2].
      * rewrite (op_add_ok HV) by auto. apply m_if.
      * rewrite (op_sub_ok HV) by auto. apply m_if.
      * rewrite (m_op_mul_ok HV) by auto. apply m_if.
      * rewrite d_op_div_ok by (assumption || exact Hdr). apply m_div; auto.
      * rewrite d_op_rem_ok by (assumption || exact Hdr). apply m_rem; auto.
      * apply m_and; auto.
      * apply m_or; auto.
      * apply m_xor; auto.
      * apply m_shl; auto; [|apply raw_small; auto]. unfold fix_op_shl_self. rewrite (op_shl_big_ok HV) by auto. unfold w. rewrite raw_self, (andb_comm (0 <=? _)) by auto. reflexivity.
      * apply m_shr; auto; [|apply raw_small; auto]. unfold fix_op_shr_self. rewrite (op_shr_big_ok HV) by auto. unfold w. rewrite raw_self, (andb_comm (0 <=? _)) by auto. reflexivity.
      * apply (RF _ (teq sg v w)); [intros H; split; [apply RV; auto|apply TQ; auto]| |]; intros DN; destruct sg.
        -- unfold fix_s_div_euclid, refuse. rewrite (is_div_none_ok HV true) by auto. cbn [bind]. change (val true) with (number true). fold v w. rewrite DN. reflexivity.
        -- rewrite d_div_euclid_ok by (assumption || exact Hdr). unfold opd. change (val false) with (number false). fold v w. rewrite DN, andb_true_r.
           destruct (zero_panics false v w (ZU eq_refl DN)) as (Z1 & Z2 & Z3 & Z4 & Z5). rewrite Z3. destruct chk; reflexivity.
        -- unfold fix_s_div_euclid, refuse. rewrite (is_div_none_ok HV true) by auto. cbn [bind]. change (val true) with (number true). fold v w. rewrite DN.
           rewrite d_wrapping_div_euclid_ok by (assumption || exact Hdr). reflexivity.
        -- rewrite d_div_euclid_ok by (assumption || exact Hdr). unfold opd. change (val false) with (number false). fold v w. rewrite DN, andb_false_r. reflexivity.
      * apply (RF _ (ter sg v w)); [intros H; split; [apply RV; auto|apply TQ; auto]| |]; intros DN; destruct sg.
        -- unfold fix_s_rem_euclid, refuse. rewrite (is_div_none_ok HV true) by auto. cbn [bind]. change (val true) with (number true). fold v w. rewrite DN. reflexivity.
        -- rewrite d_rem_euclid_ok by (assumption || exact Hdr). unfold opd. change (val false) with (number false). fold v w. rewrite DN, andb_true_r.
           destruct (zero_panics false v w (ZU eq_refl DN)) as (Z1 & Z2 & Z3 & Z4 & Z5). rewrite Z4. destruct chk; reflexivity.
        -- unfold fix_s_rem_euclid, refuse. rewrite (is_div_none_ok HV true) by auto. cbn [bind]. change (val true) with (number true). fold v w. rewrite DN.
           rewrite d_wrapping_rem_euclid_ok by (assumption || exact Hdr). reflexivity.
        -- rewrite d_rem_euclid_ok by (assumption || exact Hdr). unfold opd. change (val false) with (number false). fold v w. rewrite DN, andb_false_r. reflexivity.
      * apply (RF _ (option_map (fl_of v w) (tdiv v w))); [intros H; split; [apply RV; auto|apply TQ; auto]| |]; intros DN; destruct sg.
        -- unfold fix_s_div_floor, refuse. rewrite (is_div_none_ok HV true) by auto. cbn [bind]. change (val true) with (number true). fold v w. rewrite DN. reflexivity.
        -- unfold d_u_div_floor. rewrite d_wrapping_div_ok by (assumption || exact Hdr). change (val false) with (number false). fold v w.
           destruct (zero_panics false v w (ZU eq_refl DN)) as (Z1 & Z2 & Z3 & Z4 & Z5). rewrite Z1. reflexivity.
        -- unfold fix_s_div_floor, refuse. rewrite (is_div_none_ok HV true) by auto. cbn [bind]. change (val true) with (number true). fold v w. rewrite DN.
           rewrite d_s_div_floor_ok by (assumption || exact Hdr). reflexivity.
        -- unfold d_u_div_floor. rewrite d_wrapping_div_ok by (assumption || exact Hdr). change (val false) with (number false). fold v w.
           assert (H : (w =? 0) || min_m1 BITS false v w = false) by exact DN. destruct (TQ H) as (-> & _ & _ & _ & -> & _).
           destruct (RV H) as (_ & _ & _ & _ & _ & _ & (W0 & _) & NN). destruct (NN eq_refl). rewrite Z.quot_div_nonneg by lia. reflexivity.
      * apply (RF _ (option_map (ce_of v w) (tdiv v w))); [intros H; split; [apply RV; auto|apply TQ; auto]| |]; intros DN; destruct sg.
        -- unfold fix_s_div_ceil, refuse. rewrite (is_div_none_ok HV true) by auto. cbn [bind]. change (val true) with (number true). fold v w. rewrite DN. reflexivity.
        -- rewrite d_u_div_ceil_ok by (assumption || exact Hdr). change (uval x) with v. change (uval y) with w.
           destruct (zero_panics false v w (ZU eq_refl DN)) as (Z1 & Z2 & Z3 & Z4 & Z5). rewrite Z5. reflexivity.
        -- unfold fix_s_div_ceil, refuse. rewrite (is_div_none_ok HV true) by auto. cbn [bind]. change (val true) with (number true). fold v w. rewrite DN.
           rewrite d_s_div_ceil_ok by (assumption || exact Hdr). reflexivity.
        -- rewrite d_u_div_ceil_ok by (assumption || exact Hdr). reflexivity.
      * apply m_midpoint; auto.
      * apply m_abs_diff; auto.
      * apply m_max; auto.
      * apply m_max; auto.
      * rewrite (wrapping_add_ok HV) by auto. apply m_wrap.
      * rewrite (wrapping_sub_ok HV) by auto. apply m_wrap.
      * rewrite (wrapping_mul_ok HV) by auto. apply m_wrap.
      * destruct sg; [rewrite (s_saturating_add_ok HV) by auto; apply (m_clamp true)|rewrite (u_saturating_add_ok HV) by auto; apply (m_clamp false)].
      * destruct sg; [rewrite (s_saturating_sub_ok HV) by auto; apply (m_clamp true)|rewrite (u_saturating_sub_ok HV) by auto; apply (m_clamp false)].
      * rewrite (m_saturating_mul_ok HV) by auto. apply m_clamp.
    + pose proof (rounding_values sg x y Hx Hy) as RV. cbv zeta in RV. fold v w in RV.
      assert (RF : forall u o, ((w =? 0) || min_m1 BITS sg v w = false -> in_range sg u /\ o = Some u) ->
        meets (opt_rel (stands sg)) (dividing BITS sg v w u) (chko sg v w o)).
      { intros u o' H. apply m_refuse; [|tauto]. destruct ((w =? 0) || min_m1 BITS sg v w); [right; auto|left; tauto]. }
      assert (TQ : (w =? 0) || min_m1 BITS sg v w = false -> _) by (intros H; exact (tq_of sg v w H (proj2 (proj2 (proj2 (proj2 (proj2 (proj2 (proj2 (RV H)))))))))).
      intros []; cbn [exactc runc corrected].
      * rewrite (checked_add_ok HV) by auto. apply m_if_some.
      * rewrite (checked_sub_ok HV) by auto. apply m_if_some.
      * rewrite (m_checked_mul_ok HV) by auto. unfold nof. rewrite negb_involutive. apply m_if_some.
      * rewrite d_checked_div_ok by (assumption || exact Hdr). apply RF. intros H. split; [apply RV|apply TQ]; auto.
      * rewrite d_checked_rem_ok by (assumption || exact Hdr). apply RF. intros H. split; [apply RV|apply TQ]; auto.
      * rewrite d_checked_div_euclid_ok by (assumption || exact Hdr). apply RF. intros H. split; [apply RV|apply TQ]; auto.
      * rewrite d_checked_rem_euclid_ok by (assumption || exact Hdr). apply RF. intros H. split; [apply RV|apply TQ]; auto.
    + intros []; cbn [exacto runo corrected]; [rewrite (overflowing_add_ok HV) by auto|rewrite (overflowing_sub_ok HV) by auto|rewrite (m_overflowing_mul_ok HV) by auto]; apply m_flag.
    + apply m_compare; auto.
Qed.

End P.
