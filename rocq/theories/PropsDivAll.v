(** * Every division form, decided

    C07-C14 prove the division forms exact under [exact_division] and refute them without
    it.  Here: for each form exactly when its answer is right, and what it does
    otherwise. *)

Require Import ZArith List Bool Lia.
From Verif Require Import Prim Spec Facts MAdd MMul MShift MCore PCore PBits PWide MArith PArith PArith2 PPow PMisc PBits2 PRet
  MDiv DivSpec PDiv PKnuth PDivFull PDivExact MApi PApi PApi2 PApi3 PropsDiv.
Import ListNotations.
Local Open Scope Z_scope.

(** ** Vocabulary *)
Section Vocabulary.
Context {c : Cfg}.
Definition num (sg : bool) (x : list Z) : Z := if sg then sval x else uval x.
(** the call returns [v] *)
Definition right (sg : bool) (m : res (list Z)) (v : Z) : Prop := exists r, m = Ok r /\ wf r /\ num sg r = v.
(** the division by [y] panics: a correction with a divisor that fills all limbs *)
Definition division_fails (x y : Z) : Prop :=
  2 ^ (BITS - W) <= Z.abs y < Z.abs x /\ has_correction W (Z.abs x) (Z.abs y) = true.
Definition exact (x y : Z) : Prop := exact_division W N (Z.abs x) (Z.abs y).
(** neither a zero divisor nor MIN / -1 *)
Definition divisible (sg : bool) (x y : Z) : Prop := y <> 0 /\ ~ (sg = true /\ x = - 2 ^ (BITS - 1) /\ y = -1).
End Vocabulary.

(** the number inside an [Option] or beside a clear flag *)
Definition of_option {A} (m : res (option A)) : res A := let* o := m in match o with Some a => Ok a | None => Panic end.
Definition of_flag {A} (m : res (A * bool)) : res A := let* (a, f) := m in if (f : bool) then Panic else Ok a.

Section Forms.
Context {c : Cfg}.
Inductive variant := Wrapping | Operator | Checked | Strict | Overflowing.
Definition quotient (f : variant) (sg : bool) (x y : list Z) : res (list Z) :=
  match f with
  | Wrapping => wrapping_div sg x y | Operator => op_div sg x y | Checked => of_option (checked_div sg x y)
  | Strict => strict_div sg x y | Overflowing => of_flag (overflowing_div sg x y) end.
Definition remainder (f : variant) (sg : bool) (x y : list Z) : res (list Z) :=
  match f with
  | Wrapping => wrapping_rem sg x y | Operator => op_rem sg x y | Checked => of_option (checked_rem sg x y)
  | Strict => strict_rem sg x y | Overflowing => of_flag (overflowing_rem sg x y) end.
Definition euclid_quotient (f : variant) (sg : bool) (x y : list Z) : res (list Z) :=
  match f with
  | Wrapping => wrapping_div_euclid sg x y | Operator => div_euclid sg x y | Checked => of_option (checked_div_euclid sg x y)
  | Strict => strict_div_euclid sg x y | Overflowing => of_flag (overflowing_div_euclid sg x y) end.
Definition euclid_remainder (f : variant) (sg : bool) (x y : list Z) : res (list Z) :=
  match f with
  | Wrapping => wrapping_rem_euclid sg x y | Operator => rem_euclid sg x y | Checked => of_option (checked_rem_euclid sg x y)
  | Strict => strict_rem_euclid sg x y | Overflowing => of_flag (overflowing_rem_euclid sg x y) end.
End Forms.

(** ** Proofs *)
Section P.
Context {c : Cfg}.
Hypothesis HV : Valid.

Lemma num_val : forall sg x, num sg x = val sg x. Proof. reflexivity. Qed.
Lemma no_dnone : forall sg x y, divisible sg x y -> dnone sg x y = false /\ dovf sg x y = false.
Proof.
  intros [] x y (H0 & H1).
  - assert (H : ~ (x = - 2 ^ (BITS - 1) /\ y = -1)) by tauto. rewrite dnone_no, dovf_no by auto. auto.
  - rewrite dnone_u. split; [apply Z.eqb_neq; auto|reflexivity].
Qed.
Lemma o_opt : forall o, of_option (lift_o o) = lift1 o. Proof. destruct o; reflexivity. Qed.
Lemma o_flag : forall o, of_flag (lift_f o) = lift1 o. Proof. destruct o; reflexivity. Qed.
Ltac form f L1 L2 L3 L4 L5 Hx Hy D1 D2 :=
  destruct f; cbn; [rewrite L1 by auto|rewrite L2 by auto; unfold opd; rewrite D1, andb_false_r|rewrite L3 by auto; unfold chko; rewrite D1, o_opt|rewrite L4 by auto; rewrite D1|rewrite L5 by auto; rewrite D2, o_flag]; reflexivity.
Lemma quotient_eq : forall f sg x y, wf x -> wf y -> divisible sg (val sg x) (val sg y) -> quotient f sg x y = lift1 (sq (val sg x) (val sg y)).
Proof.
  intros f sg x y Hx Hy D. destruct (no_dnone sg _ _ D) as (D1 & D2).
  form f (wrapping_div_ok HV) (op_div_ok HV) (checked_div_ok HV) (strict_div_ok HV) (overflowing_div_ok HV) Hx Hy D1 D2.
Qed.
Lemma remainder_eq : forall f sg x y, wf x -> wf y -> divisible sg (val sg x) (val sg y) -> remainder f sg x y = lift1 (sr (val sg x) (val sg y)).
Proof.
  intros f sg x y Hx Hy D. destruct (no_dnone sg _ _ D) as (D1 & D2).
  form f (wrapping_rem_ok HV) (op_rem_ok HV) (checked_rem_ok HV) (strict_rem_ok HV) (overflowing_rem_ok HV) Hx Hy D1 D2.
Qed.
Lemma equotient_eq : forall f sg x y, wf x -> wf y -> divisible sg (val sg x) (val sg y) -> euclid_quotient f sg x y = lift1 (esq sg (val sg x) (val sg y)).
Proof.
  intros f sg x y Hx Hy D. destruct (no_dnone sg _ _ D) as (D1 & D2).
  form f (wrapping_div_euclid_ok HV) (div_euclid_ok HV) (checked_div_euclid_ok HV) (strict_div_euclid_ok HV) (overflowing_div_euclid_ok HV) Hx Hy D1 D2.
Qed.
Lemma eremainder_eq : forall f sg x y, wf x -> wf y -> divisible sg (val sg x) (val sg y) -> euclid_remainder f sg x y = lift1 (esr sg (val sg x) (val sg y)).
Proof.
  intros f sg x y Hx Hy D. destruct (no_dnone sg _ _ D) as (D1 & D2).
  form f (wrapping_rem_euclid_ok HV) (rem_euclid_ok HV) (checked_rem_euclid_ok HV) (strict_rem_euclid_ok HV) (overflowing_rem_euclid_ok HV) Hx Hy D1 D2.
Qed.

(** a stray carry is larger than the divisor *)
Lemma fold_stray_gt : forall w n s M f y l, 0 <= w -> 0 <= s -> y < 2 ^ (w * Z.of_nat n - s) -> 0 <= w * Z.of_nat n - s ->
  let t := fold_right (fun j acc => (if f j && (j + n <? M)%nat then 2 ^ (w * Z.of_nat (j + n) - s) else 0) + acc) 0 l in t = 0 \/ y < t.
Proof.
  intros w n s M f y l Hw Hs Hy Hn. induction l as [|j l IH]; cbn [fold_right]; [auto|]. cbv zeta in *.
  pose proof (fold_stray_le w n s M f l Hw) as P. set (t := fold_right _ 0 l) in *. destruct (f j && _); [|rewrite Z.add_0_l; exact IH]. right.
  assert (2 ^ (w * Z.of_nat n - s) <= 2 ^ (w * Z.of_nat (j + n) - s)) by (apply Z.pow_le_mono_r; nia). lia.
Qed.
Lemma stray_gt : forall M x y, 0 < y -> stray W M x y = 0 \/ y < stray W M x y.
Proof.
  intros M x y Hy. unfold stray. cbv zeta. assert (W1 : 1 <= W) by (destruct (W_cases HV); lia). pose proof (norm_shift_nonneg W y W1) as S0. pose proof (limbs_of_pos W y W1) as L1.
  assert (E : W * Z.of_nat (Z.to_nat (limbs_of W y)) - norm_shift W y = Z.succ (Z.log2 y)) by (unfold norm_shift; rewrite Z2Nat.id by lia; lia).
  apply fold_stray_gt; try lia.
  - rewrite E. apply Z.log2_spec. lia.
  - rewrite E. pose proof (Z.log2_nonneg y). lia.
Qed.

(** The three outcomes. *)
Lemma outcomes : forall x y, y <> 0 ->
  (division_fails x y /\ ~ exact x y /\ soutcome x y = None) \/
  (~ division_fails x y /\ exact x y /\ soutcome x y = Some (Z.quot x y, Z.rem x y)) \/
  (~ division_fails x y /\ ~ exact x y /\ exists t, Z.abs y < t /\ t = stray W N (Z.abs x) (Z.abs y) /\
     soutcome x y = Some (Z.quot x y, if x <? 0 then Z.rem x y - t else Z.rem x y + t)).
Proof.
  intros x y Hy. assert (Py : 0 < Z.abs y) by lia. assert (Px : 0 <= Z.abs x) by lia. destruct (quot_rem_signs x y Hy) as (EQ & ER).
  assert (DF : division_fails x y <-> div_outcome W N (Z.abs x) (Z.abs y) = None) by (unfold division_fails; rewrite (outcome_none HV) by auto; tauto).
  assert (DE : exact x y <-> div_outcome W N (Z.abs x) (Z.abs y) = Some (Z.abs x / Z.abs y, Z.abs x mod Z.abs y)).
  { split; [apply outcome_exact; auto|apply outcome_exact_inv; auto]. }
  unfold soutcome. destruct (div_outcome W N (Z.abs x) (Z.abs y)) as [[q r]|] eqn:E.
  - destruct (outcome_some (Z.abs x) (Z.abs y) q r Px Py E) as (-> & R). right. destruct (Z.eq_dec r (Z.abs x mod Z.abs y)) as [->|NE].
    + left. split; [rewrite DF; discriminate|]. split; [apply DE; reflexivity|]. rewrite EQ, ER. reflexivity.
    + right. destruct R as [R|(_ & _ & _ & R)]; [contradiction|]. split; [rewrite DF; discriminate|]. split; [rewrite DE; congruence|].
      exists (stray W N (Z.abs x) (Z.abs y)). destruct (stray_gt N (Z.abs x) (Z.abs y) Py) as [Z0|G]; [lia|]. split; [exact G|]. split; [reflexivity|].
      rewrite EQ, ER, R. destruct (x <? 0); f_equal; f_equal; lia.
  - left. split; [apply DF; reflexivity|]. split; [rewrite DE; discriminate|reflexivity].
Qed.
Lemma right_lift : forall sg v u, fits sg u -> (right sg (lift1 (Some v)) u <-> v mod 2 ^ BITS = u mod 2 ^ BITS).
Proof.
  intros sg v u Hu. cbn [lift1]. split.
  - intros (r & E & Wr & V). inversion E; subst r. rewrite num_val in V. pose proof (pB HV) as PB. rewrite <- V. rewrite (val_ofZ HV). destruct sg; cbn [wrapz].
    + rewrite swrap_mod by (pose proof (BITS_pos HV); lia). reflexivity.
    + rewrite Z.mod_mod by lia. reflexivity.
  - intro E. exists (ofZ v). split; [reflexivity|]. split; [apply (wf_ofZ HV)|]. rewrite num_val. rewrite (ofZ_eq_mod HV v u E). apply (val_ofZ_small HV); auto.
Qed.
Lemma right_none : forall sg u, ~ right sg (lift1 None) u.
Proof. intros sg u (r & E & _). discriminate. Qed.
Lemma near_neq : forall a b, 0 < Z.abs (a - b) < 2 ^ BITS -> a mod 2 ^ BITS <> b mod 2 ^ BITS.
Proof.
  intros a b H E. pose proof (pB HV) as PB. assert (D : (a - b) mod 2 ^ BITS = 0) by (rewrite Zminus_mod, E, Z.sub_diag; apply Z.mod_0_l; lia).
  apply Z.mod_divide in D; [|lia]. destruct D as (k & D). rewrite D in H. destruct (Z.eq_dec k 0) as [->|]; [lia|]. nia.
Qed.

Lemma t_small : forall x y t, t = stray W N x y -> t < 2 ^ BITS.
Proof.
  intros x y t ->. assert (W1 : 1 <= W) by (destruct (W_cases HV); lia). pose proof (stray_lt W N x y W1) as L. rewrite (topexp' HV) in L.
  destruct (ptop HV) as (P & Q). pose proof (pBhalf HV). lia.
Qed.
Lemma fits_range : forall sg x, wf x -> - 2 ^ (BITS - 1) <= num sg x < 2 ^ BITS /\ (sg = false -> 0 <= num sg x).
Proof.
  intros [] x Hx; cbn [num].
  - pose proof (sval_range HV x Hx) as R. unfold fits_s in R. pose proof (pBhalf HV). pose proof (pBh HV). split; [lia|discriminate].
  - pose proof (uval_range HV x Hx). pose proof (pBh HV). split; [lia|]. lia.
Qed.
Lemma quot_in : forall sg x y, wf x -> wf y -> divisible sg (num sg x) (num sg y) -> fits sg (Z.quot (num sg x) (num sg y)).
Proof.
  intros [] x y Hx Hy (H0 & H1); cbn [num fits] in *.
  - apply (quot_fits HV); [apply (sval_range HV); auto|apply (sval_range HV); auto|auto|tauto].
  - pose proof (uval_range HV x Hx). pose proof (uval_range HV y Hy). rewrite Z.quot_div_nonneg by lia. apply (divmod_fits HV); auto.
Qed.
Lemma rem_in : forall sg x y, wf x -> wf y -> num sg y <> 0 -> fits sg (Z.rem (num sg x) (num sg y)).
Proof.
  intros [] x y Hx Hy H0; cbn [num fits] in *.
  - apply rem_fits; auto. apply (sval_range HV); auto.
  - pose proof (uval_range HV x Hx). pose proof (uval_range HV y Hy). rewrite Z.rem_mod_nonneg by lia. apply (divmod_fits HV); auto.
Qed.
Lemma rem_x_sign : forall x y, y <> 0 -> Z.abs (Z.rem x y) < Z.abs y /\ (0 <= x -> 0 <= Z.rem x y) /\ (x <= 0 -> Z.rem x y <= 0).
Proof.
  intros x y Hy. split; [apply Z.rem_bound_abs; auto|]. split; intro H.
  - apply Z.rem_nonneg; auto.
  - pose proof (Z.rem_nonneg (- x) y Hy ltac:(lia)) as P. rewrite Z.rem_opp_l in P by auto. lia.
Qed.
End P.

(** ** C76 *)

(** Quotients: right whenever the division does not panic. *)
Theorem C76_quotient : forall (c : Cfg) f sg x y, Valid -> wf x -> wf y -> divisible sg (num sg x) (num sg y) ->
  (division_fails (num sg x) (num sg y) -> quotient f sg x y = Panic) /\
  (~ division_fails (num sg x) (num sg y) -> right sg (quotient f sg x y) (Z.quot (num sg x) (num sg y))).
Proof.
  intros c f sg x y HV Hx Hy D. rewrite (quotient_eq HV) by auto. change (val sg x) with (num sg x). change (val sg y) with (num sg y).
  unfold sq. destruct (outcomes HV (num sg x) (num sg y) (proj1 D)) as [(F & NE & ->)|[(F & E & ->)|(F & NE & t & Ht & Et & ->)]]; cbn [option_map fst]; (split; [tauto|]); intro; try contradiction;
  apply (right_lift HV); auto; apply (quot_in HV); auto.
Qed.
(** Remainders: right exactly in the exact divisions; otherwise a panic, or the remainder
    is off, away from zero, by more than the divisor. *)
Theorem C76_remainder : forall (c : Cfg) f sg x y, Valid -> wf x -> wf y -> divisible sg (num sg x) (num sg y) ->
  let r := Z.rem (num sg x) (num sg y) in
  (right sg (remainder f sg x y) r <-> exact (num sg x) (num sg y)) /\
  (division_fails (num sg x) (num sg y) -> remainder f sg x y = Panic) /\
  (~ division_fails (num sg x) (num sg y) -> ~ exact (num sg x) (num sg y) ->
     exists r', right sg (remainder f sg x y) r' /\ Z.abs r + Z.abs (num sg y) < Z.abs r' /\ (num sg x < 0 <-> r' < 0)).
Proof.
  intros c f sg x y HV Hx Hy D r. rewrite (remainder_eq HV) by auto. change (val sg x) with (num sg x). change (val sg y) with (num sg y).
  pose proof (rem_in HV sg x y Hx Hy (proj1 D)) as FR. fold r in FR. destruct (rem_x_sign (num sg x) (num sg y) (proj1 D)) as (RA & RP & RN). fold r in RA, RP, RN.
  unfold sr. destruct (outcomes HV (num sg x) (num sg y) (proj1 D)) as [(F & NE & ->)|[(F & E & ->)|(F & NE & t & Ht & Et & EO)]].
  - cbn [option_map snd]. split; [|split; [reflexivity|tauto]]. split; [intro H; apply right_none in H; contradiction|contradiction].
  - cbn [option_map snd]. fold r. split; [|split; tauto]. split; [auto|]. intros _. apply (right_lift HV); auto.
  - assert (FT : fits sg (if num sg x <? 0 then r - t else r + t)).
    { destruct sg; cbn [num fits] in *.
      - apply (soutcome_rfits HV _ _ _ _ (sval_range HV x Hx) (sval_range HV y Hy) EO).
      - pose proof (uval_range HV x Hx) as Rx. pose proof (uval_range HV y Hy) as Ry. rewrite soutcome_u in EO by lia. apply (outcome_range HV _ _ _ _ Rx Ry EO). }
    rewrite EO. cbn [option_map snd]. fold r. pose proof (t_small HV _ _ _ Et) as TS. split; [|split; [tauto|]].
    + split; [|contradiction]. intro H. exfalso. apply (right_lift HV) in H; auto. revert H. apply (near_neq HV). destruct (num sg x <? 0); lia.
    + intros _ _. exists (if num sg x <? 0 then r - t else r + t). split; [apply (right_lift HV); auto|].
      destruct (Z.ltb_spec (num sg x) 0); lia.
Qed.
(** Euclidean quotients: right unless the division panics or a stray carry makes an exact
    quotient of a negative number look inexact. *)
Theorem C76_euclid_quotient : forall (c : Cfg) f sg x y, Valid -> wf x -> wf y -> divisible sg (num sg x) (num sg y) ->
  (right sg (euclid_quotient f sg x y) (Z.sgn (num sg y) * (num sg x / Z.abs (num sg y))) <->
   ~ division_fails (num sg x) (num sg y) /\ (exact (num sg x) (num sg y) \/ 0 <= num sg x \/ Z.rem (num sg x) (num sg y) <> 0)).
Proof.
  intros c f sg x y HV Hx Hy D. rewrite (equotient_eq HV) by auto. change (val sg x) with (num sg x). change (val sg y) with (num sg y).
  destruct (fits_range HV sg x Hx) as (Rx & Ux). destruct (fits_range HV sg y Hy) as (Ry & Uy). destruct (rem_x_sign (num sg x) (num sg y) (proj1 D)) as (RA & RP & RN).
  destruct (euclid_num (num sg x) (num sg y) (proj1 D)) as (EQ & _). unfold eq_of in EQ. cbn [fst snd] in EQ.
  assert (FE : fits sg (Z.sgn (num sg y) * (num sg x / Z.abs (num sg y)))).
  { destruct sg; cbn [num fits] in *.
    - destruct D as (H0 & H1). apply (ediv_fits HV); [apply (sval_range HV); auto|apply (sval_range HV); auto|auto|tauto].
    - destruct D as (H0 & _). pose proof (uval_range HV x Hx). pose proof (uval_range HV y Hy). cbn [num] in H0. rewrite Z.sgn_pos by lia. rewrite Z.mul_1_l, Z.abs_eq by lia. apply (divmod_fits HV); auto. }
  assert (UE : esq sg (num sg x) (num sg y) = option_map (eq_of (num sg y)) (soutcome (num sg x) (num sg y))).
  { destruct sg; [reflexivity|]. unfold esq, sq. destruct (soutcome _ _) as [[q r]|] eqn:O; [|reflexivity]. cbn [option_map]. unfold eq_of. cbn [fst snd].
    pose proof (uval_range HV x Hx) as Rx'. pose proof (uval_range HV y Hy) as Ry'. cbn [num] in *. rewrite soutcome_u in O by lia. destruct (outcome_range HV _ _ _ _ Rx' Ry' O) as (R & _).
    destruct (Z.ltb_spec r 0); [lia|reflexivity]. }
  rewrite UE. destruct (outcomes HV (num sg x) (num sg y) (proj1 D)) as [(F & NE & ->)|[(F & E & ->)|(F & NE & t & Ht & Et & ->)]]; cbn [option_map].
  - split; [intro H; apply right_none in H; contradiction|tauto].
  - split; [auto|]. intros _. apply (right_lift HV); auto. unfold eq_of. cbn [fst snd]. rewrite EQ. reflexivity.
  - unfold eq_of. cbn [fst snd]. rewrite <- EQ in *. clear EQ. destruct D as (H0 & _). pose proof (BITS_ge HV) as BG. assert (B2 : 2 < 2 ^ BITS) by (change 2 with (2 ^ 1) at 1; apply Z.pow_lt_mono_r; lia).
    rewrite (right_lift HV) by auto.
    set (q := Z.quot (num sg x) (num sg y)) in *. set (r := Z.rem (num sg x) (num sg y)) in *. clearbody q r.
    destruct (Z.ltb_spec (num sg x) 0) as [L|L].
    + destruct (Z.ltb_spec (r - t) 0); [|lia]. destruct (Z.ltb_spec r 0).
      * split; [intros _; split; [auto|]; right; right; lia|reflexivity].
      * split; [intro H2; exfalso; revert H2; apply (near_neq HV); destruct (0 <? num sg y); lia|]. intros (_ & [H2|[H2|H2]]); [contradiction|lia|lia].
    + destruct (Z.ltb_spec (r + t) 0); [lia|]. destruct (Z.ltb_spec r 0); [lia|]. split; [intros _; split; auto|reflexivity].
Qed.
(** Euclidean remainders: right exactly in the exact divisions. *)
Theorem C76_euclid_remainder : forall (c : Cfg) f sg x y, Valid -> wf x -> wf y -> divisible sg (num sg x) (num sg y) ->
  (right sg (euclid_remainder f sg x y) (num sg x mod Z.abs (num sg y)) <-> exact (num sg x) (num sg y)).
Proof.
  intros c f sg x y HV Hx Hy D. rewrite (eremainder_eq HV) by auto. change (val sg x) with (num sg x). change (val sg y) with (num sg y).
  destruct (fits_range HV sg x Hx) as (Rx & Ux). destruct (fits_range HV sg y Hy) as (Ry & Uy). destruct (rem_x_sign (num sg x) (num sg y) (proj1 D)) as (RA & RP & RN).
  destruct (euclid_num (num sg x) (num sg y) (proj1 D)) as (_ & ER). unfold er_of in ER. cbn [fst snd] in ER.
  assert (FE : fits sg (num sg x mod Z.abs (num sg y))).
  { destruct D as (H0 & _). destruct sg; cbn [num fits] in *; [apply emod_fits; auto; apply (sval_range HV); auto|].
    pose proof (uval_range HV x Hx). pose proof (uval_range HV y Hy). rewrite Z.abs_eq by lia. apply (divmod_fits HV); auto. }
  assert (UE : esr sg (num sg x) (num sg y) = option_map (er_of (num sg y)) (soutcome (num sg x) (num sg y))).
  { destruct sg; [reflexivity|]. unfold esr, sr. destruct (soutcome _ _) as [[q r]|] eqn:O; [|reflexivity]. cbn [option_map]. unfold er_of. cbn [fst snd].
    pose proof (uval_range HV x Hx) as Rx'. pose proof (uval_range HV y Hy) as Ry'. cbn [num] in *. rewrite soutcome_u in O by lia. destruct (outcome_range HV _ _ _ _ Rx' Ry' O) as (R & _).
    destruct (Z.ltb_spec r 0); [lia|reflexivity]. }
  rewrite UE. destruct (outcomes HV (num sg x) (num sg y) (proj1 D)) as [(F & NE & ->)|[(F & E & ->)|(F & NE & t & Ht & Et & ->)]]; cbn [option_map].
  - split; [intro H; apply right_none in H; contradiction|tauto].
  - split; [auto|]. intros _. apply (right_lift HV); auto. unfold er_of. cbn [fst snd]. rewrite ER. reflexivity.
  - unfold er_of. cbn [fst snd]. rewrite <- ER in *. clear ER. pose proof (t_small HV _ _ _ Et) as TS. rewrite (right_lift HV) by auto.
    split; [|contradiction]. intro H2. exfalso. revert H2. apply (near_neq HV). destruct D as (H0 & _).
    set (r := Z.rem (num sg x) (num sg y)) in *. clearbody r.
    destruct (Z.ltb_spec (num sg x) 0) as [L|L].
    + destruct (Z.ltb_spec (r - t) 0); [|lia]. destruct (Z.ltb_spec r 0); lia.
    + destruct (Z.ltb_spec (r + t) 0); [lia|]. destruct (Z.ltb_spec r 0); lia.
Qed.
(** Rounding down and up. *)
Theorem C76_floor : forall (c : Cfg) sg x y, Valid -> wf x -> wf y -> divisible sg (num sg x) (num sg y) ->
  (right sg (if (sg : bool) then s_div_floor x y else u_div_floor x y) (num sg x / num sg y) <->
   ~ division_fails (num sg x) (num sg y) /\ (exact (num sg x) (num sg y) \/ (num sg x <? 0) = (num sg y <? 0) \/ Z.rem (num sg x) (num sg y) <> 0)).
Proof.
  intros c sg x y HV Hx Hy D. destruct D as (H0 & HM). destruct sg.
  - cbn [num] in *. rewrite (s_div_floor_ok HV) by auto. destruct (rem_x_sign (sval x) (sval y) H0) as (RA & RP & RN). pose proof (floor_num (sval x) (sval y) H0) as FN.
    assert (FE : fits true (sval x / sval y)) by (apply (floor_fits HV); [apply (sval_range HV); auto|apply (sval_range HV); auto|auto|tauto]).
    destruct (outcomes HV (sval x) (sval y) H0) as [(F & NE & ->)|[(F & E & ->)|(F & NE & t & Ht & Et & ->)]]; cbn [option_map].
    + split; [intro H; apply right_none in H; contradiction|tauto].
    + split; [auto|]. intros _. apply (right_lift HV true); auto. rewrite FN. reflexivity.
    + rewrite <- FN in *. clear FN. unfold fl_of in *. cbn [fst snd] in *. pose proof (BITS_ge HV) as BG. assert (B2 : 2 < 2 ^ BITS) by (change 2 with (2 ^ 1) at 1; apply Z.pow_lt_mono_r; lia).
      rewrite (right_lift HV true) by auto. set (q := Z.quot (sval x) (sval y)) in *. set (r := Z.rem (sval x) (sval y)) in *. clearbody q r.
      assert (N0 : ((if sval x <? 0 then r - t else r + t) =? 0) = false) by (apply Z.eqb_neq; destruct (Z.ltb_spec (sval x) 0); lia). rewrite N0.
      destruct (Z.eqb_spec r 0) as [Er|Er].
      * destruct (sval x <? 0) eqn:L1, (sval y <? 0) eqn:L2; cbn [xorb b2z];
          try (split; [intros _; auto|intros _; rewrite Z.sub_0_r; reflexivity]);
          (split; [intro H2; exfalso; revert H2; apply (near_neq HV); lia|intros (_ & [H2|[H2|H2]]); [contradiction|discriminate|contradiction]]).
      * split; [intros _; auto|reflexivity].
  - cbn [num] in *. change (u_div_floor x y) with (quotient Wrapping false x y). pose proof (uval_range HV x Hx) as Rx. pose proof (uval_range HV y Hy) as Ry.
    destruct (C76_quotient c Wrapping false x y HV Hx Hy (conj H0 HM)) as (P & Q). cbn [num] in P, Q. rewrite Z.quot_div_nonneg in Q by lia.
    split.
    + intro R. split.
      * intro F. rewrite (P F) in R. destruct R as (r & R & _). discriminate.
      * right. left. destruct (Z.ltb_spec (uval x) 0), (Z.ltb_spec (uval y) 0); auto; lia.
    + intros (F & _). auto.
Qed.
Theorem C76_ceil : forall (c : Cfg) sg x y, Valid -> wf x -> wf y -> divisible sg (num sg x) (num sg y) ->
  (right sg (if (sg : bool) then s_div_ceil x y else u_div_ceil x y) (- (- num sg x / num sg y)) <->
   ~ division_fails (num sg x) (num sg y) /\ (exact (num sg x) (num sg y) \/ (num sg x <? 0) <> (num sg y <? 0) \/ Z.rem (num sg x) (num sg y) <> 0)).
Proof.
  intros c sg x y HV Hx Hy (H0 & HM).
  assert (G : (if sg then s_div_ceil x y else u_div_ceil x y) = lift1 (option_map (ce_of (num sg x) (num sg y)) (soutcome (num sg x) (num sg y)))).
  { destruct sg; [apply (s_div_ceil_ok HV); auto|apply (u_div_ceil_ok HV); auto]. }
  rewrite G. clear G. destruct (rem_x_sign (num sg x) (num sg y) H0) as (RA & RP & RN). pose proof (ceil_num (num sg x) (num sg y) H0) as FN.
  assert (FE : fits sg (- (- num sg x / num sg y))).
  { destruct sg; cbn [num fits] in *.
    - apply (ceil_fits HV); [apply (sval_range HV); auto|apply (sval_range HV); auto|auto|tauto].
    - pose proof (uval_range HV x Hx). pose proof (uval_range HV y Hy). rewrite <- FN. unfold ce_of, fits_u. cbn [fst snd]. rewrite Z.quot_div_nonneg, Z.rem_mod_nonneg by lia.
      destruct (divmod_fits HV x y Hx H0 ltac:(lia)) as ((Q1 & Q2) & _). destruct (Z.eqb_spec (uval x mod uval y) 0); [lia|].
      destruct (Z.ltb_spec (uval x) 0); [lia|]. destruct (Z.ltb_spec (uval y) 0); [lia|]. cbn [xorb b2z].
      pose proof (Z.div_mod (uval x) (uval y) H0). assert (PY : 0 < uval y) by lia. pose proof (Z.mod_pos_bound (uval x) (uval y) PY). assert (1 < uval y) by lia. nia. }
  destruct (outcomes HV (num sg x) (num sg y) H0) as [(F & NE & ->)|[(F & E & ->)|(F & NE & t & Ht & Et & ->)]]; cbn [option_map].
  + split; [intro H; apply right_none in H; contradiction|tauto].
  + split; [auto|]. intros _. apply (right_lift HV); auto. rewrite FN. reflexivity.
  + rewrite <- FN in *. clear FN. unfold ce_of in *. cbn [fst snd] in *. pose proof (BITS_ge HV) as BG. assert (B2 : 2 < 2 ^ BITS) by (change 2 with (2 ^ 1) at 1; apply Z.pow_lt_mono_r; lia).
    rewrite (right_lift HV) by auto. set (q := Z.quot (num sg x) (num sg y)) in *. set (r := Z.rem (num sg x) (num sg y)) in *. clearbody q r.
    assert (N0 : ((if num sg x <? 0 then r - t else r + t) =? 0) = false) by (apply Z.eqb_neq; destruct (Z.ltb_spec (num sg x) 0); lia). rewrite N0.
    destruct (Z.eqb_spec r 0) as [Er|Er].
    * destruct (num sg x <? 0) eqn:L1, (num sg y <? 0) eqn:L2; cbn [xorb b2z];
        try (split; [intros _; split; [auto|right; left; discriminate]|intros _; f_equal; lia]);
        (split; [intro H2; exfalso; revert H2; apply (near_neq HV); lia|intros (_ & [H2|[H2|H2]]); [contradiction|congruence|contradiction]]).
    * split; [intros _; auto|reflexivity].
Qed.
(** Divisibility. *)
Theorem C76_is_multiple_of : forall (c : Cfg) x y, Valid -> wf x -> wf y -> uval y <> 0 ->
  (u_is_multiple_of x y = Ok (uval x mod uval y =? 0) <->
   ~ division_fails (uval x) (uval y) /\ (exact (uval x) (uval y) \/ uval x mod uval y <> 0)).
Proof.
  intros c x y HV Hx Hy H0. pose proof (uval_range HV x Hx) as Rx. pose proof (uval_range HV y Hy) as Ry.
  unfold u_is_multiple_of. rewrite (u_min_value_ok HV). cbn [bind]. rewrite (derived_eq_ok HV) by wfauto. rewrite (eqb0 HV false) by wfauto. cbn [val].
  destruct (Z.eqb_spec (uval y) 0); [contradiction|]. rewrite (wrapping_rem_ok HV false) by auto. cbn [val]. unfold sr.
  assert (PY : 0 < uval y) by lia. pose proof (Z.mod_pos_bound (uval x) (uval y) PY) as MB.
  destruct (outcomes HV (uval x) (uval y) H0) as [(F & NE & ->)|[(F & E & ->)|(F & NE & t & Ht & Et & EO)]].
  - cbn [option_map lift1 bind]. split; [discriminate|tauto].
  - cbn [option_map lift1 bind snd]. rewrite (eq_const_ok HV) by wfauto. rewrite Z.rem_mod_nonneg by lia. rewrite (eqb0 HV false) by wfauto.
    rewrite (val_ofZ_small HV false) by (apply fu; lia). tauto.
  - rewrite EO. cbn [option_map lift1 bind snd]. destruct (Z.ltb_spec (uval x) 0); [lia|]. rewrite Z.rem_mod_nonneg in * by lia.
    rewrite soutcome_u in EO by lia. destruct (outcome_range HV _ _ _ _ Rx Ry EO) as (RR & _).
    rewrite (eq_const_ok HV) by wfauto. rewrite (eqb0 HV false) by wfauto. rewrite (val_ofZ_small HV false) by (apply fu; lia).
    destruct (Z.eqb_spec (uval x mod uval y + t) 0); [lia|]. destruct (Z.eqb_spec (uval x mod uval y) 0).
    + split; [discriminate|]. intros (_ & [H1|H1]); contradiction.
    + split; [intros _; auto|reflexivity].
Qed.
(** The next multiple: outside the exact divisions a panic with overflow checks and
    never right without. *)
Theorem C76_next_multiple : forall (c : Cfg) x y, Valid -> wf x -> wf y -> uval y <> 0 -> ~ exact (uval x) (uval y) ->
  (chk = true -> u_next_multiple_of x y = Panic) /\
  (forall m, next_multiple (uval x) (uval y) m -> ~ right false (u_next_multiple_of x y) (m mod 2 ^ BITS)).
Proof.
  intros c x y HV Hx Hy H0 HE. pose proof (uval_range HV x Hx) as Rx. pose proof (uval_range HV y Hy) as Ry.
  unfold u_next_multiple_of. rewrite (op_rem_ok HV) by auto. cbn [val]. unfold opd. rewrite dnone_u. destruct (Z.eqb_spec (uval y) 0); [contradiction|]. rewrite andb_false_r. unfold sr.
  assert (PY : 0 < uval y) by lia. pose proof (Z.mod_pos_bound (uval x) (uval y) PY) as MB. pose proof (Z.div_mod (uval x) (uval y) H0) as DM. pose proof (pB HV) as PB.
  destruct (outcomes HV (uval x) (uval y) H0) as [(F & NE & ->)|[(F & E & ->)|(F & NE & t & Ht & Et & EO)]]; [|contradiction|].
  { cbn [option_map lift1 bind]. split; [reflexivity|]. intros m _ (r & E & _). discriminate. }
  pose proof (t_small HV _ _ _ Et) as TS.
  rewrite EO. cbn [option_map lift1 bind snd]. destruct (Z.ltb_spec (uval x) 0); [lia|]. rewrite Z.rem_mod_nonneg in * by lia. rewrite Z.abs_eq in Ht by lia.
  rewrite soutcome_u in EO by lia. destruct (outcome_range HV _ _ _ _ Rx Ry EO) as (RR & _).
  rewrite (u_min_value_ok HV). cbn [bind]. rewrite (derived_eq_ok HV) by wfauto. rewrite (eqb0 HV false) by wfauto. rewrite (val_ofZ_small HV false) by (apply fu; lia).
  destruct (Z.eqb_spec (uval x mod uval y + t) 0); [lia|]. rewrite (op_sub_ok HV) by wfauto. cbn [val].
  change (uval (ofZ (uval x mod uval y + t))) with (val false (ofZ (uval x mod uval y + t))). rewrite (val_ofZ_small HV false) by (apply fu; lia).
  set (d := uval y - (uval x mod uval y + t)). assert (ND : fitsb false d = false) by (destruct (fitsb_reflect false d) as [[Q _]|]; [lia|reflexivity]).
  unfold op_result at 1 2. rewrite ND. cbn [negb]. rewrite andb_true_r. destruct chk eqn:C; cbn [bind].
  { split; [reflexivity|]. intros m _ (r & E & _). discriminate. }
  split; [discriminate|]. intros m (Dv & M1 & _) R. rewrite (op_add_ok HV) in R by wfauto. unfold op_result in R. rewrite C in R. cbn [andb] in R.
  change (Ok (ofZ (val false x + val false (ofZ d)))) with (lift1 (Some (val false x + val false (ofZ d)))) in R.
  apply (right_lift HV) in R; [|apply Z.mod_pos_bound; lia]. rewrite Z.mod_mod in R by lia. rewrite (val_ofZ HV false) in R. cbn [val wrapz] in R. rewrite Z.add_mod_idemp_r in R by lia. revert R. apply (near_neq HV).
  specialize (M1 PY). destruct Dv as (k & ->). set (q := uval x / uval y) in *. set (r := uval x mod uval y) in *.
  assert (K : k * uval y = uval x + (uval y - r) \/ (r = 0 /\ k * uval y = uval x)).
  { destruct (Z.eq_dec r 0) as [Er|Er]; [right|left].
    - split; [auto|]. assert (k = q) by nia. nia.
    - assert (k = q + 1) by nia. nia. }
  unfold d. destruct K as [K|(Er & K)]; lia.
Qed.
(** Euclidean and rounding forms of -(q y) / y, a multiple: y two limbs, a correction needed. *)
Example C76_ex1 : let y := 2 ^ 126 + 2 ^ 63 - 1 in let q := (2 ^ 64 - 2) * 2 ^ 64 + 100 in
  divisible (c := c256_64) true (- (q * y)) y /\ ~ division_fails (c := c256_64) (- (q * y)) y /\ Z.rem (- (q * y)) y = 0 /\
  quotient (c := c256_64) Strict true (E64 (- (q * y))) (E64 y) = Ok (E64 (- q)) /\ euclid_quotient (c := c256_64) Checked true (E64 (- (q * y))) (E64 y) = Ok (E64 (- q - 1)) /\
  s_div_floor (c := c256_64) (E64 (- (q * y))) (E64 y) = Ok (E64 (- q - 1)) /\ s_div_ceil (c := c256_64) (E64 (- (q * y))) (E64 y) = Ok (E64 (- q)) /\
  u_is_multiple_of (c := c256_64) (E64 (q * y)) (E64 y) = Ok false.
Proof.
  cbv zeta. split; [split; [discriminate|intros (_ & _ & E); discriminate]|]. split; [intros ((A & _) & _); vm_compute in A; apply A; reflexivity|].
  split; [reflexivity|]. split; [vm_compute; reflexivity|]. split; [vm_compute; reflexivity|]. split; [vm_compute; reflexivity|]. split; vm_compute; reflexivity.
Qed.
(** A full divisor: every form panics. *)
Example C76_ex2 : division_fails (c := c256_64) (2 ^ 193 + 1) (2 ^ 192 + 1) /\ quotient (c := c256_64) Overflowing false (E64 (2 ^ 193 + 1)) (E64 (2 ^ 192 + 1)) = Panic /\
  remainder (c := c256_64) Checked false (E64 (2 ^ 193 + 1)) (E64 (2 ^ 192 + 1)) = Panic.
Proof. split; [split; [vm_compute; split; [discriminate|reflexivity]|vm_compute; reflexivity]|]. vm_compute. auto. Qed.

(** ** Assumptions (each must print "Closed under the global context") *)

Print Assumptions C76_quotient.
Print Assumptions C76_remainder.
Print Assumptions C76_euclid_quotient.
Print Assumptions C76_euclid_remainder.
Print Assumptions C76_floor.
Print Assumptions C76_ceil.
Print Assumptions C76_is_multiple_of.
Print Assumptions C76_next_multiple.
