(** * Properties: what a passing random test says (C94)

    PropsQuick.v decides the tests of devel/tests/ops.rs on this crate's
    operations.  Here the operation is a parameter: for every implementation,
    right or wrong, a test that answers [true] on all its inputs pins the
    operation down, and the division tests pin it down only on some divisors. *)

Require Import String ZArith List Bool Lia.
From Verif Require Import Prim Spec Facts MAdd MShift MCore PCore MArith PArith PArith2 PWide MDiv MApi MScalar MTraits MForms MLayout PLayout PRet MQuick PropsQuick.
Import ListNotations.
Local Open Scope Z_scope.

(** ** The spec: when two answers agree *)

(** the result has the 256-bit pattern of the number *)
Definition pattern {c : Cfg} (v : Z) (r : list Z) : Prop := uval r = v mod 2 ^ 256.
Definition both {A B} (R : A -> B -> Prop) (v : A * bool) (r : B * bool) : Prop := R (fst v) (fst r) /\ snd v = snd r.
Definition either {A B} (R : A -> B -> Prop) (v : option A) (r : option B) : Prop :=
  match v, r with Some v, Some r => R v r | None, None => True | _, _ => False end.
Definition if_some {A} (P : A -> Prop) (r : option A) : Prop := match r with Some r => P r | None => True end.
Definition equal_value {c : Cfg} (x y : list Z) : Prop := uval x = uval y.

(** A comparison never panics on results that satisfy [P], and answers [true]
    exactly on the pairs in [R]. *)
Definition decides {A B} (P : A -> B -> Prop) (R : A -> B -> Prop) (cmp : A -> B -> res bool) : Prop :=
  forall v r, P v r -> (cmp v r = Ok true /\ R v r) \/ (cmp v r = Ok false /\ ~ R v r).

(** The divisors that [guarded] lets through: neither 128-bit half is zero. *)
Definition let_through (y : Z) : Prop := y mod 2 ^ 128 <> 0 /\ y / 2 ^ 128 <> 0.

(** ** Proofs *)

Section S.
Context {c : Cfg}.
Hypothesis HV : Valid.
Hypothesis HB : BITS = 256.

Lemma decides_iff : forall A B P R (cmp : A -> B -> res bool) v r, decides P R cmp -> P v r -> (cmp v r = Ok true <-> R v r).
Proof. intros A B P R cmp v r D H. destruct (D v r H) as [(E & Q)|(E & Q)]; split; intros; congruence || tauto. Qed.

Lemma ofZ_uval_eq : forall x, wf x -> ofZ (uval x) = x.
Proof. intros x Hx. apply (uval_inj HV); auto; [apply (wf_ofZ HV)|]. rewrite (uval_ofZ HV). apply Z.mod_small. apply (uval_range HV); auto. Qed.
Lemma le32 : forall x, wf x -> to_le_bytes false x = Ok (le_bytes 32 (uval x)).
Proof. intros x Hx. rewrite <- (ofZ_uval_eq x Hx) at 1. apply le32_ofZ; auto. Qed.
Lemma le32_inj : forall a b, le_bytes 32 a = le_bytes 32 b <-> a mod 2 ^ 256 = b mod 2 ^ 256.
Proof.
  intros a b. rewrite !le_bytes_lenc. change 256 with (8 * Z.of_nat 32). split; intros H.
  - rewrite <- !(lval_lenc 8 32) by lia. rewrite H. reflexivity.
  - rewrite <- (lenc_mod 8 32 a), <- (lenc_mod 8 32 b) by lia. rewrite H. reflexivity.
Qed.
Lemma uval_small : forall x, wf x -> uval x mod 2 ^ 256 = uval x.
Proof. intros x Hx. apply Z.mod_small. rewrite <- HB. apply (uval_range HV); auto. Qed.
Lemma bytes_eqb_spec : forall a b, Bool.reflect (a = b) (bytes_eqb a b).
Proof. intros. unfold bytes_eqb. destruct (list_eq_dec _ _ _); constructor; auto. Qed.

Lemma same_wrap_decides : decides (fun _ r => wf r) pattern same_wrap.
Proof.
  intros v r Hr. unfold same_wrap, pattern. rewrite (le32 r Hr). cbn [bind].
  destruct (bytes_eqb_spec (le_bytes 32 v) (le_bytes 32 (uval r))) as [E|E]; rewrite le32_inj, (uval_small r Hr) in E; [left|right]; auto.
Qed.
Lemma over_decides : forall A B (P R : A -> B -> Prop) cmp, decides P R cmp ->
  decides (fun v r => P (fst v) (fst r)) (both R) (fun v r => let* e := cmp (fst v) (fst r) in Ok (e && eqb (snd v) (snd r))).
Proof.
  intros A B P R cmp D (v, f) (r, g) H. cbn [fst snd] in *. unfold both. cbn [fst snd].
  destruct (D v r H) as [(-> & Q)|(-> & Q)]; cbn [bind]; destruct f, g; cbn; intuition discriminate.
Qed.
Lemma check_decides : forall A B (P R : A -> B -> Prop) cmp, decides P R cmp ->
  decides (fun v r => match v, r with Some v, Some r => P v r | _, _ => True end) (either R)
    (fun v r => match v, r with Some v, Some r => cmp v r | None, None => Ok true | _, _ => Ok false end).
Proof. intros A B P R cmp D [v|] [r|] H; cbn; try tauto. apply D; auto. Qed.
Lemma ours_wrap_decides : decides (fun x y => wf x /\ wf y) equal_value ours_wrap.
Proof.
  intros x y (Hx & Hy). unfold ours_wrap, equal_value. rewrite (le32 x Hx), (le32 y Hy). cbn [bind].
  destruct (bytes_eqb_spec (le_bytes 32 (uval x)) (le_bytes 32 (uval y))) as [E|E]; rewrite le32_inj, (uval_small x Hx), (uval_small y Hy) in E; [left|right]; auto.
Qed.
Lemma ofZ_pattern : forall x r, wf x -> (uval x = uval (ofZ r) <-> pattern r x).
Proof. intros x r Hx. unfold pattern. rewrite (uval_ofZ HV), HB. tauto. Qed.
Lemma ours_rem_decides : forall ps k, decides (fun x r => wf x /\ sfits ps k r) (fun x r => pattern r x) (ours_rem ps k).
Proof.
  intros ps k x r (Hx & Hr). unfold ours_rem. rewrite (into_full_ok HV) by auto. cbn [bind]. rewrite <- ofZ_pattern by auto.
  unfold derived_eq. destruct (list_eq_dec _ _ _) as [E|E]; [left|right]; split; auto; [congruence|].
  intros F. apply E. apply (uval_inj HV); auto. apply (wf_ofZ HV).
Qed.
Lemma ours_rem_full_decides : forall ps k, decides (fun x r => wf x /\ sfits ps k r) (fun x r => pattern r x)
  (fun x r => let* r := into_full ps k r in ours_wrap x r).
Proof.
  intros ps k x r (Hx & Hr). rewrite (into_full_ok HV) by auto. cbn [bind]. rewrite <- ofZ_pattern by auto.
  apply ours_wrap_decides. split; auto. apply (wf_ofZ HV).
Qed.

Lemma split256 : forall sg x, wf x -> exists x0 x1, fits_u 128 x0 /\ half sg x1 /\ val sg x = num256 x0 x1 /\ x0 = val sg x mod 2 ^ 128 /\ x1 = val sg x / 2 ^ 128.
Proof.
  intros sg x Hx. exists (val sg x mod 2 ^ 128), (val sg x / 2 ^ 128). pose proof (Z.mod_pos_bound (val sg x) (2 ^ 128) ltac:(lia)) as M.
  pose proof (Z.div_mod (val sg x) (2 ^ 128) ltac:(lia)) as D. split; [exact M|]. split.
  - unfold half, fits_s, fits_u. destruct sg; cbn [val] in *.
    + pose proof (sval_range HV x Hx) as R. rewrite HB in R. change (256 - 1) with (128 + (128 - 1)) in R. rewrite Z.pow_add_r in R by lia.
      split; [apply Z.div_le_lower_bound|apply Z.div_lt_upper_bound]; lia.
    + pose proof (uval_range HV x Hx) as R. rewrite HB in R. change 256 with (128 + 128) in R. rewrite Z.pow_add_r in R by lia.
      split; [apply Z.div_pos|apply Z.div_lt_upper_bound]; lia.
  - split; [unfold num256; lia|auto].
Qed.
Lemma split_num : forall x0 x1, fits_u 128 x0 -> num256 x0 x1 mod 2 ^ 128 = x0 /\ num256 x0 x1 / 2 ^ 128 = x1.
Proof.
  intros x0 x1 H. unfold fits_u, num256 in *. split.
  - rewrite (Z.mul_comm _ x1), Z.mod_add by lia. apply Z.mod_small. lia.
  - rewrite (Z.mul_comm _ x1), Z.div_add by lia. rewrite Z.div_small by lia. lia.
Qed.
Lemma operand_back : forall sg x x0 x1, wf x -> fits_u 128 x0 -> half sg x1 -> val sg x = num256 x0 x1 -> operand sg x0 x1 = Ok x.
Proof.
  intros sg x x0 x1 Hx H0 H1 E. destruct (operand_val HV HB sg x0 x1 H0 H1) as (x' & -> & W' & V'). f_equal.
  apply (val_inj HV sg); auto. congruence.
Qed.
End S.

(** ** C94: a passing test pins the operation down *)

(** The comparisons against the other library (util.rs 76-154, 190-268): each
    answers [true] exactly when the results agree. *)
Theorem C94_comparisons : forall (c : Cfg), Valid -> BITS = 256 ->
  decides (fun _ r => wf r) pattern same_wrap /\
  decides (fun _ r => wf (fst r)) (both pattern) same_over /\
  decides (fun _ r => if_some wf r) (either pattern) same_check /\
  decides (fun _ _ => True) eq same_int /\ decides (fun _ _ => True) eq same_bool /\ decides (fun _ _ => True) (either eq) same_int_opt.
Proof.
  intros c HV HB. split; [apply same_wrap_decides; auto|]. split; [apply (over_decides _ _ (fun _ r => wf r)); apply same_wrap_decides; auto|].
  split; [|split; [|split]].
  - intros v r H. apply (check_decides _ _ (fun _ r => wf r) pattern same_wrap); [apply same_wrap_decides; auto|]. destruct v, r; auto.
  - intros v r _. unfold same_int. destruct (Z.eqb_spec v r); auto.
  - intros v r _. unfold same_bool. destruct v, r; cbn; intuition discriminate.
  - intros [v|] [r|] _; unfold same_int_opt; cbn; auto. destruct (Z.eqb_spec v r); auto.
Qed.
(** The comparisons of a scalar form with the full one (util.rs 271-353): a
    remainder is a scalar of the kind. *)
Theorem C94_scalar_comparisons : forall (c : Cfg) ps k, Valid -> BITS = 256 ->
  decides (fun x y => wf x /\ wf y) equal_value ours_wrap /\
  decides (fun x y => wf (fst x) /\ wf (fst y)) (both equal_value) ours_over /\
  decides (fun x y => if_some wf x /\ if_some wf y) (either equal_value) ours_check /\
  decides (fun x r => wf x /\ sfits ps k r) (fun x r => pattern r x) (ours_rem ps k) /\
  decides (fun x r => wf (fst x) /\ sfits ps k (fst r)) (both (fun x r => pattern r x)) (ours_rem_over ps k) /\
  decides (fun x r => if_some wf x /\ if_some (sfits ps k) r) (either (fun x r => pattern r x)) (ours_rem_check ps k).
Proof.
  intros c ps k HV HB. split; [apply ours_wrap_decides; auto|].
  split; [apply (over_decides _ _ (fun x y => wf x /\ wf y)); apply ours_wrap_decides; auto|]. split.
  { intros v r H. apply (check_decides _ _ (fun x y => wf x /\ wf y) equal_value ours_wrap); [apply ours_wrap_decides; auto|]. destruct v, r; auto. }
  split; [apply ours_rem_decides; auto|]. split.
  { apply (over_decides _ _ (fun x r => wf x /\ sfits ps k r) (fun x r => pattern r x) (ours_rem ps k)). apply ours_rem_decides; auto. }
  intros v r H. apply (check_decides _ _ (fun x r => wf x /\ sfits ps k r) (fun x r => pattern r x) (fun x r => let* r := into_full ps k r in ours_wrap x r)).
  - apply ours_rem_full_decides; auto.
  - destruct v, r; auto.
Qed.
Example ex_C94_comparisons : @same_wrap c256_64 (-1) [2 ^ 64 - 1; 2 ^ 64 - 1; 2 ^ 64 - 1; 2 ^ 64 - 1] = Ok true /\
  @same_wrap c256_64 (-1) [2 ^ 64 - 1; 2 ^ 64 - 1; 2 ^ 64 - 1; 2 ^ 64 - 2] = Ok false /\
  @same_over c256_64 (7, true) ([7; 0; 0; 0], false) = Ok false /\ @same_check c256_64 None (Some [7; 0; 0; 0]) = Ok false /\
  @ours_rem_over c256_64 true K32 ([2 ^ 64 - 3; 2 ^ 64 - 1; 2 ^ 64 - 1; 2 ^ 64 - 1], true) (- 3, true) = Ok true /\
  @ours_rem_over c256_64 true K32 ([2 ^ 64 - 3; 2 ^ 64 - 1; 2 ^ 64 - 1; 2 ^ 64 - 1], true) (- 3, false) = Ok false /\
  @ours_rem_over c256_64 true K32 ([2 ^ 64 - 3; 2 ^ 64 - 1; 2 ^ 64 - 1; 2 ^ 64 - 1], true) (- 2, true) = Ok false.
Proof. vm_compute. repeat split. Qed.

(** A test with one operand, any implementation [ours] and any comparison:
    it holds on every input exactly when every operand has the right answer. *)
Theorem C94_one : forall (c : Cfg) A B sg (theirs : Z -> A) (ours : list Z -> res B) cmp P R, Valid -> BITS = 256 -> decides P R cmp ->
  (forall x r, wf x -> ours x = Ok r -> P (theirs (val sg x)) r) ->
  ((forall x0 x1, fits_u 128 x0 -> half sg x1 -> ask1 sg theirs ours cmp x0 x1 = Ok true) <->
   (forall x, wf x -> exists r, ours x = Ok r /\ R (theirs (val sg x)) r)).
Proof.
  intros c A B sg theirs ours cmp P R HV HB D HP. split; intros H.
  - intros x Hx. destruct (split256 HV HB sg x Hx) as (x0 & x1 & H0 & H1 & E & _). specialize (H x0 x1 H0 H1). unfold ask1 in H.
    rewrite (operand_back HV HB sg x) in H by auto. cbn [bind] in H. destruct (ours x) as [r| |] eqn:O; cbn [bind] in H; try discriminate.
    exists r. split; auto. rewrite <- E in H. apply (decides_iff _ _ P R cmp); auto.
  - intros x0 x1 H0 H1. destruct (operand_val HV HB sg x0 x1 H0 H1) as (x & Ex & Wx & Vx). unfold ask1. rewrite Ex. cbn [bind].
    destruct (H x Wx) as (r & O & Q). rewrite O. cbn [bind]. rewrite <- Vx. apply (decides_iff _ _ P R cmp); auto.
Qed.
(** … with an operand and a number: the same, at each number. *)
Theorem C94_amount : forall (c : Cfg) A B sg (theirs : Z -> Z -> A) (ours : list Z -> Z -> res B) cmp P R n, Valid -> BITS = 256 -> decides P R cmp ->
  (forall x r, wf x -> ours x n = Ok r -> P (theirs (val sg x) n) r) ->
  ((forall x0 x1, fits_u 128 x0 -> half sg x1 -> ask_n sg theirs ours cmp x0 x1 n = Ok true) <->
   (forall x, wf x -> exists r, ours x n = Ok r /\ R (theirs (val sg x) n) r)).
Proof.
  intros c A B sg theirs ours cmp P R n HV HB D HP.
  exact (C94_one c A B sg (fun v => theirs v n) (fun x => ours x n) cmp P R HV HB D HP).
Qed.
(** … with two operands; [G] is a condition on the second one. *)
Lemma two_operands : forall (c : Cfg) A B sg (theirs : Z -> Z -> A) (ours : list Z -> list Z -> res B) cmp P R (G : Z -> Prop), Valid -> BITS = 256 -> decides P R cmp ->
  (forall x y r, wf x -> wf y -> G (val sg y) -> ours x y = Ok r -> P (theirs (val sg x) (val sg y)) r) ->
  ((forall x0 x1 y0 y1, fits_u 128 x0 -> half sg x1 -> fits_u 128 y0 -> half sg y1 -> G (num256 y0 y1) -> ask2 sg theirs ours cmp x0 x1 y0 y1 = Ok true) <->
   (forall x y, wf x -> wf y -> G (val sg y) -> exists r, ours x y = Ok r /\ R (theirs (val sg x) (val sg y)) r)).
Proof.
  intros c A B sg theirs ours cmp P R G HV HB D HP. split; intros H.
  - intros x y Hx Hy HG. destruct (split256 HV HB sg x Hx) as (x0 & x1 & H0 & H1 & E & _). destruct (split256 HV HB sg y Hy) as (y0 & y1 & H2 & H3 & F & _).
    specialize (H x0 x1 y0 y1 H0 H1 H2 H3). rewrite <- F in H. specialize (H HG). unfold ask2 in H.
    rewrite (operand_back HV HB sg x), (operand_back HV HB sg y) in H by auto. cbn [bind] in H. destruct (ours x y) as [r| |] eqn:O; cbn [bind] in H; try discriminate.
    exists r. split; auto. rewrite <- E, <- F in H. apply (decides_iff _ _ P R cmp); auto.
  - intros x0 x1 y0 y1 H0 H1 H2 H3 HG. destruct (operand_val HV HB sg x0 x1 H0 H1) as (x & Ex & Wx & Vx). destruct (operand_val HV HB sg y0 y1 H2 H3) as (y & Ey & Wy & Vy).
    unfold ask2. rewrite Ex, Ey. cbn [bind]. rewrite <- Vy in HG. destruct (H x y Wx Wy HG) as (r & O & Q). rewrite O. cbn [bind]. rewrite <- Vx, <- Vy. apply (decides_iff _ _ P R cmp); auto.
Qed.
Theorem C94_two : forall (c : Cfg) A B sg (theirs : Z -> Z -> A) (ours : list Z -> list Z -> res B) cmp P R, Valid -> BITS = 256 -> decides P R cmp ->
  (forall x y r, wf x -> wf y -> ours x y = Ok r -> P (theirs (val sg x) (val sg y)) r) ->
  ((forall x0 x1 y0 y1, fits_u 128 x0 -> half sg x1 -> fits_u 128 y0 -> half sg y1 -> ask2 sg theirs ours cmp x0 x1 y0 y1 = Ok true) <->
   (forall x y, wf x -> wf y -> exists r, ours x y = Ok r /\ R (theirs (val sg x) (val sg y)) r)).
Proof.
  intros c A B sg theirs ours cmp P R HV HB D HP.
  pose proof (two_operands c A B sg theirs ours cmp P R (fun _ => True) HV HB D ltac:(intros; apply HP; auto)) as T. split; intros H.
  - intros x y Hx Hy. apply T; auto.
  - intros. apply T; auto.
Qed.
(** The division tests (ops.rs, [if y0 != 0 && y1 != 0]) pin the operation down
    on the divisors they let through and on no other. *)
Theorem C94_division : forall (c : Cfg) A B sg (theirs : Z -> Z -> A) (ours : list Z -> list Z -> res B) cmp P R, Valid -> BITS = 256 -> decides P R cmp ->
  (forall x y r, wf x -> wf y -> ours x y = Ok r -> P (theirs (val sg x) (val sg y)) r) ->
  ((forall x0 x1 y0 y1, fits_u 128 x0 -> half sg x1 -> fits_u 128 y0 -> half sg y1 -> guarded (ask2 sg theirs ours cmp) x0 x1 y0 y1 = Ok true) <->
   (forall x y, wf x -> wf y -> let_through (val sg y) -> exists r, ours x y = Ok r /\ R (theirs (val sg x) (val sg y)) r)).
Proof.
  intros c A B sg theirs ours cmp P R HV HB D HP.
  pose proof (two_operands c A B sg theirs ours cmp P R let_through HV HB D ltac:(intros; apply HP; auto)) as T. rewrite <- T. clear T.
  assert (G : forall y0 y1, fits_u 128 y0 -> (let_through (num256 y0 y1) <-> negb (y0 =? 0) && negb (y1 =? 0) = true)).
  { intros y0 y1 H. destruct (split_num y0 y1 H) as (E & F). unfold let_through. rewrite E, F, andb_true_iff, !negb_true_iff, !Z.eqb_neq. tauto. }
  split; intros H x0 x1 y0 y1 H0 H1 H2 H3.
  - intros HG. specialize (H x0 x1 y0 y1 H0 H1 H2 H3). unfold guarded in H. rewrite (proj1 (G y0 y1 H2) HG) in H. exact H.
  - unfold guarded. destruct (negb (y0 =? 0) && negb (y1 =? 0)) eqn:E; auto. apply H; auto. apply G; auto.
Qed.
Example ex_C94_division : let_through (2 ^ 128 + 1) /\ let_through (-1) /\ ~ let_through (2 ^ 128 - 1) /\ ~ let_through (2 ^ 200) /\ ~ let_through (- 2 ^ 128).
Proof. vm_compute. intuition discriminate. Qed.
(** No positive divisor below 2^128 and no multiple of 2^128 is ever tried: an
    implementation that divides wrongly by all of them gets the verdicts of
    one that does not. *)
Theorem C94_blind : forall (c : Cfg) A B sg (theirs : Z -> Z -> A) (ours other : list Z -> list Z -> res B) cmp x0 x1 y0 y1, Valid -> BITS = 256 ->
  fits_u 128 x0 -> half sg x1 -> fits_u 128 y0 -> half sg y1 ->
  (forall x y, wf x -> wf y -> let_through (val sg y) -> ours x y = other x y) ->
  guarded (ask2 sg theirs ours cmp) x0 x1 y0 y1 = guarded (ask2 sg theirs other cmp) x0 x1 y0 y1.
Proof.
  intros c A B sg theirs ours other cmp x0 x1 y0 y1 HV HB H0 H1 H2 H3 H. unfold guarded. destruct (negb (y0 =? 0) && negb (y1 =? 0)) eqn:E; auto.
  destruct (operand_val HV HB sg x0 x1 H0 H1) as (x & Ex & Wx & Vx). destruct (operand_val HV HB sg y0 y1 H2 H3) as (y & Ey & Wy & Vy).
  unfold ask2. rewrite Ex, Ey. cbn [bind]. rewrite (H x y Wx Wy); auto. rewrite Vy. destruct (split_num y0 y1 H2) as (F & G).
  unfold let_through. rewrite F, G. rewrite andb_true_iff, !negb_true_iff, !Z.eqb_neq in E. exact E.
Qed.
Theorem C94_small_divisors : forall y, 0 <= y < 2 ^ 128 \/ (2 ^ 128 | y) -> ~ let_through y.
Proof.
  intros y [H|(k & ->)] (A & B).
  - apply B. apply Z.div_small. lia.
  - apply A. apply Z.mod_mul. lia.
Qed.
(** A division that answers 0 for every divisor below 2^128 passes the test of
    [wrapping_div] on every input on which the crate's own division does. *)
Theorem C94_blind_refuted : exists (ours : list Z -> list Z -> res (list Z)),
  (forall x0 x1 y0 y1, fits_u 128 x0 -> fits_u 128 x1 -> fits_u 128 y0 -> fits_u 128 y1 ->
    guarded (ask2 (c := c256_64) false Z.div ours (same_wrap (c := c256_64))) x0 x1 y0 y1 =
    guarded (ask2 (c := c256_64) false Z.div (wrapping_div (c := c256_64) false) (same_wrap (c := c256_64))) x0 x1 y0 y1) /\
  ours [9; 0; 0; 0] [3; 0; 0; 0] = Ok [0; 0; 0; 0].
Proof.
  exists (fun x y => if uval (c := c256_64) y <? 2 ^ 128 then Ok [0; 0; 0; 0] else wrapping_div (c := c256_64) false x y). split; [|reflexivity].
  intros x0 x1 y0 y1 H0 H1 H2 H3. apply (C94_blind c256_64 _ _ false); auto; [apply valid_c256_64|].
  intros x y Hx Hy G. cbv beta. destruct (Z.ltb_spec (uval (c := c256_64) y) (2 ^ 128)) as [L|L]; auto. exfalso. revert G. apply C94_small_divisors. left.
  pose proof (uval_range (c := c256_64) valid_c256_64 y Hy). cbn [val]. lia.
Qed.

(** A scalar form tested against the full one: the test holds exactly when the
    two agree, whether or not either is right. *)
Theorem C94_scalar : forall (c : Cfg) A B sg ps k (full : list Z -> list Z -> res A) (short : list Z -> Z -> res B) cmp P R y, Valid -> BITS = 256 ->
  sfits ps k y -> decides P R cmp ->
  (forall x f r, wf x -> full x (ofZ y) = Ok f -> short x y = Ok r -> P f r) ->
  ((forall x0 x1, fits_u 128 x0 -> half sg x1 -> ask_s sg ps k full short cmp x0 x1 y = Ok true) <->
   (forall x, wf x -> exists f r, full x (ofZ y) = Ok f /\ short x y = Ok r /\ R f r)).
Proof.
  intros c A B sg ps k full short cmp P R y HV HB Hy D HP. split; intros H.
  - intros x Hx. destruct (split256 HV HB sg x Hx) as (x0 & x1 & H0 & H1 & E & _). specialize (H x0 x1 H0 H1). unfold ask_s in H.
    rewrite (operand_back HV HB sg x) in H by auto. rewrite (into_full_ok HV) in H by auto. cbn [bind] in H.
    destruct (full x (ofZ y)) as [f| |] eqn:F; cbn [bind] in H; try discriminate. destruct (short x y) as [r| |] eqn:O; cbn [bind] in H; try discriminate.
    exists f, r. split; auto. split; auto. apply (decides_iff _ _ P R cmp); eauto.
  - intros x0 x1 H0 H1. destruct (operand_val HV HB sg x0 x1 H0 H1) as (x & Ex & Wx & Vx). unfold ask_s. rewrite Ex, (into_full_ok HV) by auto. cbn [bind].
    destruct (H x Wx) as (f & r & F & O & Q). rewrite F, O. cbn [bind]. apply (decides_iff _ _ P R cmp); eauto.
Qed.
(** The guard of the signed scalar divisions (ops.rs 792-826 and siblings)
    skips the minimum for every divisor but the one that overflows. *)
Theorem C94_guard : forall (t : Z -> Z -> Z -> res bool) x0 x1 y, fits_u 128 x0 ->
  not_min t x0 x1 y = (if (y =? 0) || (negb (y =? -1) && (num256 x0 x1 =? - 2 ^ 255)) then Ok true else t x0 x1 y) /\
  nonzero t x0 x1 0 = Ok true /\ (y <> 0 -> nonzero t x0 x1 y = t x0 x1 y).
Proof.
  intros t x0 x1 y H. split; [|split; [reflexivity|]].
  - unfold not_min. replace (num256 x0 x1 =? - 2 ^ 255) with ((x0 =? 0) && (x1 =? - 2 ^ 127)); [rewrite andb_assoc; reflexivity|].
    unfold num256, fits_u in *. change (2 ^ 255) with (2 ^ 128 * 2 ^ 127).
    destruct (Z.eqb_spec x0 0), (Z.eqb_spec x1 (- 2 ^ 127)), (Z.eqb_spec (x0 + 2 ^ 128 * x1) (- (2 ^ 128 * 2 ^ 127))); cbn [andb]; try reflexivity; exfalso; lia.
  - intros Hy. unfold nonzero. rewrite (proj2 (Z.eqb_neq y 0)) by auto. reflexivity.
Qed.
Example ex_C94_guard : fits_u 128 0 /\ not_min (fun _ _ _ => Panic) 0 (- 2 ^ 127) 5 = Ok true /\ not_min (fun _ _ _ => Panic) 0 (- 2 ^ 127) (-1) = Panic.
Proof. vm_compute. intuition discriminate. Qed.
(** A wrong operation does not pass: [wrapping_sub] under the test of
    [wrapping_add]. *)
Example ex_C94_two : @ask2 c256_64 _ _ true Z.add (@wrapping_sub c256_64 true) (@same_wrap c256_64) 5 7 3 1 = Ok false /\
  @ask2 c256_64 _ _ true Z.add (@wrapping_add c256_64 true) (@same_wrap c256_64) 5 7 3 1 = Ok true.
Proof. vm_compute. auto. Qed.
(** The hypotheses of the theorems above, met by tests of ops.rs. *)
Example ex_C94_met : decides (fun _ r => wf (c := c256_64) r) (pattern (c := c256_64)) (same_wrap (c := c256_64)) /\
  (forall x y r, wf (c := c256_64) x -> wf (c := c256_64) y -> wrapping_add (c := c256_64) false x y = Ok r -> wf (c := c256_64) r) /\
  (forall x r, wf (c := c256_64) x -> wrapping_shl (c := c256_64) x 77 = Ok r -> wf (c := c256_64) r) /\
  (forall x r, wf (c := c256_64) x -> s_wrapping_neg (c := c256_64) x = Ok r -> wf (c := c256_64) r) /\
  sfits (c := c256_64) true K32 (- 2 ^ 31).
Proof.
  split; [apply (C94_comparisons c256_64 valid_c256_64 eq_refl)|]. split; [|split; [|split]].
  - intros x y r Hx Hy. rewrite (wrapping_add_ok (c := c256_64) valid_c256_64) by auto. intros [= <-]. apply (wf_ofZ (c := c256_64) valid_c256_64).
  - intros x r Hx. rewrite (wrapping_shl_ok (c := c256_64) valid_c256_64) by auto. intros [= <-]. apply (wf_ofZ (c := c256_64) valid_c256_64).
  - intros x r Hx. rewrite (s_wrapping_neg_ok (c := c256_64) valid_c256_64) by auto. intros [= <-]. apply (wf_ofZ (c := c256_64) valid_c256_64).
  - vm_compute. intuition discriminate.
Qed.

(** ** Assumptions (each must print "Closed under the global context") *)

Print Assumptions C94_comparisons.
Print Assumptions C94_scalar_comparisons.
Print Assumptions C94_one.
Print Assumptions C94_amount.
Print Assumptions C94_two.
Print Assumptions C94_division.
Print Assumptions C94_blind.
Print Assumptions C94_small_divisors.
Print Assumptions C94_blind_refuted.
Print Assumptions C94_scalar.
Print Assumptions C94_guard.
