(** * From the internal equations to the statements of the Props files, and
      the concrete configurations used in examples *)

Require Import ZArith List Bool Lia.
From Verif Require Import Prim Spec Facts MAdd MMul MShift MCore PCore MArith PArith PArith2.
Import ListNotations.
Local Open Scope Z_scope.

Lemma valid_c256_64 : @Valid c256_64.
Proof. split; [right; reflexivity|]. split; [exists 2; split; [lia|reflexivity]|reflexivity]. Qed.
Lemma valid_c256_32 : @Valid c256_32.
Proof. split; [left; reflexivity|]. split; [exists 2; split; [lia|reflexivity]|reflexivity]. Qed.
Lemma valid_c384_64 : @Valid c384_64.
Proof. split; [right; reflexivity|]. split; [exists 3; split; [lia|reflexivity]|reflexivity]. Qed.
Lemma valid_c512_32 : @Valid c512_32.
Proof. split; [left; reflexivity|]. split; [exists 4; split; [lia|reflexivity]|reflexivity]. Qed.

Section P.
Context {c : Cfg}.
Hypothesis HV : Valid.

Lemma retU : forall m v, m = Ok (ofZ v) -> returns_u m (v mod 2 ^ BITS).
Proof. intros m v ->. exists (ofZ v). split; auto. split; [apply (wf_ofZ HV)|apply (uval_ofZ HV)]. Qed.
Lemma retS : forall m v, m = Ok (ofZ v) -> returns_s m (swrap BITS v).
Proof. intros m v ->. exists (ofZ v). split; auto. split; [apply (wf_ofZ HV)|apply (sval_ofZ HV)]. Qed.
Lemma retU1 : forall m v, m = Ok (ofZ v) -> fits_u BITS v -> returns_u m v.
Proof. intros m v H F. rewrite <- (Z.mod_small v (2 ^ BITS)) by exact F. apply retU; auto. Qed.
Lemma retS1 : forall m v, m = Ok (ofZ v) -> fits_s BITS v -> returns_s m v.
Proof. intros m v H F. rewrite <- (swrap_small BITS v) by (auto using (BITS_pos HV)). apply retS; auto. Qed.
Lemma flag_fits : forall sg v f, f = negb (fitsb sg v) -> (f = true <-> ~ fits sg v).
Proof. intros sg v f ->. destruct (fitsb_reflect sg v); cbn; intuition congruence. Qed.
Lemma flagU : forall m v, m = Ok (ofZ v, negb (fitsb false v)) -> returns_u_flag m (v mod 2 ^ BITS) (~ fits_u BITS v).
Proof.
  intros m v ->. exists (ofZ v), (negb (fitsb false v)). split; auto. split; [apply (wf_ofZ HV)|]. split; [apply (uval_ofZ HV)|].
  apply (flag_fits false v). auto.
Qed.
Lemma flagS : forall m v, m = Ok (ofZ v, negb (fitsb true v)) -> returns_s_flag m (swrap BITS v) (~ fits_s BITS v).
Proof.
  intros m v ->. exists (ofZ v), (negb (fitsb true v)). split; auto. split; [apply (wf_ofZ HV)|]. split; [apply (sval_ofZ HV)|].
  apply (flag_fits true v). auto.
Qed.
Lemma optU : forall m v, m = Ok (some_if (fitsb false v) v) -> returns_u_opt m (fits_u BITS v) v.
Proof.
  intros m v ->. unfold some_if. destruct (fitsb_reflect false v) as [F|F]; [left|right]; split; auto.
  exists (ofZ v). split; auto. split; [apply (wf_ofZ HV)|]. apply (val_ofZ_small HV false); auto.
Qed.
Lemma optS : forall m v, m = Ok (some_if (fitsb true v) v) -> returns_s_opt m (fits_s BITS v) v.
Proof.
  intros m v ->. unfold some_if. destruct (fitsb_reflect true v) as [F|F]; [left|right]; split; auto.
  exists (ofZ v). split; auto. split; [apply (wf_ofZ HV)|]. apply (val_ofZ_small HV true); auto.
Qed.
Lemma panU : forall m v, m = ok_if (fitsb false v) v -> returns_u_or_panics m (fits_u BITS v) v.
Proof.
  intros m v ->. unfold ok_if. destruct (fitsb_reflect false v) as [F|F]; [left|right]; split; auto.
  apply retU1; auto.
Qed.
Lemma panS : forall m v, m = ok_if (fitsb true v) v -> returns_s_or_panics m (fits_s BITS v) v.
Proof.
  intros m v ->. unfold ok_if. destruct (fitsb_reflect true v) as [F|F]; [left|right]; split; auto.
  apply retS1; auto.
Qed.
(** operators: checked or wrapped according to the build *)
Lemma opU : forall m v, m = op_result false v ->
  (chk = true -> returns_u_or_panics m (fits_u BITS v) v) /\ (chk = false -> returns_u m (v mod 2 ^ BITS)).
Proof.
  intros m v ->. unfold op_result. split; intros ->; cbn [andb].
  - apply panU. unfold ok_if. destruct (fitsb false v); reflexivity.
  - apply retU. reflexivity.
Qed.
Lemma opS : forall m v, m = op_result true v ->
  (chk = true -> returns_s_or_panics m (fits_s BITS v) v) /\ (chk = false -> returns_s m (swrap BITS v)).
Proof.
  intros m v ->. unfold op_result. split; intros ->; cbn [andb].
  - apply panS. unfold ok_if. destruct (fitsb true v); reflexivity.
  - apply retS. reflexivity.
Qed.
Lemma clampU_fits : forall v, fits_u BITS (clamp false v).
Proof. intros v. unfold clamp, fits_u. cbn [lo_of hi_of]. pose proof (pB HV). lia. Qed.
Lemma clampS_fits : forall v, fits_s BITS (clamp true v).
Proof. intros v. unfold clamp, fits_s. cbn [lo_of hi_of]. pose proof (pBh HV). lia. Qed.
Lemma satU : forall m v, m = Ok (ofZ (clamp false v)) -> returns_u m (Z.max 0 (Z.min (2 ^ BITS - 1) v)).
Proof. intros m v H. apply (retU1 m (clamp false v)); auto. apply clampU_fits. Qed.
Lemma satS : forall m v, m = Ok (ofZ (clamp true v)) ->
  returns_s m (Z.max (- 2 ^ (BITS - 1)) (Z.min (2 ^ (BITS - 1) - 1) v)).
Proof. intros m v H. apply (retS1 m (clamp true v)); auto. apply clampS_fits. Qed.
Lemma div2_fits_u : forall x y, wf x -> wf y -> fits_u BITS ((uval x + uval y) / 2).
Proof.
  intros x y Hx Hy. pose proof (uval_range HV x Hx). pose proof (uval_range HV y Hy).
  split; [apply Z.div_pos|apply Z.div_lt_upper_bound]; lia.
Qed.
End P.
