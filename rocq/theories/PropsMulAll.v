(** * Signed multiplication, decided everywhere (C77)

    C06 gives the products that signed multiplication does not notice leaving
    the range.  Here: what every operation built on it does in every case, and
    how a caller recognises the wrong answers. *)

Require Import ZArith List Bool Lia.
From Verif Require Import Prim Spec Facts MAdd MMul MShift MCore PCore PBits PWide MArith PArith PArith2 PPow PMisc PBits2 PRot PRet
  MScalar PScalar MTraits PTraits PropsProg PropsScalar MForms.
Import ListNotations.
Local Open Scope Z_scope.

(** ** Vocabulary *)
Section Vocabulary.
Context {c : Cfg}.
(** the numbers taken for representable: those that are, and the next
    [2^(BITS-W) - 1] below them *)
Definition accepted (p : Z) : Prop := - (2 ^ (BITS - 1) + 2 ^ (BITS - W)) < p < 2 ^ (BITS - 1).
(** the number such a product comes out as *)
Definition shown (p : Z) : Z := if p <? - 2 ^ (BITS - 1) then p + 2 ^ BITS else p.
Definition clamped (p : Z) : Z := Z.max (- 2 ^ (BITS - 1)) (Z.min (2 ^ (BITS - 1) - 1) p).
(** five readings of one result: flagged, optional, panicking, with the
    operator, saturated *)
Definition behaves (p : Z) (fl : res (list Z * bool)) (op : res (option (list Z))) (st pl sa : res (list Z)) : Prop :=
  returns_s_flag fl (swrap BITS p) (~ accepted p) /\
  returns_s_opt op (accepted p) (shown p) /\
  returns_s_or_panics st (accepted p) (shown p) /\
  (chk = true -> returns_s_or_panics pl (accepted p) (shown p)) /\
  (accepted p -> returns_s sa (shown p)) /\ (~ accepted p -> returns_s sa (clamped p)).
End Vocabulary.

Section P.
Context {c : Cfg}.
Hypothesis HV : Valid.

Lemma acc_ovf : forall p, ovf true p = false <-> accepted p.
Proof. intros p. unfold ovf, accepted. rewrite orb_false_iff, Z.leb_gt, Z.leb_gt. lia. Qed.
Lemma acc_dec : forall p, {accepted p /\ ovf true p = false} + {~ accepted p /\ ovf true p = true}.
Proof.
  intros p. destruct (ovf true p) eqn:E; [right|left]; (split; [|auto]).
  - rewrite <- acc_ovf, E. discriminate.
  - apply acc_ovf. auto.
Qed.
Lemma shown_wrap : forall p, accepted p -> swrap BITS p = shown p /\ fits true (shown p).
Proof.
  intros p H. pose proof (BITS_pos HV) as B. destruct (slack2 HV) as (S1 & S2 & S3). pose proof (pBhalf HV) as P2.
  unfold accepted in H. unfold shown. assert (F : fits true (if p <? - 2 ^ (BITS - 1) then p + 2 ^ BITS else p)).
  { unfold fits, fits_s. destruct (Z.ltb_spec p (- 2 ^ (BITS - 1))); lia. }
  split; [|exact F]. rewrite <- (swrap_small BITS (if _ <? _ then _ else _)) by (try lia; exact F).
  apply swrap_eq_mod; [lia|]. destruct (p <? _); [|reflexivity]. rewrite <- (Z.mod_add p 1) by lia. f_equal. lia.
Qed.
Lemma sval_shown : forall p, accepted p -> sval (ofZ p) = shown p.
Proof. intros p H. rewrite (sval_ofZ HV). apply shown_wrap. auto. Qed.
Lemma ofZ_shown : forall p, accepted p -> ofZ (shown p) = ofZ p.
Proof. intros p H. pose proof (BITS_pos HV). destruct (shown_wrap p H) as (<- & _). apply (ofZ_eq_mod HV). apply swrap_mod. lia. Qed.
Lemma behaves_ok : forall p fl op st pl sa,
  fl = Ok (ofZ p, ovf true p) -> op = Ok (some_if (negb (ovf true p)) p) -> st = ok_if (negb (ovf true p)) p ->
  pl = (if chk && ovf true p then Panic else Ok (ofZ p)) -> sa = Ok (ofZ (if ovf true p then clamp true p else p)) -> behaves p fl op st pl sa.
Proof.
  intros p fl op st pl sa -> -> -> -> ->. unfold behaves. destruct (acc_dec p) as [(A & ->)|(A & ->)]; cbn [negb some_if ok_if andb].
  - pose proof (sval_shown p A) as S. assert (G : forall m, m = Ok (ofZ p) -> returns_s m (shown p)) by (intros m ->; exists (ofZ p); auto using (wf_ofZ HV)).
    split; [|split; [|split; [|split; [|split]]]].
    + exists (ofZ p), false. split; auto. split; [apply (wf_ofZ HV)|]. split; [apply (sval_ofZ HV)|]. split; [discriminate|tauto].
    + left. split; auto. exists (ofZ p). auto using (wf_ofZ HV).
    + left. auto.
    + intros C. left. rewrite C. auto.
    + auto.
    + tauto.
  - split; [|split; [|split; [|split; [|split]]]].
    + exists (ofZ p), true. split; auto. split; [apply (wf_ofZ HV)|]. split; [apply (sval_ofZ HV)|]. split; auto.
    + right. auto.
    + right. auto.
    + intros C. right. rewrite C. auto.
    + tauto.
    + intros _. apply (satS HV). reflexivity.
Qed.
End P.

(** ** C77 *)

Theorem C77_mul : forall (c : Cfg) x y, Valid -> wf x -> wf y ->
  behaves (sval x * sval y) (overflowing_mul true x y) (checked_mul true x y) (strict_mul true x y) (op_mul true x y) (s_saturating_mul x y).
Proof.
  intros c x y HV Hx Hy. apply (behaves_ok HV).
  - rewrite (overflowing_mul_ok HV), (mulf_ovf HV) by auto. reflexivity.
  - rewrite (checked_mul_ok HV), (mulf_ovf HV) by auto. reflexivity.
  - unfold strict_mul. rewrite (checked_mul_ok HV), (mulf_ovf HV) by auto. apply unwrap_some_if.
  - rewrite (op_mul_ok HV), (mulf_ovf HV) by auto. reflexivity.
  - rewrite (s_saturating_mul_ok HV), (mulf_ovf HV) by auto. reflexivity.
Qed.
Theorem C77_pow : forall (c : Cfg) x e, Valid -> wf x -> 0 <= e < 2 ^ 32 ->
  behaves (sval x ^ e) (overflowing_pow true x e) (checked_pow true x e) (strict_pow true x e) (pow true x e) (s_saturating_pow x e).
Proof.
  intros c x e HV Hx He. apply (behaves_ok HV).
  - apply (overflowing_pow_ok HV true); auto.
  - apply (checked_pow_ok HV true); auto.
  - apply (strict_pow_ok HV true); auto.
  - apply (pow_ok HV true); auto.
  - apply (s_saturating_pow_ok HV); auto.
Qed.
Theorem C77_scalar : forall (c : Cfg) k x n, Valid -> wf x -> ~ wide_scalar k ->
  (fits_u (kbits k) n -> returns_s_opt (checked_us SMul k true x n) (accepted (sval x * n)) (shown (sval x * n)) /\
     (chk = true -> returns_s_or_panics (plain_us SMul k true x n) (accepted (sval x * n)) (shown (sval x * n)))) /\
  (fits_s (kbits k) n -> returns_s_opt (checked_is SMul k x n) (accepted (sval x * n)) (shown (sval x * n)) /\
     (chk = true -> returns_s_or_panics (plain_is SMul k x n) (accepted (sval x * n)) (shown (sval x * n)))).
Proof.
  intros c k x n HV Hx Hk.
  assert (G : forall op pl, op = Ok (some_if (negb (mulf true (sval x) n)) (sval x * n)) ->
    pl = (if chk && mulf true (sval x) n then Panic else Ok (ofZ (sval x * n))) ->
    returns_s_opt op (accepted (sval x * n)) (shown (sval x * n)) /\ (chk = true -> returns_s_or_panics pl (accepted (sval x * n)) (shown (sval x * n)))).
  { intros op pl -> ->. rewrite (mulf_ovf HV). destruct (behaves_ok HV (sval x * n) _ _ _ _ _ eq_refl eq_refl eq_refl eq_refl eq_refl) as (_ & A & _ & B & _). auto. }
  split; intros Hn; apply G.
  - rewrite (checked_us_ok HV) by auto. reflexivity.
  - rewrite (plain_us_ok HV) by auto. reflexivity.
  - rewrite (checked_is_ok HV) by auto. reflexivity.
  - rewrite (plain_is_ok HV) by auto. reflexivity.
Qed.
(** [x * a + b] with overflow checks: the product is accepted or the call panics;
    then the sum of what is shown is exact or panics. *)
Theorem C77_mul_add : forall (c : Cfg) x a b, Valid -> wf x -> wf a -> wf b -> chk = true ->
  let p := sval x * sval a in
  (~ accepted p -> nt_mul_add true x a b = Panic) /\
  (accepted p -> returns_s_or_panics (nt_mul_add true x a b) (fits_s BITS (shown p + sval b)) (shown p + sval b)) /\
  nt_mul_add_assign true x a b = nt_mul_add true x a b.
Proof.
  intros c x a b HV Hx Ha Hb HC p. split; [|split; [|unfold nt_mul_add_assign; destruct (nt_mul_add true x a b); reflexivity]]; intros A; unfold nt_mul_add; rewrite (op_mul_ok HV) by auto; rewrite (mulf_ovf HV); cbn [val]; fold p; rewrite HC; cbn [andb].
  - destruct (acc_dec p) as [(A' & _)|(_ & ->)]; [contradiction|reflexivity].
  - destruct (acc_dec p) as [(_ & ->)|(A' & _)]; [|contradiction]. cbn [bind]. rewrite (op_add_ok HV) by (auto using (wf_ofZ HV)).
    cbn [val]. rewrite (sval_shown HV) by auto. apply (opS HV); auto.
Qed.
(** A wrong product is recognised by its sign: what [checked_mul] or the operator
    returns is the product exactly when its sign is the one of the product. *)
Theorem C77_sign : forall (c : Cfg) x y r, Valid -> wf x -> wf y ->
  checked_mul true x y = Ok (Some r) \/ strict_mul true x y = Ok r \/ (chk = true /\ op_mul true x y = Ok r) ->
  (sval r = sval x * sval y <-> Z.sgn (sval r) = Z.sgn (sval x) * Z.sgn (sval y)).
Proof.
  intros c x y r HV Hx Hy H. rewrite <- Z.sgn_mul. destruct (C77_mul c x y HV Hx Hy) as (_ & A & B & D & _).
  assert (E : accepted (sval x * sval y) /\ sval r = shown (sval x * sval y)).
  { destruct H as [H|[H|(HC & H)]].
    - destruct A as [(P & r' & E & _ & V)|(_ & E)]; rewrite E in H; inversion H; subst; auto.
    - destruct B as [(P & r' & E & _ & V)|(_ & E)]; rewrite E in H; inversion H; subst; auto.
    - destruct (D HC) as [(P & r' & E & _ & V)|(_ & E)]; rewrite E in H; inversion H; subst; auto. }
  destruct E as (P & ->). unfold accepted in P. destruct (slack2 HV) as (S1 & S2 & S3). pose proof (pBhalf HV) as P2.
  unfold shown. destruct (Z.ltb_spec (sval x * sval y) (- 2 ^ (BITS - 1))); [|tauto].
  split; intro F; [lia|]. rewrite (Z.sgn_neg (sval x * sval y)), (Z.sgn_pos (_ + _)) in F by lia. discriminate.
Qed.
(** and none is wrong when the factors have the same sign or one is zero *)
Theorem C77_same_sign : forall (c : Cfg) x y, Valid -> wf x -> wf y -> 0 <= sval x * sval y ->
  let p := sval x * sval y in
  returns_s_flag (overflowing_mul true x y) (swrap BITS p) (~ fits_s BITS p) /\
  returns_s_opt (checked_mul true x y) (fits_s BITS p) p /\ returns_s_or_panics (strict_mul true x y) (fits_s BITS p) p /\
  (chk = true -> returns_s_or_panics (op_mul true x y) (fits_s BITS p) p) /\ returns_s (s_saturating_mul x y) (clamped p).
Proof.
  intros c x y HV Hx Hy HP p. destruct (C77_mul c x y HV Hx Hy) as (A & B & D & E & F & G). fold p in HP, A, B, D, E, F, G. clearbody p. destruct (slack2 HV) as (S1 & S2 & S3).
  assert (AF : accepted p <-> fits_s BITS p) by (unfold accepted, fits_s; lia).
  assert (SP : shown p = p) by (unfold shown; destruct (Z.ltb_spec p (- 2 ^ (BITS - 1))); [lia|reflexivity]).
  rewrite SP in *. unfold returns_s_flag, returns_s_opt, returns_s_or_panics in *.
  split; [destruct A as (r & f & A1 & A2 & A3 & A4); exists r, f; rewrite AF in A4; auto|]. split; [rewrite AF in B; auto|]. split; [rewrite AF in D; auto|].
  split; [intro C; specialize (E C); rewrite AF in E; auto|].
  destruct (acc_dec p) as [(Q & _)|(Q & _)]; auto. replace (clamped p) with p; auto. rewrite AF in Q. unfold clamped. unfold fits_s in Q. lia.
Qed.

(** *** Expressions *)

(** Over the integers, with the products as they are shown. *)
Section Expr.
Context {c : Cfg}.
Definition keep_mul (sg : bool) (p : Z) : option Z :=
  if sg then if (- (2 ^ (BITS - 1) + 2 ^ (BITS - W)) <? p) && (p <? 2 ^ (BITS - 1)) then Some (shown p) else None
  else keep false p.
Fixpoint aeval (sg : bool) (env : nat -> Z) (e : expr) : option Z :=
  match e with
  | EVar i => Some (env i)
  | EAdd a b => both (fun x y => keep sg (x + y)) (aeval sg env a) (aeval sg env b)
  | ESub a b => both (fun x y => keep sg (x - y)) (aeval sg env a) (aeval sg env b)
  | EMul a b => both (fun x y => keep_mul sg (x * y)) (aeval sg env a) (aeval sg env b)
  | ENeg a => one (fun x => keep sg (- x)) (aeval sg env a)
  | ENot a => one (fun x => Some (trunc sg (Z.lnot x))) (aeval sg env a)
  | EAnd a b => both (fun x y => Some (Z.land x y)) (aeval sg env a) (aeval sg env b)
  | EOr a b => both (fun x y => Some (Z.lor x y)) (aeval sg env a) (aeval sg env b)
  | EXor a b => both (fun x y => Some (Z.lxor x y)) (aeval sg env a) (aeval sg env b)
  | EShl a r => one (fun x => Some (trunc sg (x * 2 ^ r))) (aeval sg env a)
  | EShr a r => one (fun x => Some (x / 2 ^ r)) (aeval sg env a)
  end.
End Expr.

Section X.
Context {c : Cfg}.
Hypothesis HV : Valid.
Lemma keep_mul_s : forall p, keep_mul true p = if ovf true p then None else Some (shown p).
Proof.
  intros p. unfold keep_mul. destruct (acc_dec p) as [(A & ->)|(A & ->)]; unfold accepted in A;
    destruct (Z.ltb_spec (- (2 ^ (BITS - 1) + 2 ^ (BITS - W))) p), (Z.ltb_spec p (2 ^ (BITS - 1))); cbn [andb]; auto; exfalso; lia.
Qed.
Lemma keep_mul_fits : forall sg p v, keep_mul sg p = Some v -> fits sg v.
Proof.
  intros [] p v H.
  - rewrite keep_mul_s in H. destruct (acc_dec p) as [(A & E)|(A & E)]; rewrite E in H; inversion H. apply (shown_wrap HV). auto.
  - unfold keep_mul in H. rewrite (keep_eq) in H. destruct (fitsb_reflect false p); [|discriminate]. inversion H; subst; auto.
Qed.
Lemma keep_mul_op : forall sg x y, wf x -> wf y -> chk = true -> op_mul sg x y = ores (keep_mul sg (val sg x * val sg y)).
Proof.
  intros [] x y Hx Hy HC; rewrite (op_mul_ok HV), HC by auto; cbn [andb].
  - rewrite (mulf_ovf HV), keep_mul_s. destruct (acc_dec (val true x * val true y)) as [(A & ->)|(A & ->)]; [|reflexivity]. cbn [ores]. rewrite (ofZ_shown HV) by auto. reflexivity.
  - rewrite mulf_u. unfold keep_mul. rewrite keep_eq. destruct (fitsb false _); reflexivity.
Qed.
Lemma keep_mul_checked : forall sg x y, wf x -> wf y -> checked_mul sg x y = cres (keep_mul sg (val sg x * val sg y)).
Proof.
  intros [] x y Hx Hy; rewrite (checked_mul_ok HV) by auto.
  - rewrite (mulf_ovf HV), keep_mul_s. destruct (acc_dec (val true x * val true y)) as [(A & ->)|(A & ->)]; [|reflexivity]. cbn [cres some_if negb]. rewrite (ofZ_shown HV) by auto. reflexivity.
  - rewrite mulf_u. unfold keep_mul. rewrite keep_eq. destruct (fitsb false _); reflexivity.
Qed.
Lemma aeval_fits : forall sg env e v, (forall i, fits sg (env i)) -> amounts_ok e -> aeval sg env e = Some v -> fits sg v.
Proof.
  intros sg env e v HE. revert v.
  assert (K : forall x v, keep sg x = Some v -> fits sg v).
  { intros x v. rewrite keep_eq. destruct (fitsb_reflect sg x); [|discriminate]. intros [= <-]; auto. }
  induction e; cbn [amounts_ok aeval]; intros v HA;
    repeat match goal with H : _ /\ _ |- _ => destruct H end;
    repeat match goal with IH : forall v, amounts_ok ?a -> _ |- context [aeval sg env ?a] => destruct (aeval sg env a); cbn [both one] end; try discriminate; try (intros [= <-]); eauto using keep_mul_fits.
  all: try apply (fits_trunc HV); try apply (fits_shr HV); try (eapply (fits_bits HV); eauto); try lia; eauto.
Qed.
Ltac evals := repeat match goal with H : _ /\ _ |- _ => destruct H end.
Lemma oeval_all : forall sg env e, (forall i, wf (env i)) -> amounts_ok e -> chk = true ->
  oeval sg env e = ores (aeval sg (fun i => val sg (env i)) e).
Proof.
  intros sg env e HE HA HC. revert HA.
  assert (FE : forall i, fits sg (val sg (env i))) by (intros; apply (fits_val HV); auto).
  induction e; intros HA; cbn [amounts_ok] in HA; evals; cbn [oeval aeval].
  all: try rewrite IHe1 by auto; try rewrite IHe2 by auto; try rewrite IHe by auto.
  all: repeat match goal with |- context [ores (aeval ?s ?en ?a)] => let E := fresh "E" in
         destruct (aeval s en a) eqn:E; [apply aeval_fits in E; [|assumption|assumption]|]; cbn [ores bind both one]; try reflexivity end.
  - cbn [ores]. rewrite (ofZ_val HV) by auto. reflexivity.
  - rewrite (op_add_ok HV), !(val_ofZ_small HV) by (auto; apply (wf_ofZ HV)). apply ores_keep; auto.
  - rewrite (op_sub_ok HV), !(val_ofZ_small HV) by (auto; apply (wf_ofZ HV)). apply ores_keep; auto.
  - rewrite keep_mul_op, !(val_ofZ_small HV) by (auto; apply (wf_ofZ HV)). reflexivity.
  - destruct sg.
    + rewrite (op_neg_ok HV) by apply (wf_ofZ HV). change sval with (val true). rewrite (val_ofZ_small HV) by auto. apply ores_keep; auto.
    + rewrite (st_zero HV). cbn [bind]. rewrite (op_sub_ok HV), !(val_ofZ_small HV) by (auto using (fits_0 HV); apply (wf_ofZ HV)). apply (ores_keep false); auto.
  - apply (st_not HV).
  - apply (st_and HV).
  - apply (st_or HV).
  - apply (st_xor HV).
  - apply (st_shl HV); auto.
  - apply (st_shr HV); auto.
Qed.
Lemma ceval_all : forall sg env e, (forall i, wf (env i)) -> amounts_ok e ->
  ceval sg env e = cres (aeval sg (fun i => val sg (env i)) e).
Proof.
  intros sg env e HE HA. revert HA. assert (WF : forall v, wf (ofZ v)) by apply (wf_ofZ HV). pose proof (pB HV) as PB.
  assert (FE : forall i, fits sg (val sg (env i))) by (intros; apply (fits_val HV); auto).
  induction e; intros HA; cbn [amounts_ok] in HA; evals; cbn [ceval aeval]; unfold obind.
  all: try rewrite IHe1 by auto; try rewrite IHe2 by auto; try rewrite IHe by auto.
  all: repeat match goal with |- context [cres (aeval ?s ?en ?a)] => let E := fresh "E" in
         destruct (aeval s en a) eqn:E; [apply aeval_fits in E; [|assumption|assumption]|]; cbn [cres bind both one]; try reflexivity end.
  - cbn [cres]. rewrite (ofZ_val HV) by auto. reflexivity.
  - rewrite (checked_add_ok HV), !(val_ofZ_small HV) by auto. apply cres_keep.
  - rewrite (checked_sub_ok HV), !(val_ofZ_small HV) by auto. apply cres_keep.
  - rewrite keep_mul_checked, !(val_ofZ_small HV) by auto. reflexivity.
  - destruct sg.
    + rewrite (s_checked_neg_ok HV) by auto. change sval with (val true). rewrite (val_ofZ_small HV) by auto. apply cres_keep.
    + rewrite (u_checked_neg_ok HV) by auto. change uval with (val false). rewrite (val_ofZ_small HV) by auto. rewrite keep_eq.
      cbn in E. unfold fits_u in E. destruct (Z.eqb_spec z 0) as [->|NZ]; [destruct (fitsb_reflect false (- 0)) as [F|F]|destruct (fitsb_reflect false (- z)) as [F|F]]; cbn in F; unfold fits_u in F; try reflexivity; lia.
  - rewrite (st_not HV sg). reflexivity.
  - rewrite (st_and HV). reflexivity.
  - rewrite (st_or HV). reflexivity.
  - rewrite (st_xor HV). reflexivity.
  - rewrite (checked_shl_ok HV) by (auto; lia). destruct (Z.ltb_spec r BITS); [|lia]. cbn [some_if cres]. do 2 f_equal.
    rewrite (ofZ_trunc HV). apply (ofZ_eq_mod HV). rewrite (uval_ofZ HV), Z.mul_mod_idemp_l by lia. reflexivity.
  - rewrite (checked_shr_ok HV) by (auto; lia). destruct (Z.ltb_spec r BITS); [|lia]. rewrite (val_ofZ_small HV) by auto. reflexivity.
Qed.
End X.

(** Every expression of either signedness, products included: with checks the
    operators return the number of this evaluation or panic when it stops. *)
Theorem C77_operators : forall (c : Cfg) sg env e, Valid -> (forall i, wf (env i)) -> amounts_ok e -> chk = true ->
  match aeval sg (enum sg env) e with
  | Some v => if sg then returns_s (oeval sg env e) v else returns_u (oeval sg env e) v
  | None => oeval sg env e = Panic
  end.
Proof.
  intros c sg env e HV HE HA HC. change (enum sg env) with (fun i => val sg (env i)). rewrite (oeval_all HV) by auto.
  destruct (aeval _ _ e) as [v|] eqn:E; cbn [ores]; [|reflexivity]. apply (aeval_fits HV) in E; auto; [|intros; apply (fits_val HV); auto].
  destruct sg; [apply (retS1 HV)|apply (retU1 HV)]; auto.
Qed.
Theorem C77_checked : forall (c : Cfg) sg env e, Valid -> (forall i, wf (env i)) -> amounts_ok e ->
  match aeval sg (enum sg env) e with
  | Some v => exists w, ceval sg env e = Ok (Some w) /\ wf w /\ (if sg then sval w else uval w) = v
  | None => ceval sg env e = Ok None
  end.
Proof.
  intros c sg env e HV HE HA. change (enum sg env) with (fun i => val sg (env i)). rewrite (ceval_all HV) by auto.
  destruct (aeval _ _ e) as [v|] eqn:E; cbn [cres]; [|reflexivity]. apply (aeval_fits HV) in E; auto; [|intros; apply (fits_val HV); auto].
  exists (ofZ v). split; [reflexivity|]. split; [apply (wf_ofZ HV)|]. change (val sg (ofZ v) = v). apply (val_ofZ_small HV); auto.
Qed.

(** *** Examples: the greatest magnitude accepted and the least refused, on both sides *)
Example C77_ex1 :
  checked_mul (c := c256_64) true (E64 (- (2 ^ 254 + 2 ^ 191 - 1))) (E64 2) = Ok (Some (E64 (2 ^ 255 - 2 ^ 192 + 2))) /\
  checked_mul (c := c256_64) true (E64 (- (2 ^ 254 + 2 ^ 191))) (E64 2) = Ok None /\
  checked_mul (c := c256_64) true (E64 (- 2 ^ 254)) (E64 2) = Ok (Some (E64 (- 2 ^ 255))) /\
  s_saturating_mul (c := c256_64) (E64 (- (2 ^ 254 + 2 ^ 191))) (E64 2) = Ok (E64 (- 2 ^ 255)).
Proof. vm_compute. auto. Qed.
Example C77_ex2 :
  nt_mul_add (c := c256_64) true (E64 (- (2 ^ 254 + 1))) (E64 2) (E64 5) = Panic /\
  nt_mul_add (c := c256_64) true (E64 (- (2 ^ 254 + 1))) (E64 2) (E64 (-5)) = Ok (E64 (2 ^ 255 - 7)) /\
  nt_mul_add (c := c256_64) true (E64 (2 ^ 254)) (E64 2) (E64 (-5)) = Panic.
Proof. vm_compute. auto. Qed.
(** (x0 * x1) + x1 with a product just below the least number *)
Example C77_ex3 :
  let env i := match i with O => E64 (- (2 ^ 254 + 1)) | _ => E64 2 end in
  oeval (c := c256_64) true env (ENeg (EMul (EVar 0) (EVar 1))) = Ok (E64 (- 2 ^ 255 + 2)) /\
  aeval (c := c256_64) true (enum (c := c256_64) true env) (ENeg (EMul (EVar 0) (EVar 1))) = Some (- 2 ^ 255 + 2) /\
  oeval (c := c256_64) true env (EAdd (EMul (EVar 0) (EVar 1)) (EVar 1)) = Panic /\
  aeval (c := c256_64) true (enum (c := c256_64) true env) (EAdd (EMul (EVar 0) (EVar 1)) (EVar 1)) = None.
Proof. vm_compute. auto. Qed.

(** ** Assumptions (each must print "Closed under the global context") *)

Print Assumptions C77_mul.
Print Assumptions C77_pow.
Print Assumptions C77_scalar.
Print Assumptions C77_mul_add.
Print Assumptions C77_sign.
Print Assumptions C77_same_sign.
Print Assumptions C77_operators.
Print Assumptions C77_checked.
