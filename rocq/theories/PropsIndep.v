(** * Properties: independence of the limb size (C47)

    Two builds of one type width, with the same overflow-check setting, are two
    configurations [c1], [c2] with equal [BITS] and [chk]; typically one has
    32-bit and the other 64-bit limbs.  [same2 R f] says that [f], given equal
    integers in both builds, gives [R]-related results: same outcome (value or
    panic), same integers. *)

Require Import ZArith List Bool Lia.
From Verif Require Import Prim Spec Facts MAdd MMul MShift MCore PCore PBits PWide MArith PArith PArith2 PPow PMisc PBits2 PRet
  MDiv DivSpec MApi PApi PApi2 PApi3 PropsBits PropsDiv MTraits PTraits.
Import ListNotations.
Local Open Scope Z_scope.

(** ** Vocabulary *)

Definition same_build (c1 c2 : Cfg) : Prop := @Valid c1 /\ @Valid c2 /\ @BITS c1 = @BITS c2 /\ @chk c1 = @chk c2.
(** Same integer, in the representation of either build. *)
Definition big (c1 c2 : Cfg) (a b : list Z) : Prop := @wf c1 a /\ @wf c2 b /\ @uval c1 a = @uval c2 b.
Definition agree {A B} (R : A -> B -> Prop) (m1 : res A) (m2 : res B) : Prop :=
  match m1, m2 with Ok a, Ok b => R a b | Panic, Panic => True | _, _ => False end.
Definition opt_of {A B} (R : A -> B -> Prop) (a : option A) (b : option B) : Prop :=
  match a, b with Some a, Some b => R a b | None, None => True | _, _ => False end.
Definition pair_of {A B C D} (R : A -> B -> Prop) (Q : C -> D -> Prop) (p : A * C) (q : B * D) : Prop :=
  R (fst p) (fst q) /\ Q (snd p) (snd q).
Definition flagged (c1 c2 : Cfg) := pair_of (big c1 c2) (@eq bool).

Definition same1 {A} (c1 c2 : Cfg) (R : A -> A -> Prop) (f : Cfg -> list Z -> res A) : Prop :=
  forall x1 x2, big c1 c2 x1 x2 -> agree R (f c1 x1) (f c2 x2).
Definition same2 {A} (c1 c2 : Cfg) (R : A -> A -> Prop) (f : Cfg -> list Z -> list Z -> res A) : Prop :=
  forall x1 x2 y1 y2, big c1 c2 x1 x2 -> big c1 c2 y1 y2 -> agree R (f c1 x1 y1) (f c2 x2 y2).

(** ** Tools *)

Section T.
Variables c1 c2 : Cfg.
Hypothesis SB : same_build c1 c2.
Let V1 : @Valid c1 := proj1 SB.
Let V2 : @Valid c2 := proj1 (proj2 SB).
Let HB : @BITS c1 = @BITS c2 := proj1 (proj2 (proj2 SB)).
Let HC : @chk c1 = @chk c2 := proj2 (proj2 (proj2 SB)).

Lemma big_ofZ : forall v, big c1 c2 (@ofZ c1 v) (@ofZ c2 v).
Proof.
  intros v. split; [apply (wf_ofZ V1)|]. split; [apply (wf_ofZ V2)|]. rewrite (uval_ofZ V1), (uval_ofZ V2), HB. auto.
Qed.
Lemma big_val : forall x1 x2, big c1 c2 x1 x2 -> forall sg, @val c1 sg x1 = @val c2 sg x2.
Proof.
  intros x1 x2 (W1 & W2 & E) [|]; cbn [val]; auto. rewrite (sval_swrap V1), (sval_swrap V2) by auto. rewrite E, HB. auto.
Qed.
Lemma fitsb_same : forall sg v, @fitsb c1 sg v = @fitsb c2 sg v.
Proof. intros. unfold fitsb. destruct sg; rewrite ?HB; auto. Qed.
Lemma clamp_same : forall sg v, @clamp c1 sg v = @clamp c2 sg v.
Proof. intros. unfold clamp, lo_of, hi_of. rewrite HB. auto. Qed.
Lemma wrapz_same : forall sg v, @wrapz c1 sg v = @wrapz c2 sg v.
Proof. intros. unfold wrapz. rewrite HB. auto. Qed.
Lemma mulf_same_u : forall a b, @mulf c1 false a b = @mulf c2 false a b.
Proof. intros. unfold mulf. rewrite fitsb_same. auto. Qed.
Lemma ovf_same_u : forall a, @ovf c1 false a = @ovf c2 false a.
Proof. intros. unfold ovf. rewrite fitsb_same. auto. Qed.
Lemma shift_ok_same : forall ps pw o, @shift_ok c1 ps pw o = @shift_ok c2 ps pw o.
Proof. intros. unfold shift_ok. rewrite HB. auto. Qed.
Lemma agree_ofZ : forall v v', v = v' -> agree (big c1 c2) (Ok (@ofZ c1 v)) (Ok (@ofZ c2 v')).
Proof. intros v v' <-. apply big_ofZ. Qed.
Lemma agree_flag : forall v v' b b', v = v' -> b = b' -> agree (flagged c1 c2) (Ok (@ofZ c1 v, b)) (Ok (@ofZ c2 v', b')).
Proof. intros v v' b b' <- <-. split; auto. apply big_ofZ. Qed.
Lemma agree_pair : forall v v' u u', v = v' -> u = u' ->
  agree (pair_of (big c1 c2) (big c1 c2)) (Ok (@ofZ c1 v, @ofZ c1 u)) (Ok (@ofZ c2 v', @ofZ c2 u')).
Proof. intros v v' u u' <- <-. split; apply big_ofZ. Qed.
Lemma agree_some : forall b b' v v', b = b' -> v = v' ->
  agree (opt_of (big c1 c2)) (Ok (@some_if c1 b v)) (Ok (@some_if c2 b' v')).
Proof. intros b b' v v' <- <-. destruct b; cbn; auto. apply big_ofZ. Qed.
Lemma agree_okif : forall b b' v v', b = b' -> v = v' -> agree (big c1 c2) (@ok_if c1 b v) (@ok_if c2 b' v').
Proof. intros b b' v v' <- <-. destruct b; cbn; auto. apply big_ofZ. Qed.
Lemma agree_op : forall sg v v', v = v' -> agree (big c1 c2) (@op_result c1 sg v) (@op_result c2 sg v').
Proof. intros sg v v' <-. unfold op_result. rewrite fitsb_same, HC. destruct (_ && _); cbn; auto. apply big_ofZ. Qed.
Lemma agree_if : forall {A} (R : A -> A -> Prop) (b b' : bool) m m' n n', b = b' -> agree R m m' -> agree R n n' ->
  agree R (if b then m else n) (if b' then m' else n').
Proof. intros A R [] b' m m' n n' <- H1 H2; auto. Qed.
Lemma agree_eq : forall {A} (a b : A), a = b -> agree (@eq A) (Ok a) (Ok b).
Proof. intros A a b <-. reflexivity. Qed.
End T.

Lemma is_tz_unique : forall b v r r', 0 <= b -> is_tz b v r -> is_tz b v r' -> r = r'.
Proof.
  intros b v r r' Hb [(H & H1)|(H & m & E)] [(H' & H1')|(H' & m' & E')]; subst; auto.
  - exfalso. symmetry in E'. apply Z.mul_eq_0 in E'. pose proof (Z.pow_pos_nonneg 2 r'). lia.
  - exfalso. apply Z.mul_eq_0 in H'. pose proof (Z.pow_pos_nonneg 2 r). lia.
  - assert (G : forall r r' m m', 0 <= r -> 0 <= r' -> 2 ^ r * (2 * m + 1) = 2 ^ r' * (2 * m' + 1) -> ~ r < r').
    { clear. intros r r' m m' Hr Hr' E L. assert (EP : 2 ^ r' = 2 ^ r * (2 * 2 ^ (r' - r - 1))).
      { rewrite <- Z.pow_succ_r by lia. rewrite <- Z.pow_add_r by lia. f_equal. lia. }
      rewrite EP, <- Z.mul_assoc in E. apply Z.mul_cancel_l in E; [|pose proof (Z.pow_pos_nonneg 2 r); lia].
      assert (2 * m + 1 = 2 * (2 ^ (r' - r - 1) * (2 * m' + 1))) by (rewrite E; ring). lia. }
    pose proof (G r r' m m' ltac:(lia) ltac:(lia) E'). pose proof (G r' r m' m ltac:(lia) ltac:(lia) (eq_sym E')). lia.
Qed.

(** After rewriting both sides with the exact equation of the operation. *)
Ltac two L V1 V2 := rewrite (L _ V1), (L _ V2) by (auto; lia).
Ltac fin SB :=
  cbn [val] in *;
  repeat match goal with
  | |- agree _ (if _ then _ else _) (if _ then _ else _) => apply agree_if
  | |- agree _ (Ok (ofZ _)) (Ok (ofZ _)) => apply (agree_ofZ _ _ SB)
  | |- agree _ (Ok (ofZ _, ofZ _)) (Ok (ofZ _, ofZ _)) => apply (agree_pair _ _ SB)
  | |- agree _ (Ok (ofZ _, _)) (Ok (ofZ _, _)) => apply (agree_flag _ _ SB)
  | |- agree _ (Ok (some_if _ _)) (Ok (some_if _ _)) => apply (agree_some _ _ SB)
  | |- agree _ (ok_if _ _) (ok_if _ _) => apply (agree_okif _ _ SB)
  | |- agree _ (op_result _ _) (op_result _ _) => apply (agree_op _ _ SB)
  | |- agree eq (Ok _) (Ok _) => apply agree_eq
  | |- agree _ Panic Panic => exact I
  end;
  rewrite ?(mulf_same_u _ _ SB), ?(ovf_same_u _ _ SB), ?(shift_ok_same _ _ SB), ?(wrapz_same _ _ SB), ?(fitsb_same _ _ SB), ?(clamp_same _ _ SB); try congruence; auto.
Ltac start SB :=
  pose proof (proj1 SB) as V1; pose proof (proj1 (proj2 SB)) as V2; pose proof (proj1 (proj2 (proj2 SB))) as HB; pose proof (proj2 (proj2 (proj2 SB))) as HC.
Ltac args SB :=
  repeat match goal with
  | H : big _ _ ?a ?b |- _ =>
      let E := fresh "EV" in pose proof (big_val _ _ SB _ _ H) as E;
      let E1 := fresh "EU" in pose proof (E false) as E1; let E2 := fresh "ES" in pose proof (E true) as E2; cbn [val] in E1, E2;
      let A := fresh "W1" in let B := fresh "W2" in let D := fresh "EQ" in destruct H as (A & B & D)
  end.
Ltac evs :=
  repeat match goal with
  | E : forall sg, @val ?c sg ?x = _ |- context [@val ?c ?sg ?x] => rewrite (E sg)
  | E : @uval ?c ?x = _ |- context [@uval ?c ?x] => rewrite E
  | E : @sval ?c ?x = _ |- context [@sval ?c ?x] => rewrite E
  | E : @BITS ?c = _ |- context [@BITS ?c] => rewrite E
  | E : @chk ?c = _ |- context [@chk ?c] => rewrite E
  end.
Ltac op2 L := let SB := match goal with H : same_build _ _ |- _ => H end in
  match goal with V1 : @Valid ?c1, V2 : @Valid ?c2 |- _ =>
  intros x1 x2 y1 y2 Hx Hy; args SB; rewrite (L c1 V1) by auto; rewrite (L c2 V2) by auto;
  evs; fin SB end.
Ltac op1 L := let SB := match goal with H : same_build _ _ |- _ => H end in
  match goal with V1 : @Valid ?c1, V2 : @Valid ?c2 |- _ =>
  intros x1 x2 Hx; args SB; rewrite (L c1 V1) by (auto; lia); rewrite (L c2 V2) by (auto; lia);
  evs; fin SB end.

(** ** C47 *)

Theorem C47_add_sub : forall c1 c2 sg, same_build c1 c2 ->
  same2 c1 c2 (big c1 c2) (fun c => @wrapping_add c sg) /\ same2 c1 c2 (big c1 c2) (fun c => @wrapping_sub c sg) /\
  same2 c1 c2 (flagged c1 c2) (fun c => @overflowing_add c sg) /\ same2 c1 c2 (flagged c1 c2) (fun c => @overflowing_sub c sg) /\
  same2 c1 c2 (opt_of (big c1 c2)) (fun c => @checked_add c sg) /\ same2 c1 c2 (opt_of (big c1 c2)) (fun c => @checked_sub c sg) /\
  same2 c1 c2 (big c1 c2) (fun c => @strict_add c sg) /\ same2 c1 c2 (big c1 c2) (fun c => @strict_sub c sg) /\
  same2 c1 c2 (big c1 c2) (fun c => @op_add c sg) /\ same2 c1 c2 (big c1 c2) (fun c => @op_sub c sg) /\
  same2 c1 c2 (big c1 c2) (fun c => @abs_diff c sg) /\
  same2 c1 c2 (big c1 c2) (@u_saturating_add) /\ same2 c1 c2 (big c1 c2) (@u_saturating_sub) /\
  same2 c1 c2 (big c1 c2) (@s_saturating_add) /\ same2 c1 c2 (big c1 c2) (@s_saturating_sub) /\
  (forall cy, same2 c1 c2 (flagged c1 c2) (fun c x y => @big_carrying_add c sg x y cy)) /\
  (forall cy, same2 c1 c2 (flagged c1 c2) (fun c x y => @big_borrowing_sub c sg x y cy)).
Proof.
  intros c1 c2 sg SB. start SB.
  split; [op2 @wrapping_add_ok|]. split; [op2 @wrapping_sub_ok|]. split; [op2 @overflowing_add_ok|]. split; [op2 @overflowing_sub_ok|].
  split; [op2 @checked_add_ok|]. split; [op2 @checked_sub_ok|]. split; [op2 @strict_add_ok|]. split; [op2 @strict_sub_ok|].
  split; [op2 @op_add_ok|]. split; [op2 @op_sub_ok|]. split; [op2 @abs_diff_ok|].
  split; [op2 @u_saturating_add_ok|]. split; [op2 @u_saturating_sub_ok|]. split; [op2 @s_saturating_add_ok|]. split; [op2 @s_saturating_sub_ok|].
  split; intro cy; [op2 @big_carrying_add_ok|op2 @big_borrowing_sub_ok].
Qed.
(** Wrapping multiplication of both types; the overflow-aware forms of the
    unsigned one (the signed ones differ, see below). *)
Theorem C47_mul : forall c1 c2 , same_build c1 c2 ->
  (forall sg, same2 c1 c2 (big c1 c2) (fun c => @wrapping_mul c sg)) /\
  same2 c1 c2 (flagged c1 c2) (fun c => @overflowing_mul c false) /\
  same2 c1 c2 (opt_of (big c1 c2)) (fun c => @checked_mul c false) /\
  same2 c1 c2 (big c1 c2) (fun c => @strict_mul c false) /\
  same2 c1 c2 (big c1 c2) (fun c => @op_mul c false) /\
  same2 c1 c2 (big c1 c2) (@u_saturating_mul) /\
  same2 c1 c2 (pair_of (big c1 c2) (big c1 c2)) (@widening_mul) /\
  same2 c1 c2 (big c1 c2) (@high_mul).
Proof.
  intros. match goal with H : same_build _ _ |- _ => start H end.
  split; [intros sg; op2 @wrapping_mul_ok|].
  split; [op2 @overflowing_mul_ok|].
  split; [op2 @checked_mul_ok|].
  split; [op2 @strict_mul_ok|].
  split; [op2 @op_mul_ok|].
  split; [op2 @u_saturating_mul_ok|].
  split; [op2 @widening_mul_ok|].
  op2 @high_mul_ok.
Qed.
Theorem C47_neg_abs : forall c1 c2, same_build c1 c2 ->
  same1 c1 c2 (big c1 c2) (@u_wrapping_neg) /\
  same1 c1 c2 (opt_of (big c1 c2)) (@u_checked_neg) /\
  same1 c1 c2 (big c1 c2) (@s_wrapping_neg) /\
  same1 c1 c2 (flagged c1 c2) (@s_overflowing_neg) /\
  same1 c1 c2 (opt_of (big c1 c2)) (@s_checked_neg) /\
  same1 c1 c2 (big c1 c2) (@s_strict_neg) /\
  same1 c1 c2 (big c1 c2) (@op_neg) /\
  same1 c1 c2 (big c1 c2) (@s_saturating_neg) /\
  same1 c1 c2 (big c1 c2) (@s_wrapping_abs) /\
  same1 c1 c2 (flagged c1 c2) (@s_overflowing_abs) /\
  same1 c1 c2 (opt_of (big c1 c2)) (@s_checked_abs) /\
  same1 c1 c2 (big c1 c2) (@s_strict_abs) /\
  same1 c1 c2 (big c1 c2) (@s_abs) /\
  same1 c1 c2 (big c1 c2) (@s_saturating_abs) /\
  same1 c1 c2 (big c1 c2) (@unsigned_abs) /\
  same1 c1 c2 (big c1 c2) (@signum).
Proof.
  intros. match goal with H : same_build _ _ |- _ => start H end.
  split; [op1 @u_wrapping_neg_ok|].
  split; [op1 @u_checked_neg_ok|].
  split; [op1 @s_wrapping_neg_ok|].
  split; [op1 @s_overflowing_neg_ok|].
  split; [op1 @s_checked_neg_ok|].
  split; [op1 @s_strict_neg_ok|].
  split; [op1 @op_neg_ok|].
  split; [op1 @s_saturating_neg_ok|].
  split; [op1 @s_wrapping_abs_ok|].
  split; [op1 @s_overflowing_abs_ok|].
  split; [op1 @s_checked_abs_ok|].
  split; [op1 @s_strict_abs_ok|].
  split; [op1 @s_abs_ok|].
  split; [op1 @s_saturating_abs_ok|].
  split; [op1 @unsigned_abs_ok|].
  op1 @signum_ok.
Qed.
Theorem C47_mixed : forall c1 c2, same_build c1 c2 ->
  same2 c1 c2 (big c1 c2) (@u_wrapping_add_signed) /\
  same2 c1 c2 (flagged c1 c2) (@u_overflowing_add_signed) /\
  same2 c1 c2 (flagged c1 c2) (@u_overflowing_sub_signed) /\
  same2 c1 c2 (opt_of (big c1 c2)) (@u_checked_add_signed) /\
  same2 c1 c2 (big c1 c2) (@u_strict_add_signed) /\
  same2 c1 c2 (big c1 c2) (@u_saturating_add_signed) /\
  same2 c1 c2 (opt_of (big c1 c2)) (@u_checked_signed_diff) /\
  same2 c1 c2 (big c1 c2) (@s_wrapping_sub_unsigned) /\
  same2 c1 c2 (flagged c1 c2) (@s_overflowing_add_unsigned) /\
  same2 c1 c2 (flagged c1 c2) (@s_overflowing_sub_unsigned) /\
  same2 c1 c2 (opt_of (big c1 c2)) (@s_checked_add_unsigned) /\
  same2 c1 c2 (opt_of (big c1 c2)) (@s_checked_sub_unsigned) /\
  same2 c1 c2 (big c1 c2) (@s_strict_add_unsigned) /\
  same2 c1 c2 (big c1 c2) (@s_strict_sub_unsigned) /\
  same2 c1 c2 (big c1 c2) (@s_saturating_add_unsigned) /\
  same2 c1 c2 (big c1 c2) (@s_saturating_sub_unsigned).
Proof.
  intros. match goal with H : same_build _ _ |- _ => start H end.
  split; [op2 @u_wrapping_add_signed_ok|].
  split; [op2 @u_overflowing_add_signed_ok|].
  split; [op2 @u_overflowing_sub_signed_ok|].
  split; [op2 @u_checked_add_signed_ok|].
  split; [op2 @u_strict_add_signed_ok|].
  split; [op2 @u_saturating_add_signed_ok|].
  split; [op2 @u_checked_signed_diff_ok|].
  split; [op2 @s_wrapping_sub_unsigned_ok|].
  split; [op2 @s_overflowing_add_unsigned_ok|].
  split; [op2 @s_overflowing_sub_unsigned_ok|].
  split; [op2 @s_checked_add_unsigned_ok|].
  split; [op2 @s_checked_sub_unsigned_ok|].
  split; [op2 @s_strict_add_unsigned_ok|].
  split; [op2 @s_strict_sub_unsigned_ok|].
  split; [op2 @s_saturating_add_unsigned_ok|].
  op2 @s_saturating_sub_unsigned_ok.
Qed.
Theorem C47_pow : forall c1 c2 e, same_build c1 c2 -> 0 <= e < 2 ^ 32 ->
  (forall sg, same1 c1 c2 (big c1 c2) (fun c x => @wrapping_pow c sg x e)) /\
  same1 c1 c2 (flagged c1 c2) (fun c x => @overflowing_pow c false x e) /\
  same1 c1 c2 (opt_of (big c1 c2)) (fun c x => @checked_pow c false x e) /\
  same1 c1 c2 (big c1 c2) (fun c x => @strict_pow c false x e) /\
  same1 c1 c2 (big c1 c2) (fun c x => @pow c false x e) /\
  same1 c1 c2 (big c1 c2) (fun c x => @u_saturating_pow c x e).
Proof.
  intros. match goal with H : same_build _ _ |- _ => start H end.
  split; [intros sg; op1 @wrapping_pow_ok|].
  split; [op1 @overflowing_pow_ok|].
  split; [op1 @checked_pow_ok|].
  split; [op1 @strict_pow_ok|].
  split; [op1 @pow_ok|].
  op1 @u_saturating_pow_ok.
Qed.
Theorem C47_shift : forall c1 c2 sg r, same_build c1 c2 -> 0 <= r < 2 ^ 32 ->
  same1 c1 c2 (big c1 c2) (fun c x => @wrapping_shl c x r) /\
  same1 c1 c2 (big c1 c2) (fun c x => @wrapping_shr c sg x r) /\
  same1 c1 c2 (opt_of (big c1 c2)) (fun c x => @checked_shl c x r) /\
  same1 c1 c2 (opt_of (big c1 c2)) (fun c x => @checked_shr c sg x r) /\
  same1 c1 c2 (big c1 c2) (fun c x => @strict_shl c x r) /\
  same1 c1 c2 (big c1 c2) (fun c x => @strict_shr c sg x r) /\
  same1 c1 c2 (big c1 c2) (fun c x => @unbounded_shl c x r) /\
  same1 c1 c2 (big c1 c2) (fun c x => @unbounded_shr c sg x r) /\
  same1 c1 c2 (flagged c1 c2) (fun c x => @s_overflowing_shl c x r) /\
  same1 c1 c2 (flagged c1 c2) (fun c x => @s_overflowing_shr c x r) /\
  same1 c1 c2 (big c1 c2) (fun c x => @rotate_left c x r) /\
  same1 c1 c2 (big c1 c2) (fun c x => @rotate_right c x r).
Proof.
  intros. match goal with H : same_build _ _ |- _ => start H end.
  split; [op1 @wrapping_shl_ok|].
  split; [op1 @wrapping_shr_ok|].
  split; [op1 @checked_shl_ok|].
  split; [op1 @checked_shr_ok|].
  split; [op1 @strict_shl_ok|].
  split; [op1 @strict_shr_ok|].
  split; [op1 @unbounded_shl_ok|].
  split; [op1 @unbounded_shr_ok|].
  split; [op1 @s_overflowing_shl_ok|].
  split; [op1 @s_overflowing_shr_ok|].
  split; [op1 @rotate_left_ok|].
  op1 @rotate_right_ok.
Qed.
Theorem C47_shift_ops : forall c1 c2 sg ps, same_build c1 c2 ->
  (forall pw o, 1 <= pw -> same1 c1 c2 (big c1 c2) (fun c x => @op_shl c ps pw x o)) /\
  (forall pw o, 1 <= pw -> same1 c1 c2 (big c1 c2) (fun c x => @op_shr c sg ps pw x o)) /\
  same2 c1 c2 (big c1 c2) (fun c => @op_shl_big c ps) /\
  same2 c1 c2 (big c1 c2) (fun c => @op_shr_big c sg ps) /\
  same2 c1 c2 (big c1 c2) (@op_shl_self) /\
  same2 c1 c2 (big c1 c2) (fun c => @op_shr_self c sg).
Proof.
  intros. match goal with H : same_build _ _ |- _ => start H end.
  split; [intros pw o Hpw; op1 @op_shl_ok|].
  split; [intros pw o Hpw; op1 @op_shr_ok|].
  split; [op2 @op_shl_big_ok|].
  split; [op2 @op_shr_big_ok|].
  split; [op2 @op_shl_self_ok|].
  op2 @op_shr_self_ok.
Qed.
Theorem C47_bits : forall c1 c2 , same_build c1 c2 ->
  same1 c1 c2 (big c1 c2) (@not_const) /\
  same2 c1 c2 (big c1 c2) (@bitand_const) /\
  same2 c1 c2 (big c1 c2) (@bitor_const) /\
  same2 c1 c2 (big c1 c2) (@bitxor_const) /\
  same1 c1 c2 (@eq Z) (@count_ones) /\
  same1 c1 c2 (@eq Z) (@count_zeros) /\
  same1 c1 c2 (@eq Z) (@leading_zeros) /\
  same1 c1 c2 (@eq bool) (fun _ => is_even).
Proof.
  intros. match goal with H : same_build _ _ |- _ => start H end.
  split; [op1 @not_const_ok|].
  split; [op2 @bitand_ok|].
  split; [op2 @bitor_ok|].
  split; [op2 @bitxor_ok|].
  split; [op1 @count_ones_ok|].
  split; [op1 @count_zeros_ok|].
  split; [op1 @leading_zeros_ok|].
  op1 @is_even_ok.
Qed.
Theorem C47_compare : forall c1 c2 sg, same_build c1 c2 ->
  same2 c1 c2 (@eq bool) (@eq_const) /\
  same2 c1 c2 (@eq bool) (fun c => @lt_const c sg) /\
  same2 c1 c2 (@eq bool) (fun c => @le_const c sg) /\
  same2 c1 c2 (@eq bool) (fun c => @gt_const c sg) /\
  same2 c1 c2 (@eq bool) (fun c => @ge_const c sg) /\
  same2 c1 c2 (@eq comparison) (fun c => @cmp_const c sg) /\
  same1 c1 c2 (@eq bool) (@is_negative) /\
  same1 c1 c2 (@eq bool) (@is_positive).
Proof.
  intros. match goal with H : same_build _ _ |- _ => start H end.
  split; [op2 @eq_const_ok|].
  split; [op2 @lt_const_ok|].
  split; [op2 @le_const_ok|].
  split; [op2 @gt_const_ok|].
  split; [op2 @ge_const_ok|].
  split; [op2 @cmp_const_ok|].
  split; [op1 @is_negative_ok|].
  op1 @is_positive_ok.
Qed.
Theorem C47_casts : forall c1 c2, same_build c1 c2 ->
  same1 c1 c2 (@eq Z) (@as_u8) /\
  same1 c1 c2 (@eq Z) (@as_u16) /\
  same1 c1 c2 (@eq Z) (@as_u32) /\
  same1 c1 c2 (@eq Z) (@as_u64) /\
  same1 c1 c2 (@eq Z) (@as_u128) /\
  same1 c1 c2 (@eq Z) (@as_i8) /\
  same1 c1 c2 (@eq Z) (@as_i16) /\
  same1 c1 c2 (@eq Z) (@as_i32) /\
  same1 c1 c2 (@eq Z) (@as_i64) /\
  same1 c1 c2 (@eq Z) (@as_i128).
Proof.
  intros. match goal with H : same_build _ _ |- _ => start H end.
  split; [op1 @as_u8_ok|].
  split; [op1 @as_u16_ok|].
  split; [op1 @as_u32_ok|].
  split; [op1 @as_u64_ok|].
  split; [op1 @as_u128_ok|].
  split; [op1 @as_i8_ok|].
  split; [op1 @as_i16_ok|].
  split; [op1 @as_i32_ok|].
  split; [op1 @as_i64_ok|].
  op1 @as_i128_ok.
Qed.
Theorem C47_misc : forall c1 c2 sg, same_build c1 c2 ->
  same1 c1 c2 (big c1 c2) (@wrapping_next_power_of_two) /\
  same1 c1 c2 (opt_of (big c1 c2)) (@checked_next_power_of_two) /\
  same1 c1 c2 (big c1 c2) (@next_power_of_two) /\
  same1 c1 c2 (@eq Z) (fun c => @ilog2 c sg) /\
  same2 c1 c2 (big c1 c2) (@u_midpoint) /\
  same2 c1 c2 (big c1 c2) (@s_midpoint).
Proof.
  intros. match goal with H : same_build _ _ |- _ => start H end.
  split; [op1 @wrapping_next_power_of_two_ok|].
  split; [op1 @checked_next_power_of_two_ok|].
  split; [op1 @next_power_of_two_ok|].
  split; [op1 @ilog2_ok|].
  split; [op2 @u_midpoint_ok|].
  op2 @s_midpoint_ok.
Qed.
(** Counts that the bit lemmas give by their defining property. *)
Theorem C47_runs : forall c1 c2, same_build c1 c2 ->
  same1 c1 c2 (@eq Z) (@trailing_zeros) /\ same1 c1 c2 (@eq Z) (@leading_ones) /\ same1 c1 c2 (@eq Z) (@trailing_ones).
Proof.
  intros c1 c2 SB. start SB. pose proof (BITS_pos V1). split; [|split]; intros x1 x2 Hx; args SB.
  - destruct (trailing_zeros_ok V1 x1 W1) as (r & -> & T). destruct (trailing_zeros_ok V2 x2 W2) as (r' & -> & T').
    rewrite EU, HB in T. cbn. eapply is_tz_unique; eauto. lia.
  - destruct (leading_ones_ok V1 x1 W1) as (r & -> & T). destruct (leading_ones_ok V2 x2 W2) as (r' & -> & T').
    rewrite EU, HB in T. cbn. eapply run_top_unique; eauto.
  - destruct (trailing_ones_ok V1 x1 W1) as (r & -> & T). destruct (trailing_ones_ok V2 x2 W2) as (r' & -> & T').
    rewrite EU, HB in T. cbn. eapply run_bot_unique; eauto.
Qed.
(** Conversions between primitives and big integers. *)
Theorem C47_primitives : forall c1 c2 sg ps p, same_build c1 c2 -> prim_ok p ->
  (forall v, pfits ps p v -> agree (big c1 c2) (@from_prim c1 ps p v) (@from_prim c2 ps p v) /\
     agree (opt_of (big c1 c2)) (@from_primitive c1 sg ps p v) (@from_primitive c2 sg ps p v)) /\
  same1 c1 c2 (@eq Z) (fun c => @as_prim c ps p) /\ same1 c1 c2 (@eq (option Z)) (fun c => @to_primitive c sg ps p).
Proof.
  intros c1 c2 sg ps p SB Hp. start SB. split; [|split].
  - intros v Hv. rewrite !(from_prim_ok V1), !(from_prim_ok V2), !(from_primitive_ok V1), !(from_primitive_ok V2) by auto. split; fin SB.
  - intros x1 x2 Hx. args SB. rewrite (as_prim_ok V1 sg), (as_prim_ok V2 sg) by auto. evs. fin SB.
  - intros x1 x2 Hx. args SB. rewrite (to_primitive_ok V1 sg), (to_primitive_ok V2 sg) by auto. evs. fin SB.
Qed.
(** Unsigned division: whenever both builds return, the quotients agree; and
    when the division is exact in both, so do the remainders. *)
Theorem C47_div_partial : forall c1 c2 x1 x2 y1 y2, same_build c1 c2 -> big c1 c2 x1 x2 -> big c1 c2 y1 y2 -> @uval c1 y1 <> 0 ->
  (forall q1 r1 q2 r2, @wrapping_div_rem c1 false x1 y1 = Ok (q1, r1) -> @wrapping_div_rem c2 false x2 y2 = Ok (q2, r2) -> big c1 c2 q1 q2) /\
  (exact_division (@W c1) (@N c1) (@uval c1 x1) (@uval c1 y1) -> exact_division (@W c2) (@N c2) (@uval c2 x2) (@uval c2 y2) ->
   agree (pair_of (big c1 c2) (big c1 c2)) (@wrapping_div_rem c1 false x1 y1) (@wrapping_div_rem c2 false x2 y2)).
Proof.
  intros c1 c2 x1 x2 y1 y2 SB Hx Hy H0. start SB. args SB. assert (H0' : @uval c2 y2 <> 0) by congruence. split.
  - intros q1 r1 q2 r2 E1 E2. destruct (C08_quotient_u c1 x1 y1 q1 r1 V1 W0 W1 H0 E1) as (A & _ & B & _).
    destruct (C08_quotient_u c2 x2 y2 q2 r2 V2 W3 W2 H0' E2) as (A' & _ & B' & _). split; auto. split; auto. congruence.
  - intros X1 X2. destruct (C07_div_rem_partial c1 x1 y1 V1 W0 W1 H0 X1) as ((q & r & E & A & B & C & D) & _).
    destruct (C07_div_rem_partial c2 x2 y2 V2 W3 W2 H0' X2) as ((q' & r' & E' & A' & B' & C' & D') & _).
    rewrite E, E'. split; cbn; (split; [|split]; auto; congruence).
Qed.
(** Where the builds differ: signed checked multiplication reports overflow in
    one and not in the other, division gives different remainders, or a
    remainder in one and a panic in the other. *)
Theorem C47_checked_mul_refuted : exists c1 c2 x1 x2 y1 y2 r, same_build c1 c2 /\ big c1 c2 x1 x2 /\ big c1 c2 y1 y2 /\
  @checked_mul c1 true x1 y1 = Ok (Some r) /\ @checked_mul c2 true x2 y2 = Ok None.
Proof.
  exists c256_32, c256_64, (E32 (2 ^ 200)), (E64 (2 ^ 200)), (E32 (- (2 ^ 55 + 1))), (E64 (- (2 ^ 55 + 1))).
  eexists. assert (SB : same_build c256_32 c256_64) by (split; [apply valid_c256_32|]; split; [apply valid_c256_64|]; split; reflexivity).
  split; [exact SB|]. split; [apply (big_ofZ _ _ SB)|]. split; [apply (big_ofZ _ _ SB)|]. split; vm_compute; reflexivity.
Qed.
Theorem C47_rem_refuted : exists c1 c2 x1 x2 y1 y2 r1 r2, same_build c1 c2 /\ big c1 c2 x1 x2 /\ big c1 c2 y1 y2 /\
  @op_rem c1 false x1 y1 = Ok r1 /\ @op_rem c2 false x2 y2 = Ok r2 /\ @uval c1 r1 = 0 /\ @uval c2 r2 <> 0.
Proof.
  set (y := 2 ^ 126 + 2 ^ 63 - 1). set (q := (2 ^ 64 - 2) * 2 ^ 64 + 100).
  exists c256_32, c256_64, (E32 (q * y)), (E64 (q * y)), (E32 y), (E64 y), (E32 0), (E64 3138550867693340381917894711603833208051177722232017256448).
  assert (SB : same_build c256_32 c256_64) by (split; [apply valid_c256_32|]; split; [apply valid_c256_64|]; split; reflexivity).
  split; [exact SB|]. split; [apply (big_ofZ _ _ SB)|]. split; [apply (big_ofZ _ _ SB)|].
  vm_compute. repeat split. discriminate.
Qed.
Theorem C47_div_refuted : exists c1 c2 x1 x2 y1 y2 r, same_build c1 c2 /\ big c1 c2 x1 x2 /\ big c1 c2 y1 y2 /\
  @op_div c1 false x1 y1 = Ok r /\ @op_div c2 false x2 y2 = Panic.
Proof.
  exists c256_32, c256_64, (E32 (2 ^ 193 + 1)), (E64 (2 ^ 193 + 1)), (E32 (2 ^ 192 + 1)), (E64 (2 ^ 192 + 1)), (E32 1).
  assert (SB : same_build c256_32 c256_64) by (split; [apply valid_c256_32|]; split; [apply valid_c256_64|]; split; reflexivity).
  split; [exact SB|]. split; [apply (big_ofZ _ _ SB)|]. split; [apply (big_ofZ _ _ SB)|].
  vm_compute. auto.
Qed.
(** The two real builds of the 256-bit types meet the hypothesis. *)
Example C47_ex1 : same_build c256_32 c256_64 /\ big c256_32 c256_64 (E32 (2 ^ 255 + 77)) (E64 (2 ^ 255 + 77)).
Proof.
  assert (SB : same_build c256_32 c256_64) by (split; [apply valid_c256_32|]; split; [apply valid_c256_64|]; split; reflexivity).
  split; [exact SB|apply (big_ofZ _ _ SB)].
Qed.
Example C47_ex2 : @op_mul c256_32 false (E32 (2 ^ 200)) (E32 (2 ^ 55 + 9)) = Ok (E32 (2 ^ 255 + 9 * 2 ^ 200))
  /\ @op_mul c256_64 false (E64 (2 ^ 200)) (E64 (2 ^ 55 + 9)) = Ok (E64 (2 ^ 255 + 9 * 2 ^ 200))
  /\ E32 (2 ^ 255 + 9 * 2 ^ 200) <> E64 (2 ^ 255 + 9 * 2 ^ 200).
Proof. vm_compute. split; auto. split; auto. discriminate. Qed.

(** ** Assumptions (each must print "Closed under the global context") *)

Print Assumptions C47_add_sub.
Print Assumptions C47_mul.
Print Assumptions C47_neg_abs.
Print Assumptions C47_mixed.
Print Assumptions C47_pow.
Print Assumptions C47_shift.
Print Assumptions C47_shift_ops.
Print Assumptions C47_bits.
Print Assumptions C47_compare.
Print Assumptions C47_casts.
Print Assumptions C47_misc.
Print Assumptions C47_runs.
Print Assumptions C47_primitives.
Print Assumptions C47_div_partial.
Print Assumptions C47_checked_mul_refuted.
Print Assumptions C47_rem_refuted.
Print Assumptions C47_div_refuted.
