(** * Properties: a crate whose build script has a setting of its own (C104)

    [h] is the answer of build.rs, [@chk c] the setting the crate itself is
    compiled with.  Nearly everything follows the answer alone: with it, a
    definition does what the same definition does in a build where both are
    [h].  The exceptions are the forms with a plain subtraction or addition that
    can overflow, and those follow the crate's own setting. *)

Require Import ZArith List Bool Lia.
From Verif Require Import Prim Spec Facts MAdd MMul MShift MCore PCore PBits PWide MArith PArith PArith2 PPow PMisc PBits2 PRot PRet
  MDiv DivSpec MApi PApi PApi2 PApi3 PIlog MScalar PScalar PScalarDiv TextSpec MParse PParse MWrite PWrite PWrite2 PParse2 PropsParse PropsWrite MTraits PTraits
  PropsDiv PropsScalar PropsCoherent PropsBuild MBuild.
Import ListNotations.
Local Open Scope Z_scope.

(** ** The build script *)

Theorem C104_script : forall script : Cfg, have_overflow_checks script = @chk script.
Proof. intros script. unfold have_overflow_checks, script_overflow, uadd, uchk. cbn. destruct chk; reflexivity. Qed.

(** With both settings equal these are the definitions of the other model
    files. *)
Theorem C104_same_code : forall c : Cfg,
  @b_op_add c chk = op_add /\ @b_op_sub c chk = op_sub /\ @b_op_mul c chk = op_mul /\ @b_op_div c chk = op_div /\
  @b_op_rem c chk = op_rem /\ @b_op_neg c chk = op_neg /\ @b_div_rem c chk = div_rem /\ @b_div_euclid c chk = div_euclid /\
  @b_rem_euclid c chk = rem_euclid /\ @b_pow c chk = pow /\ @b_next_power_of_two c chk = next_power_of_two /\
  @b_op_shl c chk = op_shl /\ @b_op_shr c chk = op_shr /\ @b_op_shl_big c chk = op_shl_big /\ @b_op_shr_big c chk = op_shr_big /\
  @b_add_ulimb c chk = add_ulimb /\ @b_sub_ulimb c chk = sub_ulimb /\ @b_plain_us c chk = plain_us /\ @b_plain_is c chk = plain_is /\
  @b_div_rem_is c chk = div_rem_is /\ @b_carrying_mul c chk = carrying_mul /\ @b_s_div_ceil c chk = s_div_ceil /\
  @b_u_next_multiple_of c chk = u_next_multiple_of /\ @b_s_next_multiple_of c chk = s_next_multiple_of /\
  @b_s_checked_next_multiple_of c chk = s_checked_next_multiple_of /\ @b_u_checked_ilog c chk = u_checked_ilog /\
  @b_u_ilog c chk = u_ilog /\ @b_s_checked_ilog c chk = s_checked_ilog /\ @b_s_ilog c chk = s_ilog /\
  @b_wrapping_div_rem_us c chk = wrapping_div_rem_us /\ @b_overflowing_div_rem_us c chk = overflowing_div_rem_us /\
  @b_checked_div_rem_us c chk = checked_div_rem_us /\ @b_div_rem_us c chk = div_rem_us /\ @b_to_str_radix c chk = to_str_radix /\
  @b_nt_mul_add c chk = nt_mul_add /\ @b_nt_abs_sub c chk = nt_abs_sub /\ @b_nt_signum c chk = nt_signum /\
  @b_nt_signed_shl c chk = nt_signed_shl /\ @b_nt_signed_shr c chk = nt_signed_shr /\
  @b_nt_unsigned_shl c chk = nt_unsigned_shl /\ @b_nt_unsigned_shr c chk = nt_unsigned_shr.
Proof.
  intros c.
  repeat (match goal with |- _ /\ _ => split; [reflexivity|] end). reflexivity.
Qed.

(** ** Lemmas *)

Section L.
Variable c : Cfg.
Hypothesis HV : @Valid c.
Variable h : bool.
Local Notation hc := (with_checks h c).

Ltac flag Lw Lc := destruct h; cbn [chk with_checks negb]; [rewrite (Lc c HV), (Lc (with_checks true c) HV) by side
  | rewrite (Lw c HV), (Lw (with_checks false c) HV) by side]; reflexivity.

Lemma l_op_add : forall sg x y, wf x -> wf y -> b_op_add h sg x y = @op_add hc sg x y.
Proof. intros. unfold b_op_add, op_add. flag @wrapping_add_ok @checked_add_ok. Qed.
Lemma l_op_sub : forall sg x y, wf x -> wf y -> b_op_sub h sg x y = @op_sub hc sg x y.
Proof. intros. unfold b_op_sub, op_sub. flag @wrapping_sub_ok @checked_sub_ok. Qed.
Lemma l_op_mul : forall sg x y, wf x -> wf y -> b_op_mul h sg x y = @op_mul hc sg x y.
Proof. intros. unfold b_op_mul, op_mul. flag @wrapping_mul_ok @checked_mul_ok. Qed.
Lemma l_add_ulimb : forall sg x n, wf x -> fits_u W n -> b_add_ulimb h sg x n = @add_ulimb hc sg x n.
Proof. intros. unfold b_add_ulimb, add_ulimb. flag @wrapping_add_ulimb_ok @checked_add_ulimb_ok. Qed.
Lemma l_sub_ulimb : forall sg x n, wf x -> fits_u W n -> b_sub_ulimb h sg x n = @sub_ulimb hc sg x n.
Proof. intros. unfold b_sub_ulimb, sub_ulimb. flag @wrapping_sub_ulimb_ok @checked_sub_ulimb_ok. Qed.
Lemma l_op_neg : forall x, wf x -> b_op_neg h x = @op_neg hc x.
Proof. intros. unfold b_op_neg, op_neg. flag @s_wrapping_neg_ok @s_checked_neg_ok. Qed.
Lemma l_pow : forall sg x e, wf x -> 0 <= e < 2 ^ 32 -> b_pow h sg x e = @pow hc sg x e.
Proof. intros. unfold b_pow, pow. flag @wrapping_pow_ok @strict_pow_ok. Qed.
Lemma l_next_power_of_two : forall x, wf x -> b_next_power_of_two h x = @next_power_of_two hc x.
Proof. intros. unfold b_next_power_of_two, next_power_of_two. flag @wrapping_next_power_of_two_ok @checked_next_power_of_two_ok. Qed.
Lemma l_div_rem : forall sg x y, wf x -> wf y -> b_div_rem h sg x y = @div_rem hc sg x y.
Proof. intros. unfold b_div_rem, div_rem. flag @wrapping_div_rem_ok @checked_div_rem_ok. Qed.
Lemma l_op_div : forall sg x y, wf x -> wf y -> b_op_div h sg x y = @op_div hc sg x y.
Proof. intros. unfold b_op_div, op_div. flag @wrapping_div_ok @checked_div_ok. Qed.
Lemma l_op_rem : forall sg x y, wf x -> wf y -> b_op_rem h sg x y = @op_rem hc sg x y.
Proof. intros. unfold b_op_rem, op_rem. flag @wrapping_rem_ok @checked_rem_ok. Qed.
Lemma l_div_euclid : forall sg x y, wf x -> wf y -> b_div_euclid h sg x y = @div_euclid hc sg x y.
Proof. intros. unfold b_div_euclid, div_euclid. flag @wrapping_div_euclid_ok @checked_div_euclid_ok. Qed.
Lemma l_rem_euclid : forall sg x y, wf x -> wf y -> b_rem_euclid h sg x y = @rem_euclid hc sg x y.
Proof.
  intros sg x y Hx Hy. unfold b_rem_euclid, rem_euclid. destruct sg; [flag @wrapping_rem_euclid_ok @checked_rem_euclid_ok|].
  flag @wrapping_rem_ok @checked_rem_euclid_ok.
Qed.
Lemma l_op_shl : forall ps pw x o, wf x -> b_op_shl h ps pw x o = @op_shl hc ps pw x o.
Proof.
  intros ps pw x o Hx. pose proof (ucast_range 32 o ltac:(lia)) as R. unfold b_op_shl, op_shl. cbn [chk with_checks].
  rewrite (@wrapping_shl_ok c HV), (@wrapping_shl_ok hc HV) by side. reflexivity.
Qed.
Lemma l_op_shr : forall sg ps pw x o, wf x -> b_op_shr h sg ps pw x o = @op_shr hc sg ps pw x o.
Proof.
  intros sg ps pw x o Hx. pose proof (ucast_range 32 o ltac:(lia)) as R. unfold b_op_shr, op_shr. cbn [chk with_checks].
  rewrite (@wrapping_shr_ok c HV), (@wrapping_shr_ok hc HV) by side. reflexivity.
Qed.
Lemma l_guard : forall ps o, wf o ->
  (let* b := @from_u32 c tbits in let* is_above := ge_const ps o b in let* z := from_u32 0 in
   let* is_below := lt_const ps o z in assert_ (negb (is_above || is_below))) =
  (let* b := @from_u32 hc (@tbits hc) in let* is_above := @ge_const hc ps o b in let* z := @from_u32 hc 0 in
   let* is_below := @lt_const hc ps o z in assert_ (negb (is_above || is_below))).
Proof.
  intros ps o Ho. rewrite (@big_amount c HV), (@big_amount hc HV) by assumption. reflexivity.
Qed.
Lemma l_op_shl_big : forall ps x o, wf x -> wf o -> b_op_shl_big h ps x o = @op_shl_big hc ps x o.
Proof.
  intros ps x o Hx Ho. unfold b_op_shl_big, op_shl_big. cbn [chk with_checks]. rewrite l_guard by assumption.
  rewrite (@as_u32_ok c HV), (@as_u32_ok hc HV) by assumption. cbn [bind].
  assert (R : 0 <= @uval c o mod 2 ^ 32 < 2 ^ 32) by (apply Z.mod_pos_bound; lia).
  rewrite (@wrapping_shl_ok c HV), (@wrapping_shl_ok hc HV) by assumption. reflexivity.
Qed.
Lemma l_op_shr_big : forall sg ps x o, wf x -> wf o -> b_op_shr_big h sg ps x o = @op_shr_big hc sg ps x o.
Proof.
  intros sg ps x o Hx Ho. unfold b_op_shr_big, op_shr_big. cbn [chk with_checks]. rewrite l_guard by assumption.
  rewrite (@as_u32_ok c HV), (@as_u32_ok hc HV) by assumption. cbn [bind].
  assert (R : 0 <= @uval c o mod 2 ^ 32 < 2 ^ 32) by (apply Z.mod_pos_bound; lia).
  rewrite (@wrapping_shr_ok c HV), (@wrapping_shr_ok hc HV) by assumption. reflexivity.
Qed.

(** the scalar forms: from C59, which compares the two extremes *)
Lemma c_cases : forall b, c = with_checks b c \/ c = with_checks (negb b) c.
Proof. intros b. destruct c as [w n [] d], b; cbn; auto. Qed.
Lemma l_plain_us : forall o k sg x n, wf x -> fits_u (kbits k) n -> b_plain_us h o k sg x n = @plain_us hc o k sg x n.
Proof.
  intros o k sg x n Hx Hn. unfold b_plain_us, plain_us. destruct (C59_scalar_u c o k sg x n HV Hx Hn) as (A & _ & B & _). unfold debug, release in A, B.
  destruct h; cbn [chk with_checks negb]; destruct (c_cases true) as [E|E]; cbn [negb] in E.
  - rewrite E at 1. reflexivity.
  - rewrite E at 1. rewrite B. reflexivity.
  - rewrite E at 1. exact A.
  - rewrite E at 1. reflexivity.
Qed.
Lemma l_plain_is : forall o k x n, wf x -> fits_s (kbits k) n -> b_plain_is h o k x n = @plain_is hc o k x n.
Proof.
  intros o k x n Hx Hn. unfold b_plain_is, plain_is. destruct (C59_scalar_s c o k x n HV Hx Hn) as (A & _ & B & _). unfold debug, release in A, B.
  destruct h; cbn [chk with_checks negb]; destruct (c_cases true) as [E|E]; cbn [negb] in E.
  - rewrite E at 1. reflexivity.
  - rewrite E at 1. rewrite B. reflexivity.
  - rewrite E at 1. exact A.
  - rewrite E at 1. reflexivity.
Qed.
Lemma l_div_rem_is : forall k x n, wf x -> fits_s (kbits k) n -> b_div_rem_is h k x n = @div_rem_is hc k x n.
Proof.
  intros k x n Hx Hn. unfold b_div_rem_is, div_rem_is. destruct (C59_scalar_div_s c k x n HV Hx Hn) as (A & _ & B & _). unfold debug, release in A, B.
  destruct h; cbn [chk with_checks negb]; destruct (c_cases true) as [E|E]; cbn [negb] in E.
  - rewrite E at 1. reflexivity.
  - rewrite E at 1. rewrite B. reflexivity.
  - rewrite E at 1. exact A.
  - rewrite E at 1. reflexivity.
Qed.

(** ** … and the definitions that call them *)

Lemma bind_eq : forall A B (m1 m2 : res A) (k1 k2 : A -> res B),
  m1 = m2 -> (forall a, m2 = Ok a -> k1 a = k2 a) -> bind m1 k1 = bind m2 k2.
Proof. intros A B m1 m2 k1 k2 -> H. destruct m2; cbn [bind]; auto. Qed.
Lemma if_eq : forall A (t t' : bool) (a a' b b' : A), t = t' -> a = a' -> b = b' -> (if t then a else b) = (if t' then a' else b').
Proof. intros. subst. reflexivity. Qed.
Lemma op_result_wf : forall (c : Cfg) sg v r, @Valid c -> op_result sg v = Ok r -> wf r.
Proof. clear. intros c sg v r HV E. unfold op_result in E. destruct (_ && _); inversion E; subst. apply (wf_ofZ HV). Qed.
Lemma opd_wf : forall (c : Cfg) sg x y o r, @Valid c -> opd sg x y o = Ok r -> wf r.
Proof.
  clear. intros c sg x y o r HV E. unfold opd in E. destruct (_ && _); [discriminate|]. destruct o; inversion E; subst. apply (wf_ofZ HV).
Qed.
Ltac two L := rewrite (L c HV) by (try assumption; apply (@wf_ofZ c HV)); rewrite (L hc HV) by (try assumption; apply (@wf_ofZ c HV)).
Ltac same_wf := try assumption; try apply (@wf_ofZ c HV).
Lemma F8 : forall v, 0 <= v <= 2 -> fits_u 8 v.
Proof. intros v Hv. unfold fits_u. lia. Qed.

Lemma l_carrying_mul : forall x y z, wf x -> wf y -> wf z -> b_carrying_mul h x y z = @carrying_mul hc x y z.
Proof.
  intros x y z Hx Hy Hz. unfold b_carrying_mul, carrying_mul.
  rewrite (@mul_widening_wf c HV), (@mul_widening_wf hc HV) by assumption. cbn [bind].
  rewrite (@mk_ok c HV), (@mk_ok hc HV). cbn [bind]. rewrite (@mk_ok c HV), (@mk_ok hc HV).
  two @overflowing_add_ok. cbn [bind].
  rewrite l_add_ulimb; [reflexivity|apply (wf_ofZ HV)|]. pose proof (W_cases HV) as [E|E]; unfold fits_u; rewrite E; destruct (negb _); cbn; lia.
Qed.
Lemma l_s_div_ceil : forall x y, wf x -> wf y -> b_s_div_ceil h x y = @s_div_ceil hc x y.
Proof.
  intros x y Hx Hy. unfold b_s_div_ceil, s_div_ceil. two @wrapping_div_rem_ok.
  change (@lift_qr hc) with (@lift_qr c). change (@soutcome hc) with (@soutcome c). change (@val hc) with (@val c).
  apply bind_eq; [reflexivity|]. intros [d r] Hd.
  assert (D : wf d /\ wf r). { destruct (soutcome _ _) as [[q t]|]; inversion Hd; subst. split; apply (wf_ofZ HV). } destruct D as (Wd & Wr).
  rewrite (@from_u8_ok c HV), (@from_u8_ok hc HV) by (apply F8; lia). cbn [bind].
  two @bitxor_ok. cbn [bind]. change (@tbits hc) with (@tbits c). rewrite tbits_BITS.
  pose proof (BITS_lt31 HV) as B31. pose proof (BITS_pos HV) as B1.
  assert (FB : fits_u 32 (@BITS c - 1)) by (unfold fits_u; lia).
  unfold usub. rewrite (@uchk_ok c), (@uchk_ok hc) by exact FB. cbn [bind].
  rewrite l_op_shr by apply (wf_ofZ HV).
  apply bind_eq; [reflexivity|]. intros mask Hm.
  assert (Wm : wf mask).
  { rewrite (@op_shr_ok hc HV) in Hm by (try lia; apply (@wf_ofZ c HV)). destruct (_ && _); inversion Hm; subst. apply (@wf_ofZ c HV). }
  rewrite l_op_add by same_wf. apply bind_eq; [reflexivity|]. intros cr Hc.
  assert (Wc : wf cr). { rewrite (@op_add_ok hc HV) in Hc by same_wf. apply (op_result_wf hc _ _ _ HV Hc). }
  rewrite (@from_u8_ok c HV), (@from_u8_ok hc HV) by (apply F8; lia). cbn [bind]. two @eq_const_ok. cbn [bind].
  two @wrapping_add_ok. reflexivity.
Qed.
Lemma l_u_next_multiple_of : forall x y, wf x -> wf y -> b_u_next_multiple_of h x y = @u_next_multiple_of hc x y.
Proof.
  intros x y Hx Hy. unfold b_u_next_multiple_of, u_next_multiple_of. rewrite l_op_rem by assumption.
  apply bind_eq; [reflexivity|]. intros r Hr. assert (Wr : wf r). { rewrite (@op_rem_ok hc HV) in Hr by assumption. apply (opd_wf hc _ _ _ _ _ HV Hr). }
  rewrite (@u_min_value_ok c HV), (@u_min_value_ok hc HV). cbn [bind]. change (@ofZ hc) with (@ofZ c).
  destruct (derived_eq r (ofZ 0)); [reflexivity|]. rewrite l_op_sub by assumption. apply bind_eq; [reflexivity|].
  intros d Hd. assert (Wd : wf d). { rewrite (@op_sub_ok hc HV) in Hd by assumption. apply (op_result_wf hc _ _ _ HV Hd). }
  apply l_op_add; assumption.
Qed.
Lemma l_s_next_multiple_of : forall x y, wf x -> wf y -> b_s_next_multiple_of h x y = @s_next_multiple_of hc x y.
Proof.
  intros x y Hx Hy. unfold b_s_next_multiple_of, s_next_multiple_of.
  assert (F1 : fits_s 8 (-1)) by (unfold fits_s; lia). rewrite (@from_i8_ok c HV), (@from_i8_ok hc HV) by exact F1. cbn [bind].
  two @eq_const_ok. cbn [bind]. apply if_eq; [reflexivity|reflexivity|].
  rewrite (@from_u8_ok c HV), (@from_u8_ok hc HV) by (apply F8; lia). cbn [bind].
  rewrite l_op_rem by assumption.
  apply bind_eq; [reflexivity|]. intros r Hr. assert (Wr : wf r). { rewrite (@op_rem_ok hc HV) in Hr by assumption. apply (opd_wf hc _ _ _ _ _ HV Hr). }
  rewrite !(@gt_const_ok c HV), !(@gt_const_ok hc HV), !(@lt_const_ok c HV), !(@lt_const_ok hc HV) by same_wf. cbn [bind].
  change (@val hc) with (@val c). change (@ofZ hc) with (@ofZ c). rewrite l_op_add by assumption.
  apply bind_eq; [reflexivity|]. intros m Hm.
  assert (Wm : wf m).
  { destruct (_ || _); [|inversion Hm; subst; assumption]. rewrite (@op_add_ok hc HV) in Hm by assumption. apply (op_result_wf hc _ _ _ HV Hm). }
  two @eq_const_ok. cbn [bind]. apply if_eq; [reflexivity|reflexivity|].
  rewrite l_op_sub by assumption. apply bind_eq; [reflexivity|].
  intros d Hd. assert (Wd : wf d). { rewrite (@op_sub_ok hc HV) in Hd by assumption. apply (op_result_wf hc _ _ _ HV Hd). }
  apply l_op_add; assumption.
Qed.
Lemma l_s_checked_next_multiple_of : forall x y, wf x -> wf y ->
  b_s_checked_next_multiple_of h x y = @s_checked_next_multiple_of hc x y.
Proof.
  intros x y Hx Hy. unfold b_s_checked_next_multiple_of, s_checked_next_multiple_of.
  assert (F1 : fits_s 8 (-1)) by (unfold fits_s; lia). rewrite (@from_i8_ok c HV), (@from_i8_ok hc HV) by exact F1. cbn [bind].
  two @eq_const_ok. cbn [bind]. apply if_eq; [reflexivity|reflexivity|].
  rewrite (@from_u8_ok c HV), (@from_u8_ok hc HV) by (apply F8; lia). cbn [bind].
  two @checked_rem_ok. apply bind_eq; [reflexivity|]. intros [r|] Hr; [|reflexivity].
  assert (Wr : wf r).
  { unfold chko in Hr. destruct (dnone _ _ _); [discriminate|]. destruct (sr _ _); inversion Hr; subst. apply (@wf_ofZ c HV). }
  rewrite !(@is_positive_ok c HV), !(@is_positive_ok hc HV), !(@is_negative_ok c HV), !(@is_negative_ok hc HV) by same_wf. cbn [bind].
  change (@sval hc) with (@sval c). change (@ofZ hc) with (@ofZ c). rewrite l_op_add by assumption.
  apply bind_eq; [reflexivity|]. intros m Hm.
  assert (Wm : wf m).
  { destruct (_ || _); [|inversion Hm; subst; assumption]. rewrite (@op_add_ok hc HV) in Hm by assumption. apply (op_result_wf hc _ _ _ HV Hm). }
  two @eq_const_ok. cbn [bind]. apply if_eq; [reflexivity|reflexivity|].
  rewrite l_op_sub by assumption. apply bind_eq; [reflexivity|].
  intros d Hd. assert (Wd : wf d). { rewrite (@op_sub_ok hc HV) in Hd by assumption. apply (op_result_wf hc _ _ _ HV Hd). }
  two @checked_add_ok. reflexivity.
Qed.

Lemma div_S : forall a b, 0 <= a -> 0 <= b -> 0 <= a / (b + 1) <= a.
Proof.
  clear. intros a b Ha Hb. split; [apply Z.div_pos; lia|]. apply Z.div_le_upper_bound; nia.
Qed.
Lemma l_ilog_loop : forall f x b n r, wf x -> wf b -> wf r -> 0 <= n -> n + Z.of_nat f < 2 ^ 32 ->
  b_ilog_loop h f x b n r = @ilog_loop hc f x b n r.
Proof.
  induction f as [|f IH]; intros x b n r Hx Hb Hr Hn Hf; [reflexivity|]. cbn [b_ilog_loop ilog_loop].
  rewrite l_op_div by assumption. apply bind_eq; [reflexivity|]. intros q Hq.
  assert (Wq : wf q). { rewrite (@op_div_ok hc HV) in Hq by assumption. apply (opd_wf hc _ _ _ _ _ HV Hq). }
  two @le_const_ok. cbn [bind]. apply if_eq; [reflexivity| |reflexivity].
  assert (F : fits_u 32 (n + 1)) by (unfold fits_u; lia). unfold uadd. rewrite (@uchk_ok c), (@uchk_ok hc) by exact F. cbn [bind].
  rewrite l_op_mul by assumption. apply bind_eq; [reflexivity|]. intros r' Hr'.
  apply IH; try assumption; [|lia|lia]. rewrite (@op_mul_ok hc HV) in Hr' by assumption. destruct (_ && _); inversion Hr'; subst. apply (@wf_ofZ c HV).
Qed.
Lemma l_u_checked_ilog : forall x b, wf x -> wf b -> b_u_checked_ilog h x b = @u_checked_ilog hc x b.
Proof.
  intros x b Hx Hb. pose proof (BITS_lt31 HV) as B31. pose proof (BITS_pos HV) as B1.
  unfold b_u_checked_ilog, u_checked_ilog, u_checked_ilog_fuel.
  rewrite (@from_u8_ok c HV), (@from_u8_ok hc HV) by (apply F8; lia). cbn [bind].
  two @le_const_ok. two @lt_const_ok. cbn [bind]. change (@ofZ hc) with (@ofZ c). change (@val hc) with (@val c). change (@tbits hc) with (@tbits c).
  change (@W hc) with (@W c).
  apply if_eq; [reflexivity|reflexivity|].
  assert (LB : forall z, 0 < z -> z < 2 ^ @BITS c -> 0 <= Z.log2 z < @BITS c).
  { intros z H0 H1. split; [apply Z.log2_nonneg|]. apply Z.log2_lt_pow2; auto. }
  apply bind_eq.
  - apply if_eq; [reflexivity| |reflexivity]. rewrite !(@ilog2_ok c HV), !(@ilog2_ok hc HV) by assumption. change (@val hc) with (@val c).
    cbn [val]. pose proof (uval_range HV x Hx) as Rx. pose proof (uval_range HV b Hb) as Rb.
    destruct (Z.leb_spec (uval x) 0) as [X0|X0]; cbn [bind]; [reflexivity|]. destruct (Z.leb_spec (uval b) 0) as [Y0|Y0]; cbn [bind]; [reflexivity|].
    pose proof (LB (uval x) X0 (proj2 Rx)) as LX. pose proof (LB (uval b) Y0 (proj2 Rb)) as LY.
    assert (F : fits_u 32 (Z.log2 (uval b) + 1)) by (unfold fits_u; lia). unfold uadd. rewrite (@uchk_ok c), (@uchk_ok hc) by exact F. cbn [bind].
    apply bind_eq; [reflexivity|]. intros n Hn.
    assert (0 <= n < 2 ^ 32).
    { unfold udiv in Hn. destruct (Z.eqb_spec (Z.log2 (uval b) + 1) 0); [discriminate|]. inversion Hn. subst n.
      pose proof (div_S (Z.log2 (uval x)) (Z.log2 (uval b)) (proj1 LX) (proj1 LY)). lia. }
    rewrite l_pow by assumption. reflexivity.
  - intros [n r] E.
    assert (D : wf r /\ 0 <= n <= @BITS c).
    { destruct (_ <=? _); [|inversion E; subst; split; [assumption|lia]].
      rewrite !(@ilog2_ok hc HV) in E by assumption. change (@val hc) with (@val c) in E. cbn [val] in E.
      pose proof (uval_range HV x Hx) as Rx. pose proof (uval_range HV b Hb) as Rb.
      destruct (Z.leb_spec (uval x) 0) as [X0|X0]; cbn [bind] in E; [discriminate|]. destruct (Z.leb_spec (uval b) 0) as [Y0|Y0]; cbn [bind] in E; [discriminate|].
      pose proof (LB (uval x) X0 (proj2 Rx)) as LX. pose proof (LB (uval b) Y0 (proj2 Rb)) as LY.
      assert (F : fits_u 32 (Z.log2 (uval b) + 1)) by (unfold fits_u; lia). unfold uadd in E. rewrite (@uchk_ok hc) in E by exact F. cbn [bind] in E.
      unfold udiv in E. destruct (Z.eqb_spec (Z.log2 (uval b) + 1) 0); [discriminate|]. cbn [bind] in E.
      set (q := Z.log2 (uval x) / (Z.log2 (uval b) + 1)) in *.
      assert (Q : 0 <= q <= @BITS c).
      { pose proof (div_S (Z.log2 (uval x)) (Z.log2 (uval b)) (proj1 LX) (proj1 LY)) as DS. fold q in DS. lia. }
      assert (Q2 : 0 <= q < 2 ^ 32) by lia.
      rewrite (@pow_ok hc HV) in E by assumption. destruct (_ && _); [discriminate|]. cbn [bind] in E. inversion E; subst. split; [apply (@wf_ofZ c HV)|exact Q]. }
    destruct D as (Wr & Dn). rewrite l_ilog_loop; [reflexivity|assumption|assumption|assumption|lia|].
    rewrite tbits_BITS. rewrite Nat2Z.inj_succ, Z2Nat.id by lia. lia.
Qed.
Lemma l_u_ilog : forall x b, wf x -> wf b -> b_u_ilog h x b = @u_ilog hc x b.
Proof. intros. unfold b_u_ilog, u_ilog. rewrite l_u_checked_ilog by assumption. reflexivity. Qed.
Lemma l_s_checked_ilog : forall x b, wf x -> wf b -> b_s_checked_ilog h x b = @s_checked_ilog hc x b.
Proof.
  intros x b Hx Hb. unfold b_s_checked_ilog, s_checked_ilog.
  rewrite !(@from_u8_ok c HV), !(@from_u8_ok hc HV) by (apply F8; lia). cbn [bind].
  two @le_const_ok. cbn [bind]. two @le_const_ok. cbn [bind].
  apply if_eq; [reflexivity|reflexivity|]. unfold as_unsigned. rewrite !(@mk_ok c HV), !(@mk_ok hc HV). cbn [bind].
  rewrite l_u_ilog by assumption. reflexivity.
Qed.
Lemma l_s_ilog : forall x b, wf x -> wf b -> b_s_ilog h x b = @s_ilog hc x b.
Proof.
  intros x b Hx Hb. unfold b_s_ilog, s_ilog. rewrite !(@from_u8_ok c HV), !(@from_u8_ok hc HV) by (apply F8; lia). cbn [bind].
  two @ge_const_ok. cbn [bind]. rewrite l_s_checked_ilog by assumption. reflexivity.
Qed.

Lemma l_nt_mul_add : forall sg x y z, wf x -> wf y -> wf z -> b_nt_mul_add h sg x y z = @nt_mul_add hc sg x y z.
Proof.
  intros sg x y z Hx Hy Hz. unfold b_nt_mul_add, nt_mul_add. rewrite l_op_mul by assumption. apply bind_eq; [reflexivity|].
  intros m Hm. apply l_op_add; [|assumption]. rewrite (@op_mul_ok hc HV) in Hm by assumption. destruct (_ && _); inversion Hm; subst. apply (@wf_ofZ c HV).
Qed.
Lemma l_nt_abs_sub : forall x y, wf x -> wf y -> b_nt_abs_sub h x y = @nt_abs_sub hc x y.
Proof.
  intros x y Hx Hy. unfold b_nt_abs_sub, nt_abs_sub. two @lt_const_ok. cbn [bind].
  rewrite l_op_sub, (@nt_zero_ok c HV), (@nt_zero_ok hc HV) by assumption. reflexivity.
Qed.
Lemma l_nt_signum : forall x, wf x -> b_nt_signum h x = @nt_signum hc x.
Proof.
  intros x Hx. unfold b_nt_signum, nt_signum. rewrite (@nt_zero_ok c HV), (@nt_zero_ok hc HV), (@nt_one_ok c HV), (@nt_one_ok hc HV). cbn [bind].
  two @gt_const_ok. cbn [bind]. rewrite l_op_neg by apply (wf_ofZ HV). reflexivity.
Qed.
Lemma l_nt_shl : forall sg x n, wf x ->
  b_nt_signed_shl h sg x n = @nt_signed_shl hc sg x n /\ b_nt_unsigned_shl h sg x n = @nt_unsigned_shl hc sg x n.
Proof.
  intros sg x n Hx. unfold b_nt_signed_shl, nt_signed_shl, b_nt_unsigned_shl, nt_unsigned_shl.
  destruct sg; (split; [|]); try (apply l_op_shl; assumption); unfold cast_signed, cast_unsigned, as_signed, as_unsigned;
  rewrite (@mk_ok c HV), (@mk_ok hc HV); cbn [bind]; rewrite l_op_shl by assumption;
  (apply bind_eq; [reflexivity|]); intros a _; rewrite (@mk_ok c HV), (@mk_ok hc HV); reflexivity.
Qed.
Lemma l_nt_shr : forall sg x n, wf x ->
  b_nt_signed_shr h sg x n = @nt_signed_shr hc sg x n /\ b_nt_unsigned_shr h sg x n = @nt_unsigned_shr hc sg x n.
Proof.
  intros sg x n Hx. unfold b_nt_signed_shr, nt_signed_shr, b_nt_unsigned_shr, nt_unsigned_shr.
  destruct sg; (split; [|]); try (apply l_op_shr; assumption); unfold cast_signed, cast_unsigned, as_signed, as_unsigned;
  rewrite (@mk_ok c HV), (@mk_ok hc HV); cbn [bind]; rewrite l_op_shr by assumption;
  (apply bind_eq; [reflexivity|]); intros a _; rewrite (@mk_ok c HV), (@mk_ok hc HV); reflexivity.
Qed.

(** ** Division by an unsigned scalar: the flag is reached, and makes no difference *)

Lemma outcome_small : forall k x n q r, 0 <= x <= 2 ^ (BITS - 1) -> 0 <= n -> scalar_outcome W N (kbits k) x n = Some (q, r) -> r <> 0 ->
  0 <= q < 2 ^ (BITS - 1).
Proof.
  intros k x n q r Hx Hn E R. pose proof (pBh HV) as PB. pose proof (pB_big HV) as PG.
  assert (HW : 1 <= W) by (pose proof (W_cases HV); lia).
  assert (P1 : 1 < 2 ^ W) by (apply Z.pow_gt_1; lia).
  assert (P2 : 0 < 2 ^ (BITS - 1)) by lia.
  assert (G : n <> 0 -> q = x / n -> (n = 1 -> r = 0) -> 0 <= q < 2 ^ (BITS - 1)).
  { intros N0 -> N1. assert (n <> 1) by (intros H; apply R; auto). split; [apply Z.div_pos; lia|]. apply Z.div_lt_upper_bound; [lia|]. nia. }
  unfold scalar_outcome in E. destruct (_ <=? W).
  { destruct (Z.eqb_spec n 0); inversion E; subst. apply G; auto. intros ->. apply Z.mod_1_r. }
  destruct (x =? 0); [inversion E; subst; lia|]. destruct (Z.eqb_spec n 0); [discriminate|].
  destruct (kbits k <=? 2 * W).
  { destruct (_ && _); inversion E; subst. apply G; auto. intros ->. apply Z.mod_1_r. }
  inversion E; subst q. apply G; auto. intros ->. subst r. rewrite Z.mod_1_r.
  destruct (Z.leb_spec (2 ^ W) 1); [lia|]. rewrite !andb_false_r. reflexivity.
Qed.
Lemma l_s_div_rem_u : forall k x n, wf x -> 0 <= n < 2 ^ kbits k -> b_s_div_rem_u h (route k) x n = s_div_rem_u (route k) x n.
Proof.
  intros k x n Hx Hn. unfold b_s_div_rem_u, s_div_rem_u. rewrite (unsigned_abs_ok HV) by assumption. cbn [bind].
  rewrite (div_by_ok HV) by (try apply (wf_ofZ HV); lia). rewrite (uval_abs HV) by assumption.
  destruct (scalar_outcome W N (kbits k) (Z.abs (sval x)) n) as [[q r]|] eqn:E; cbn [lift2 bind]; [|reflexivity].
  rewrite (mk_ok HV), (is_negative_ok HV) by assumption. cbn [bind]. destruct (sval x <? 0); [|reflexivity].
  rewrite (s_wrapping_neg_ok HV) by apply (wf_ofZ HV). cbn [bind andb]. destruct (Z.eqb_spec r 0) as [|R]; [reflexivity|]. cbn [negb].
  rewrite (from_u8_ok HV) by (apply F8; lia). cbn [bind]. apply bind_eq; [|reflexivity].
  rewrite l_op_sub, (@op_sub_ok hc HV), (@op_sub_ok c HV) by apply (wf_ofZ HV).
  change (@val hc) with (@val c). cbn [val].
  pose proof (sval_range HV x Hx) as Rx. pose proof (pBh HV) as PB. pose proof (pB_big HV) as PG. unfold fits_s in Rx.
  assert (Q : 0 <= q < 2 ^ (BITS - 1)) by (apply (outcome_small k (Z.abs (sval x)) n q r); auto; lia).
  rewrite (sval_ofZ_fits HV q) by (unfold fits_s; lia). rewrite (sval_ofZ_fits HV (- q)), (sval_ofZ_fits HV 1) by (unfold fits_s; lia).
  assert (F : fits true (- q - 1)) by (cbn; unfold fits_s; lia).
  rewrite (@op_result_fits hc), (@op_result_fits c) by exact F. reflexivity.
Qed.
Lemma l_wrapping_div_rem_us : forall k sg x n, wf x -> fits_u (kbits k) n ->
  b_wrapping_div_rem_us h k sg x n = wrapping_div_rem_us k sg x n.
Proof.
  intros k sg x n Hx Hn. unfold b_wrapping_div_rem_us, wrapping_div_rem_us. cbn zeta. rewrite (ucast_d HV) by assumption.
  destruct sg; [|reflexivity]. rewrite l_s_div_rem_u by assumption. reflexivity.
Qed.
Lemma l_div_rem_us : forall k sg x n, wf x -> fits_u (kbits k) n ->
  b_div_rem_us h k sg x n = if h && (n =? 0) then Panic else wrapping_div_rem_us k sg x n.
Proof.
  intros k sg x n Hx Hn. unfold b_div_rem_us, b_checked_div_rem_us. rewrite l_wrapping_div_rem_us by assumption.
  destruct h; cbn [negb andb]; [|reflexivity]. destruct (n =? 0); [reflexivity|]. destruct (wrapping_div_rem_us k sg x n); reflexivity.
Qed.
Lemma div_rem_us_wf : forall k sg x n q r, wf x -> fits_u (kbits k) n -> wrapping_div_rem_us k sg x n = Ok (q, r) -> wf q.
Proof.
  intros k sg x n q r Hx Hn E. unfold wrapping_div_rem_us in E. cbn zeta in E. rewrite (ucast_d HV) in E by assumption. unfold fits_u in Hn.
  destruct sg.
  - unfold s_div_rem_u in E. rewrite (unsigned_abs_ok HV) in E by assumption. cbn [bind] in E.
    rewrite (div_by_ok HV) in E by (try apply (wf_ofZ HV); lia).
    destruct (scalar_outcome _ _ _ _ _) as [[q' r']|]; cbn [lift2 bind] in E; [|discriminate].
    rewrite (mk_ok HV), (is_negative_ok HV) in E by assumption. cbn [bind] in E.
    destruct (sval x <? 0); cbn [bind andb] in E; [|inversion E; subst; apply (wf_ofZ HV)].
    rewrite (s_wrapping_neg_ok HV) in E by apply (wf_ofZ HV). cbn [bind] in E.
    destruct (negb _); [|inversion E; subst; apply (wf_ofZ HV)].
    rewrite (from_u8_ok HV) in E by (apply F8; lia). cbn [bind] in E. rewrite (op_sub_ok HV) in E by apply (wf_ofZ HV).
    destruct (op_result _ _) as [o| |] eqn:O; cbn [bind] in E; [|discriminate|discriminate].
    destruct (usub _ _ _); cbn [bind] in E; inversion E; subst. apply (op_result_wf c _ _ _ HV O).
  - unfold u_div_rem in E. rewrite (div_by_ok HV) in E by (auto; lia).
    destruct (scalar_outcome _ _ _ _ _) as [[q' r']|]; cbn [lift2 bind] in E; [|discriminate].
    rewrite (mk_ok HV) in E. cbn [bind] in E. inversion E; subst. apply (wf_ofZ HV).
Qed.
Lemma l_write_loop : forall f sg limit start radix self i buffer, wf self -> 2 <= radix <= 36 ->
  b_write_loop h f sg limit start radix self i buffer = write_loop f sg limit start radix self i buffer.
Proof.
  induction f as [|f IH]; intros sg limit start radix self i buffer Hs Hr; [reflexivity|]. cbn [b_write_loop write_loop].
  apply bind_eq; [reflexivity|]. intros b _. destruct (_ && _); [|reflexivity]. apply bind_eq; [reflexivity|]. intros j _.
  assert (U : ucast W radix = radix).
  { apply Z.mod_small. pose proof (W_cases HV) as [E|E]; rewrite E; lia. }
  assert (F : fits_u (kbits KLimb) radix). { unfold fits_u. cbn [kbits]. pose proof (W_cases HV) as [E|E]; rewrite E; lia. }
  rewrite U. unfold div_rem_us, checked_div_rem_us. rewrite l_div_rem_us by assumption. destruct (Z.eqb_spec radix 0); [lia|]. rewrite andb_false_r.
  apply bind_eq.
  - destruct chk; cbn [negb]; [|reflexivity]. destruct (wrapping_div_rem_us KLimb sg self radix); reflexivity.
  - intros [q r] E. assert (wf q).
    { apply (div_rem_us_wf KLimb sg self radix q r); auto. destruct chk; cbn [negb] in E; auto.
      destruct (wrapping_div_rem_us KLimb sg self radix); cbn in E; inversion E; auto. }
    apply bind_eq; [reflexivity|]. intros ch _. apply bind_eq; [reflexivity|]. intros bf _. apply IH; auto.
Qed.
Lemma l_to_str_radix : forall sg x buffer radix, wf x -> b_to_str_radix h sg x buffer radix = to_str_radix sg x buffer radix.
Proof.
  intros sg x buffer radix Hx. unfold b_to_str_radix, to_str_radix. destruct (Z.ltb_spec radix 2); [reflexivity|].
  destruct (Z.ltb_spec 36 radix); [reflexivity|]. cbn [orb]. destruct (_ <? _); [reflexivity|].
  apply bind_eq; [reflexivity|]. intros ng _. apply bind_eq; [reflexivity|]. intros lim _.
  rewrite l_write_loop by (auto; lia). reflexivity.
Qed.
End L.

(** ** C104: what follows the build script's answer

    [follows2 c h f g]: in the crate [c] with the answer [h], [f] does what [g]
    does when the crate too is compiled with the setting [h]. *)
Definition follows1 {A} (c : Cfg) (h : bool) (f : list Z -> res A) (g : forall c : Cfg, list Z -> res A) : Prop :=
  forall x, @wf c x -> f x = g (with_checks h c) x.
Definition follows2 {A} (c : Cfg) (h : bool) (f : list Z -> list Z -> res A) (g : forall c : Cfg, list Z -> list Z -> res A) : Prop :=
  forall x y, @wf c x -> @wf c y -> f x y = g (with_checks h c) x y.

Theorem C104_operators : forall (c : Cfg) h sg, Valid ->
  follows2 c h (b_op_add h sg) (fun c => @op_add c sg) /\ follows2 c h (b_op_sub h sg) (fun c => @op_sub c sg) /\
  follows2 c h (b_op_mul h sg) (fun c => @op_mul c sg) /\ follows2 c h (b_op_div h sg) (fun c => @op_div c sg) /\
  follows2 c h (b_op_rem h sg) (fun c => @op_rem c sg) /\ follows2 c h (b_div_rem h sg) (fun c => @div_rem c sg) /\
  follows2 c h (b_div_euclid h sg) (fun c => @div_euclid c sg) /\ follows2 c h (b_rem_euclid h sg) (fun c => @rem_euclid c sg) /\
  follows1 c h (b_op_neg h) (@op_neg) /\ follows1 c h (b_next_power_of_two h) (@next_power_of_two) /\
  (forall e, 0 <= e < 2 ^ 32 -> follows1 c h (fun x => b_pow h sg x e) (fun c x => @pow c sg x e)).
Proof.
  intros c h sg HV. split; [exact (l_op_add c HV h sg)|]. split; [exact (l_op_sub c HV h sg)|]. split; [exact (l_op_mul c HV h sg)|].
  split; [exact (l_op_div c HV h sg)|]. split; [exact (l_op_rem c HV h sg)|]. split; [exact (l_div_rem c HV h sg)|].
  split; [exact (l_div_euclid c HV h sg)|]. split; [exact (l_rem_euclid c HV h sg)|]. split; [exact (l_op_neg c HV h)|].
  split; [exact (l_next_power_of_two c HV h)|]. intros e He x Hx. apply l_pow; assumption.
Qed.
Theorem C104_shifts : forall (c : Cfg) h sg ps pw o, Valid ->
  follows1 c h (fun x => b_op_shl h ps pw x o) (fun c x => @op_shl c ps pw x o) /\
  follows1 c h (fun x => b_op_shr h sg ps pw x o) (fun c x => @op_shr c sg ps pw x o) /\
  follows2 c h (b_op_shl_big h ps) (fun c => @op_shl_big c ps) /\ follows2 c h (b_op_shr_big h sg ps) (fun c => @op_shr_big c sg ps) /\
  follows1 c h (fun x => b_nt_signed_shl h sg x o) (fun c x => @nt_signed_shl c sg x o) /\
  follows1 c h (fun x => b_nt_signed_shr h sg x o) (fun c x => @nt_signed_shr c sg x o) /\
  follows1 c h (fun x => b_nt_unsigned_shl h sg x o) (fun c x => @nt_unsigned_shl c sg x o) /\
  follows1 c h (fun x => b_nt_unsigned_shr h sg x o) (fun c x => @nt_unsigned_shr c sg x o).
Proof.
  intros c h sg ps pw o HV. split; [intros x Hx; apply l_op_shl; assumption|]. split; [intros x Hx; apply l_op_shr; assumption|].
  split; [exact (l_op_shl_big c HV h ps)|]. split; [exact (l_op_shr_big c HV h sg ps)|].
  split; [intros x Hx; apply (l_nt_shl c HV h); assumption|]. split; [intros x Hx; apply (l_nt_shr c HV h); assumption|].
  split; [intros x Hx; apply (l_nt_shl c HV h); assumption|intros x Hx; apply (l_nt_shr c HV h); assumption].
Qed.
Theorem C104_scalars : forall (c : Cfg) h o k sg x n, Valid -> wf x ->
  (fits_u (kbits k) n -> b_plain_us h o k sg x n = @plain_us (with_checks h c) o k sg x n) /\
  (fits_s (kbits k) n -> b_plain_is h o k x n = @plain_is (with_checks h c) o k x n /\
     b_div_rem_is h k x n = @div_rem_is (with_checks h c) k x n) /\
  (fits_u W n -> b_add_ulimb h sg x n = @add_ulimb (with_checks h c) sg x n /\ b_sub_ulimb h sg x n = @sub_ulimb (with_checks h c) sg x n).
Proof.
  intros c h o k sg x n HV Hx. split; [intros; apply l_plain_us; assumption|]. split; intros Hn; split.
  - apply l_plain_is; assumption.
  - apply l_div_rem_is; assumption.
  - apply l_add_ulimb; assumption.
  - apply l_sub_ulimb; assumption.
Qed.
Theorem C104_callers : forall (c : Cfg) h sg, Valid ->
  (forall z, wf z -> follows2 c h (fun x y => b_carrying_mul h x y z) (fun c x y => @carrying_mul c x y z)) /\
  follows2 c h (b_s_div_ceil h) (@s_div_ceil) /\ follows2 c h (b_u_next_multiple_of h) (@u_next_multiple_of) /\
  follows2 c h (b_s_next_multiple_of h) (@s_next_multiple_of) /\
  follows2 c h (b_s_checked_next_multiple_of h) (@s_checked_next_multiple_of) /\
  follows2 c h (b_u_checked_ilog h) (@u_checked_ilog) /\ follows2 c h (b_u_ilog h) (@u_ilog) /\
  follows2 c h (b_s_checked_ilog h) (@s_checked_ilog) /\ follows2 c h (b_s_ilog h) (@s_ilog) /\
  (forall z, wf z -> follows2 c h (fun x y => b_nt_mul_add h sg x y z) (fun c x y => @nt_mul_add c sg x y z)) /\
  follows2 c h (b_nt_abs_sub h) (@nt_abs_sub) /\ follows1 c h (b_nt_signum h) (@nt_signum).
Proof.
  intros c h sg HV. split; [intros z Hz x y Hx Hy; apply l_carrying_mul; assumption|]. split; [exact (l_s_div_ceil c HV h)|].
  split; [exact (l_u_next_multiple_of c HV h)|]. split; [exact (l_s_next_multiple_of c HV h)|]. split; [exact (l_s_checked_next_multiple_of c HV h)|].
  split; [exact (l_u_checked_ilog c HV h)|]. split; [exact (l_u_ilog c HV h)|]. split; [exact (l_s_checked_ilog c HV h)|]. split; [exact (l_s_ilog c HV h)|].
  split; [intros z Hz x y Hx Hy; apply l_nt_mul_add; assumption|]. split; [exact (l_nt_abs_sub c HV h)|exact (l_nt_signum c HV h)].
Qed.

(** ** C104: what follows the crate's own setting

    The division of a signed number by an unsigned scalar ends in a plain
    subtraction, the digits of [to_str_radix] in a plain addition.  The answer of
    the build script only decides whether dividing by zero is noticed. *)
Theorem C104_division_by_scalar : forall (c : Cfg) h k sg x n, Valid -> wf x -> fits_u (kbits k) n ->
  b_wrapping_div_rem_us h k sg x n = wrapping_div_rem_us k sg x n /\
  b_overflowing_div_rem_us h k sg x n = overflowing_div_rem_us k sg x n /\
  b_checked_div_rem_us h k sg x n = checked_div_rem_us k sg x n /\
  b_div_rem_us h k sg x n = if h && (n =? 0) then Panic else wrapping_div_rem_us k sg x n.
Proof.
  intros c h k sg x n HV Hx Hn. unfold b_overflowing_div_rem_us, b_checked_div_rem_us. rewrite (l_wrapping_div_rem_us c HV h) by assumption.
  split; [reflexivity|]. split; [reflexivity|]. split; [reflexivity|]. apply l_div_rem_us; assumption.
Qed.
Theorem C104_to_str : forall (c : Cfg) h sg x buffer radix, Valid -> wf x ->
  b_to_str_radix h sg x buffer radix = to_str_radix sg x buffer radix.
Proof. intros c h sg x buffer radix HV Hx. apply l_to_str_radix; assumption. Qed.

(** So a crate can have checked operators and still subtract unchecked, and
    the other way round: neither build is one of the two pure ones. *)
Theorem C104_own_refuted :
  (exists (c : Cfg) x n q r, Valid /\ wf x /\ fits_u (kbits K128) n /\ 0 < n /\
     b_div_rem_us true K128 true x n = Ok (q, r) /\ @div_rem_us (with_checks true c) K128 true x n = Panic /\
     b_op_add true false (ofZ (2 ^ BITS - 1)) (ofZ 1) = Panic) /\
  (exists (c : Cfg) x n q r, Valid /\ wf x /\ fits_u (kbits K128) n /\ 0 < n /\
     b_div_rem_us false K128 true x n = Panic /\ @div_rem_us (with_checks false c) K128 true x n = Ok (q, r) /\
     b_op_add false false (ofZ (2 ^ BITS - 1)) (ofZ 1) = Ok (ofZ 0)) /\
  (exists (c : Cfg) x buffer, Valid /\ wf x /\ @b_to_str_radix c false true x buffer 10 = Panic /\
     @to_str_radix (with_checks false c) true x buffer 10 = Ok (firstn 255 buffer ++ [45; 47], 255%nat)).
Proof.
  assert (F : @fits_u (@kbits c256_32 K128) (2 ^ 63 + 2 ^ 32 - 1)) by (vm_compute; split; discriminate || reflexivity).
  split; [|split].
  - exists (release c256_32), (E32 (- 2 ^ 95)), (2 ^ 63 + 2 ^ 32 - 1), (E32 (- 4294967295)), 340282366920938463454151235386323501057.
    split; [exact valid_c256_32|]. split; [apply (wf_ofZ valid_c256_32)|]. split; [exact F|]. split; [lia|]. vm_compute. auto.
  - exists (debug c256_32), (E32 (- 2 ^ 95)), (2 ^ 63 + 2 ^ 32 - 1), (E32 (- 4294967295)), 340282366920938463454151235386323501057.
    split; [exact valid_c256_32|]. split; [apply (wf_ofZ valid_c256_32)|]. split; [exact F|]. split; [lia|]. vm_compute. auto.
  - exists (debug c256_64), (E64 (-1)), (repeat 0 257). split; [exact valid_c256_64|]. split; [apply (wf_ofZ valid_c256_64)|]. vm_compute. auto.
Qed.

Example C104_ex1 : have_overflow_checks (debug c256_64) = true /\ have_overflow_checks (release c256_64) = false.
Proof. vm_compute. auto. Qed.
Example C104_ex2 : @b_op_add (release c256_64) true false (E64 (2 ^ 256 - 1)) (E64 1) = Panic
  /\ @b_op_add (debug c256_64) false false (E64 (2 ^ 256 - 1)) (E64 1) = Ok (E64 0)
  /\ @b_op_shl (debug c256_64) false true 32 (E64 1) (-1) = Ok (E64 (2 ^ 255)) /\ @b_op_shl (release c256_64) true true 32 (E64 1) (-1) = Panic
  /\ @b_pow (release c256_64) true false (E64 2) 256 = Panic /\ @b_pow (debug c256_64) false false (E64 2) 256 = Ok (E64 0).
Proof. vm_compute. repeat split; reflexivity. Qed.
Example C104_ex3 : @b_plain_us (release c256_32) true SMul K32 false (E32 (2 ^ 255)) 2 = Panic
  /\ @b_u_next_multiple_of (release c256_64) true (E64 (2 ^ 256 - 1)) (E64 2) = Panic
  /\ @b_u_next_multiple_of (debug c256_64) false (E64 (2 ^ 256 - 1)) (E64 2) = Ok (E64 0)
  /\ @b_u_ilog (debug c256_64) false (E64 1000) (E64 10) = Ok 3 /\ @b_s_div_ceil (debug c256_64) false (E64 7) (E64 2) = Ok (E64 4).
Proof. vm_compute. repeat split; reflexivity. Qed.
Example C104_ex4 : @b_div_rem_us (release c256_64) true K128 false (E64 0) 0 = Panic
  /\ @b_div_rem_us (debug c256_64) false K128 false (E64 0) 0 = Ok (E64 0, 0)
  /\ @b_div_rem_us (debug c256_64) false K64 true (E64 (-7)) 2 = Ok (E64 (-4), 1)
  /\ option_map slice (match @b_to_str_radix (release c256_64) true false (E64 48879) (repeat 0 256) 16 with Ok r => Some r | _ => None end) = Some [66; 69; 69; 70].
Proof. vm_compute. repeat split; reflexivity. Qed.

(** ** Assumptions (each must print "Closed under the global context") *)

Print Assumptions C104_script.
Print Assumptions C104_same_code.
Print Assumptions C104_operators.
Print Assumptions C104_shifts.
Print Assumptions C104_scalars.
Print Assumptions C104_callers.
Print Assumptions C104_division_by_scalar.
Print Assumptions C104_to_str.
Print Assumptions C104_own_refuted.
