(** * Properties: what powers and logarithms cost (C107) *)

Require Import ZArith List Bool Lia.
From Verif Require Import Prim Spec Facts MAdd MMul MShift MCore PCore PBits PWide MArith PArith PArith2 PPow PMisc PBits2 PRet DivSpec MDiv MApi PApi MScalar PScalar PApi2 PApi3 PIlog MCost PCost PropsCost MCost3.
Import ListNotations.
Local Open Scope Z_scope.

(** ** The counted functions are the modelled ones *)

Section Erase.
Context {c : Cfg}.

Lemma er_unwrap : forall A (m : co (option A)) m', snd m = m' -> snd (c_unwrap m) = unwrap m'.
Proof. intros A (t & [o| |]) m' <-; reflexivity. Qed.
Lemma er_overflowing_pow_loop : forall sg fuel e base acc o,
  snd (c_overflowing_pow_loop sg fuel e base acc o) = overflowing_pow_loop sg fuel e base acc o.
Proof.
  intros sg fuel. induction fuel as [|fuel IH]; intros e base acc o; cbn [c_overflowing_pow_loop overflowing_pow_loop]; [reflexivity|].
  repeat (er1 || apply er_overflowing_mul || apply IH).
Qed.
Lemma er_overflowing_pow : forall sg x e, snd (c_overflowing_pow sg x e) = overflowing_pow sg x e.
Proof. intros. unfold c_overflowing_pow, overflowing_pow. repeat (er1 || apply er_overflowing_pow_loop). Qed.
Lemma er_checked_pow : forall sg x e, snd (c_checked_pow sg x e) = checked_pow sg x e.
Proof. intros. apply er_opt, er_overflowing_pow. Qed.
Lemma er_pow : forall sg x e, snd (c_pow sg x e) = pow sg x e.
Proof. intros. unfold c_pow, pow. destruct (negb chk); [apply er_wrapping_pow|apply er_unwrap, er_checked_pow]. Qed.
Lemma er_wrapping_div : forall sg x n, snd (c_wrapping_div sg x n) = wrapping_div sg x n.
Proof. intros. unfold c_wrapping_div, wrapping_div. repeat (er1 || apply er_wrapping_div_rem). Qed.
Lemma er_op_div : forall sg x n, snd (c_op_div sg x n) = op_div sg x n.
Proof.
  intros. unfold c_op_div, op_div. destruct (negb chk); [apply er_wrapping_div|]. apply er_unwrap.
  unfold checked_div, checked_by. repeat (er1 || apply er_wrapping_div).
Qed.
Lemma er_op_mul : forall sg x y, snd (c_op_mul sg x y) = op_mul sg x y.
Proof. intros. unfold c_op_mul, op_mul. destruct (negb chk); [apply er_wrapping_mul|apply er_unwrap, er_checked_mul]. Qed.
Lemma er_ilog_loop : forall fuel x b n r, snd (c_ilog_loop fuel x b n r) = ilog_loop fuel x b n r.
Proof.
  intros fuel x b. induction fuel as [|fuel IH]; intros n r; cbn [c_ilog_loop ilog_loop]; [reflexivity|].
  repeat (er1 || apply er_op_div || apply er_op_mul || apply IH).
Qed.
Lemma er_u_checked_ilog : forall x b, snd (c_u_checked_ilog x b) = u_checked_ilog x b.
Proof. intros. unfold c_u_checked_ilog, u_checked_ilog, u_checked_ilog_fuel. repeat (er1 || apply er_pow || apply er_ilog_loop). Qed.
Lemma er_s_checked_ilog : forall x b, snd (c_s_checked_ilog x b) = s_checked_ilog x b.
Proof. intros. unfold c_s_checked_ilog, s_checked_ilog, u_ilog. repeat (er1 || (apply er_unwrap, er_u_checked_ilog)). Qed.
End Erase.

Theorem C107_same : forall (c : Cfg) sg x y e,
  snd (c_overflowing_pow sg x e) = overflowing_pow sg x e /\ snd (c_checked_pow sg x e) = checked_pow sg x e /\
  snd (c_strict_pow sg x e) = strict_pow sg x e /\ snd (c_pow sg x e) = pow sg x e /\
  snd (c_u_checked_ilog x y) = u_checked_ilog x y /\ snd (c_u_ilog x y) = u_ilog x y /\
  snd (c_s_checked_ilog x y) = s_checked_ilog x y.
Proof.
  intros c sg x y e. split; [apply er_overflowing_pow|]. split; [apply er_checked_pow|].
  split; [apply er_unwrap, er_checked_pow|]. split; [apply er_pow|]. split; [apply er_u_checked_ilog|].
  split; [apply er_unwrap, er_u_checked_ilog|apply er_s_checked_ilog].
Qed.

(** ** Runs whose outcome is known *)

Lemma cbind_ok : forall A B (m : co A) a (k : A -> co B), snd m = Ok a -> cbind m k = (fst m ++ fst (k a), snd (k a)).
Proof. intros A B (t & r) a k E. cbn in E. subst r. cbn. destruct (k a); reflexivity. Qed.
Lemma cbind_panic : forall A B (m : co A) (k : A -> co B), snd m = Panic -> cbind m k = (fst m, Panic).
Proof. intros A B (t & r) k E. cbn in E. subst r. reflexivity. Qed.
Lemma fst_unwrap : forall A (m : co (option A)), fst (c_unwrap m) = fst m.
Proof. intros A (t & [o| |]); cbn; try reflexivity. apply app_nil_r. Qed.
Lemma fst_opt : forall {c : Cfg} m, fst (c_opt m) = fst m.
Proof. intros c (t & [(v & f)| |]); cbn; try reflexivity. apply app_nil_r. Qed.

(** Products of a power to the exponent [e]: one per set bit and one squaring
    per binary digit after the first. *)
Definition power_products (e : Z) : nat := if e =? 0 then 0%nat else Z.to_nat (bit_count 32 e true + Z.log2 e).

Section P.
Context {c : Cfg}.
Hypothesis HV : Valid.

Lemma c_omul_wf : forall sg x y z, wf x -> wf y -> snd (c_overflowing_mul sg x y) = Ok z -> wf (fst z).
Proof.
  intros sg x y z Hx Hy. rewrite er_overflowing_mul, (overflowing_mul_ok HV) by auto. intros [= <-]. apply (wf_ofZ HV).
Qed.
Lemma runs_overflowing_pow_loop : forall sg fuel e base acc o, wf base -> wf acc -> 1 <= e ->
  runs (c_overflowing_pow_loop sg fuel e base acc o) (repeat Mul (pow_products fuel e * rows N N)).
Proof.
  intros sg fuel. induction fuel as [|fuel IH]; intros e base acc o Hb Ha He; cbn [c_overflowing_pow_loop pow_products]; [apply runs_free|].
  assert (NX : forall acc' o', wf acc' -> e <> 1 -> runs
    (let$ (base, f) := c_overflowing_mul sg base base in
     let$ _ := free (dassert (negb (e / 2 =? 0))) in c_overflowing_pow_loop sg fuel (e / 2) base acc' (o' || f))
    (repeat Mul (S (pow_products fuel (e / 2)) * rows N N))).
  { intros acc' o' Ha' H1. cbn [Nat.mul]. rewrite repeat_app. pose proof (runs_overflowing_mul sg base base) as R.
    rewrite (proj1 Hb) in R. apply runs_bind; [exact R|]. intros (b2 & f2) E2. apply runs_skip. intros _ _.
    apply IH; [exact (c_omul_wf _ _ _ _ Hb Hb E2)|exact Ha'|]. pose proof (Z.div_le_lower_bound e 2 1). lia. }
  destruct (Z.eqb_spec (Z.land e 1) 1) as [L|L].
  - cbn [Nat.add Nat.mul]. rewrite repeat_app. pose proof (runs_overflowing_mul sg acc base) as R.
    rewrite (proj1 Hb), (proj1 Ha) in R. apply runs_bind; [exact R|]. intros (a' & f') E'.
    destruct (Z.eqb_spec e 1); [apply runs_free|]. apply NX; [exact (c_omul_wf _ _ _ _ Ha Hb E')|exact n].
  - destruct (Z.eqb_spec e 1) as [->|H]; [exfalso; apply L; reflexivity|]. apply NX; auto.
Qed.
Lemma cost_overflowing_pow : forall sg x e, wf x -> 0 <= e < 2 ^ 32 ->
  fst (c_overflowing_pow sg x e) = repeat Mul (power_products e * tri N).
Proof.
  intros sg x e Hx He. pose proof (N_ge4 HV) as H4.
  pose proof (er_overflowing_pow sg x e) as E. rewrite (overflowing_pow_ok HV) in E by (auto; lia). revert E.
  unfold c_overflowing_pow, power_products. destruct (Z.eqb_spec e 0); [reflexivity|].
  assert (O : exists one, from_u8 1 = Ok one /\ wf one).
  { eexists. split; [apply (from_u8_ok HV); unfold fits_u; lia|apply (wf_ofZ HV)]. }
  destruct O as (one & -> & Ho). rewrite cbind_free. intro E.
  rewrite <- rows_tri by lia. rewrite (runs_overflowing_pow_loop sg pow_fuel e x one false Hx Ho ltac:(lia) _ E).
  rewrite <- (Nat2Z.id (pow_products pow_fuel e)), pow_products_eq by (change (Z.of_nat pow_fuel) with 32; lia). reflexivity.
Qed.
Lemma cost_pow : forall sg x e, wf x -> 0 <= e < 2 ^ 32 -> fst (c_pow sg x e) = repeat Mul (power_products e * tri N).
Proof.
  intros sg x e Hx He. unfold c_pow. destruct (negb chk).
  - unfold power_products. destruct (Z.eqb_spec e 0) as [->|E]; [reflexivity|]. apply C95_pow; auto; lia.
  - unfold c_strict_pow, c_checked_pow. rewrite fst_unwrap, fst_opt. apply cost_overflowing_pow; assumption.
Qed.

Lemma cost_op_div : forall x y, wf x -> wf y -> uval y <> 0 -> fst (c_op_div false x y) = fst (c_wrapping_div_rem false x y).
Proof.
  intros x y Hx Hy H0.
  assert (D : fst (c_wrapping_div false x y) = fst (c_wrapping_div_rem false x y)).
  { unfold c_wrapping_div. destruct (c_wrapping_div_rem false x y) as (t & [(q & r)| |]); cbn; try reflexivity. apply app_nil_r. }
  unfold c_op_div. destruct (negb chk); [exact D|]. rewrite fst_unwrap.
  assert (Z : is_div_none false x y = Ok false).
  { unfold is_div_none. rewrite (from_u8_ok HV) by (unfold fits_u; lia). cbn [bind]. rewrite (eq_const_ok HV) by (auto; apply (wf_ofZ HV)).
    cbn [bind]. f_equal. apply Z.eqb_neq. rewrite (uval_ofZ HV), Z.mod_0_l by (apply Z.pow_nonzero; [lia|pose proof (BITS_pos HV); lia]). exact H0. }
  rewrite Z, cbind_free. cbv iota. rewrite <- D.
  destruct (c_wrapping_div false x y) as (t & [v| |]); cbn; try reflexivity. apply app_nil_r.
Qed.
Lemma cost_op_mul : forall x y, wf x -> wf y -> 1 <= uval x -> 1 <= uval y -> uval x * uval y < 2 ^ BITS ->
  fst (c_op_mul false x y) = repeat Mul (tri N).
Proof.
  intros x y Hx Hy H1 H2 H3. unfold c_op_mul. destruct (negb chk).
  - destruct (C95_product c false x y HV Hx Hy) as [P _]. exact P.
  - rewrite fst_unwrap. destruct (C95_checked c x y HV Hx Hy) as [P _]. rewrite P.
    destruct (Z.eqb_spec (uval x) 0); [lia|]. destruct (Z.eqb_spec (uval y) 0); [lia|]. cbn [orb].
    destruct (Z.leb_spec BITS (Z.log2 (uval x) + Z.log2 (uval y))) as [L|L]; [|reflexivity]. exfalso.
    assert (X0 : 0 < uval x) by lia. assert (Y0 : 0 < uval y) by lia.
    pose proof (Z.log2_spec (uval x) X0) as [A _]. pose proof (Z.log2_spec (uval y) Y0) as [B _].
    pose proof (Z.log2_nonneg (uval x)). pose proof (Z.log2_nonneg (uval y)).
    assert (2 ^ BITS <= 2 ^ (Z.log2 (uval x) + Z.log2 (uval y))) by (apply Z.pow_le_mono_r; lia).
    rewrite Z.pow_add_r in * by lia. nia.
Qed.

(** the loop, from [b ^ n], when the answer is [k] *)
Lemma cost_ilog_loop : forall x b k, wf x -> wf b -> 2 <= uval b -> ilog_panics (uval x) (uval b) = false ->
  uval b ^ k <= uval x < uval b ^ (k + 1) -> k < 2 ^ 31 ->
  forall fuel n, 0 <= n <= k -> (Z.to_nat (k - n) < fuel)%nat ->
  c_ilog_loop fuel x b n (ofZ (uval b ^ n)) =
    (concat (repeat (fst (c_wrapping_div_rem false x b) ++ repeat Mul (tri N)) (Z.to_nat (k - n))) ++
       fst (c_wrapping_div_rem false x b), Ok k).
Proof.
  intros x b k Hx Hb Hb2 HP Hk K31. pose proof (uval_range HV x Hx) as Rx. pose proof (uval_range HV b Hb) as Rb.
  set (D := fst (c_wrapping_div_rem false x b)). set (M := repeat Mul (tri N)).
  assert (B1 : 0 < uval b) by lia. assert (B0 : uval b <> 0) by lia.
  induction fuel as [|fuel IH]; intros n Hn HF; [lia|].
  assert (Pn : 1 <= uval b ^ n) by (assert (0 < uval b ^ n) by (apply Z.pow_pos_nonneg; lia); lia).
  assert (Ln : uval b ^ n <= uval b ^ k) by (apply Z.pow_le_mono_r; lia).
  assert (Fn : 0 <= uval b ^ n < 2 ^ BITS) by lia.
  cbn [c_ilog_loop].
  assert (ED : snd (c_op_div false x b) = Ok (ofZ (uval x / uval b))) by (rewrite er_op_div, (u_op_div_ok HV) by auto; rewrite HP; reflexivity).
  rewrite (cbind_ok _ _ _ _ _ ED). rewrite cost_op_div by auto. fold D.
  pose proof (Z.div_mod (uval x) (uval b) B0) as DM. pose proof (Z.mod_pos_bound (uval x) (uval b) B1) as MB.
  assert (Fq : 0 <= uval x / uval b < 2 ^ BITS).
  { split; [apply Z.div_pos; lia|]. apply Z.le_lt_trans with (uval x); [apply Z.div_le_upper_bound; nia|lia]. }
  rewrite (le_const_ok HV) by apply (wf_ofZ HV). rewrite cbind_free.
  rewrite (val_ofZ_small HV false (uval b ^ n)) by exact Fn. rewrite (val_ofZ_small HV false (uval x / uval b)) by exact Fq.
  assert (PS : uval b ^ (n + 1) = uval b ^ n * uval b) by (rewrite Z.pow_add_r by lia; rewrite Z.pow_1_r; reflexivity).
  destruct (Z.leb_spec (uval b ^ n) (uval x / uval b)) as [L|L].
  - assert (H' : uval b ^ (n + 1) <= uval x) by (rewrite PS; clear - L DM MB Hb2; nia).
    assert (Hnk : n + 1 <= k).
    { destruct (Z.le_gt_cases (n + 1) k); [assumption|]. assert (n = k) by lia. subst n. lia. }
    unfold uadd. rewrite fb32 by lia. rewrite cbind_free.
    assert (Vr : uval (ofZ (uval b ^ n)) = uval b ^ n) by exact (val_ofZ_small HV false (uval b ^ n) Fn).
    assert (EM : snd (c_op_mul false (ofZ (uval b ^ n)) b) = Ok (ofZ (uval b ^ (n + 1)))).
    { rewrite er_op_mul. rewrite (op_mul_fits HV); [|apply (wf_ofZ HV)|exact Hb|].
      - cbn [val]. rewrite Vr, PS. reflexivity.
      - cbn [val]. rewrite Vr, <- PS. apply fu. lia. }
    rewrite (cbind_ok _ _ _ _ _ EM). rewrite cost_op_mul; [|apply (wf_ofZ HV)|exact Hb|rewrite Vr; lia|lia|rewrite Vr, <- PS; lia].
    fold M. rewrite IH by lia. cbn [fst snd]. replace (Z.to_nat (k - n)) with (S (Z.to_nat (k - (n + 1)))) by lia.
    cbn [repeat concat]. rewrite <- !app_assoc. reflexivity.
  - assert (n = k).
    { destruct (Z.le_gt_cases (n + 1) k) as [G|G]; [|lia]. exfalso.
      assert (uval b ^ (n + 1) <= uval b ^ k) by (apply Z.pow_le_mono_r; lia). rewrite PS in *. clear - L DM MB Hb2 H Hk. nia. }
    subst n. rewrite Z.sub_diag. cbn [Z.to_nat repeat concat app free fst snd]. rewrite app_nil_r. reflexivity.
Qed.

(** everything before the loop *)
Definition log_start (x b : Z) : Z := Z.log2 x / (Z.log2 b + 1).
Lemma cost_prefix : forall x b, wf x -> wf b -> 2 <= uval b <= uval x ->
  let n := log_start (uval x) (uval b) in
  let m := (let$ k := c_ilog_loop (S (Z.to_nat tbits)) x b n (ofZ (uval b ^ n)) in free (Ok (Some k))) in
  c_u_checked_ilog x b = (repeat Mul (power_products n * tri N) ++ fst m, snd m).
Proof.
  intros x b Hx Hb Hab n m. pose proof (uval_range HV x Hx) as Rx. pose proof (uval_range HV b Hb) as Rb.
  destruct (ilog_start _ _ Hab) as (S1 & S2). fold (log_start (uval x) (uval b)) in S1, S2. fold n in S1, S2.
  unfold c_u_checked_ilog. rewrite (from_u8_ok HV) by wfauto. rewrite cbind_free.
  rewrite (le_const_ok HV) by wfauto. rewrite cbind_free. rewrite (lt_const_ok HV) by wfauto. rewrite cbind_free.
  rewrite (derived_eq_ok HV) by wfauto. rewrite (eqb0 HV false) by auto. rewrite (val_ofZ_small HV false 0) by apply (fits_0 HV).
  cbn [val]. destruct (Z.eqb_spec (uval x) 0); [lia|]. destruct (Z.leb_spec (uval b) 0); [lia|].
  destruct (Z.ltb_spec (uval x) (uval b)); [lia|]. cbn [orb]. rewrite (tb2W HV). rewrite !(ilog2_ok HV) by auto. cbn [val].
  destruct (Z.leb_spec (uval x) 0); [lia|]. rewrite cbind_free.
  destruct (Z.leb_spec (uval b) 0); [lia|]. rewrite cbind_free.
  pose proof (log2_lt_BITS HV _ Rx). pose proof (log2_lt_BITS HV _ Rb). pose proof (BITS_lt31 HV).
  pose proof (Z.log2_nonneg (uval x)). pose proof (Z.log2_nonneg (uval b)).
  unfold uadd. rewrite fb32 by lia. rewrite cbind_free. unfold udiv. destruct (Z.eqb_spec (Z.log2 (uval b) + 1) 0); [lia|]. rewrite cbind_free.
  fold (log_start (uval x) (uval b)). fold n.
  pose proof (Z.pow_nonneg (uval b) n ltac:(tauto)) as PN.
  assert (EP : snd (c_pow false b n) = Ok (ofZ (uval b ^ n))).
  { rewrite er_pow. rewrite (pow_fits HV) by (auto; try lia; apply fu; cbn [val]; lia). reflexivity. }
  rewrite (cbind_ok _ _ _ _ _ EP). rewrite cost_pow by (auto; lia). cbn [free fst snd]. rewrite app_nil_r.
  unfold cbind at 1. fold m. unfold m. destruct (cbind _ _); reflexivity.
Qed.

End P.

(** ** Powers *)

(** Every form of the power makes the same products, whatever the base and
    whether or not the value overflows: the checked ones do not stop early. *)
Theorem C107_pow : forall (c : Cfg) sg x e, Valid -> wf x -> 0 <= e < 2 ^ 32 ->
  let t := repeat Mul (power_products e * tri N) in
  fst (c_wrapping_pow x e) = t /\ fst (c_overflowing_pow sg x e) = t /\ fst (c_checked_pow sg x e) = t /\
  fst (c_strict_pow sg x e) = t /\ fst (c_pow sg x e) = t.
Proof.
  intros c sg x e HV Hx He t. pose proof (cost_overflowing_pow HV sg x e Hx He) as P. fold t in P.
  split. { unfold t, power_products. destruct (Z.eqb_spec e 0) as [->|E]; [reflexivity|]. apply C95_pow; auto; lia. }
  split; [exact P|]. split; [unfold c_checked_pow; rewrite fst_opt; exact P|].
  split; [unfold c_strict_pow, c_checked_pow; rewrite fst_unwrap, fst_opt; exact P|]. apply (cost_pow HV); assumption.
Qed.
(** At most 63 products of numbers, for the exponents [2^32 - 1] and the like. *)
Lemma bit_count_le : forall w e v, bit_count w e v <= Z.of_nat (Z.to_nat w).
Proof.
  intros w e v. unfold bit_count. apply inj_le. rewrite <- (seq_length (Z.to_nat w) 0) at 2.
  generalize (seq 0 (Z.to_nat w)). induction l as [|i l IH]; cbn [filter]; [lia|]. destruct (eqb _ _); cbn [length]; lia.
Qed.
Theorem C107_pow_bound : forall e, 0 <= e < 2 ^ 32 -> (power_products e <= 63)%nat.
Proof.
  intros e He. unfold power_products. destruct (Z.eqb_spec e 0); [lia|]. pose proof (bit_count_le 32 e true) as B.
  change (Z.of_nat (Z.to_nat 32)) with 32 in B. assert (Z.log2 e < 32) by (apply Z.log2_lt_pow2; lia). pose proof (Z.log2_nonneg e). lia.
Qed.
Example C107_pow_ex : let c := c256_64 in
  c_checked_pow false (ofZ (2 ^ 200)) 13 = (repeat Mul 60, Ok None) /\ power_products 13 = 6%nat /\ power_products (2 ^ 32 - 1) = 63%nat /\
  c_strict_pow true (ofZ (- 3)) 5 = (repeat Mul 40, Ok (ofZ (- 243))).
Proof. vm_compute. auto. Qed.

(** ** Logarithms *)

(** The whole run of [checked_ilog] (uint/checked.rs 55-84) for a base of at
    least two: the power the loop starts from, then before every pass one
    division of [self] by [base] -- always the same one -- and in every pass one
    product.  A run that panics does so in the first division. *)
Theorem C107_log : forall (c : Cfg) x b, Valid -> wf x -> wf b ->
  let t := fst (c_u_checked_ilog x b) in
  let s := log_start (uval x) (uval b) in
  let start := repeat Mul (power_products s * tri N) in
  let one_division := fst (c_wrapping_div_rem false x b) in
  (uval x = 0 \/ uval b = 0 \/ uval x < uval b -> t = []) /\
  (2 <= uval b -> forall k, u_checked_ilog x b = Ok (Some k) -> s <= k /\
     t = start ++ concat (repeat (one_division ++ repeat Mul (tri N)) (Z.to_nat (k - s))) ++ one_division) /\
  (2 <= uval b -> u_checked_ilog x b = Panic -> t = start ++ one_division).
Proof.
  intros c x b HV Hx Hb t s start D. pose proof (uval_range HV x Hx) as Rx. pose proof (uval_range HV b Hb) as Rb. split; [|split].
  - intros H. unfold t, c_u_checked_ilog. rewrite (from_u8_ok HV) by wfauto. rewrite cbind_free.
    rewrite (le_const_ok HV) by wfauto. rewrite cbind_free. rewrite (lt_const_ok HV) by wfauto. rewrite cbind_free.
    rewrite (derived_eq_ok HV) by wfauto. rewrite (eqb0 HV false) by auto. rewrite (val_ofZ_small HV false 0) by apply (fits_0 HV).
    cbn [val]. destruct (Z.eqb_spec (uval x) 0); [reflexivity|]. destruct (Z.leb_spec (uval b) 0); [reflexivity|].
    destruct (Z.ltb_spec (uval x) (uval b)); [reflexivity|]. lia.
  - intros H2 k Ek. assert (Hab : 2 <= uval b <= uval x).
    { split; [assumption|]. destruct (Z.le_gt_cases (uval b) (uval x)) as [L|L]; [assumption|].
      unfold u_checked_ilog in Ek. rewrite (u_checked_ilog_none HV) in Ek by (auto; lia). discriminate. }
    pose proof (u_checked_ilog_ok HV x b Hx Hb Hab) as U. destruct (ilog_panics (uval x) (uval b)) eqn:EP; [congruence|].
    destruct U as (k' & Ek' & Rk & Pk). assert (k' = k) by congruence. subst k'.
    destruct (ilog_start _ _ Hab) as (S1 & S2). fold (log_start (uval x) (uval b)) in S1, S2. fold s in S1, S2.
    assert (SK : s <= k).
    { destruct (Z.le_gt_cases s k) as [L|L]; [assumption|]. exfalso.
      assert (uval b ^ (k + 1) <= uval b ^ s) by (apply Z.pow_le_mono_r; lia). lia. }
    split; [exact SK|]. unfold t. rewrite (cost_prefix HV x b Hx Hb Hab). fold s. cbv zeta. fold start. cbn [fst].
    pose proof (BITS_lt31 HV). rewrite (cost_ilog_loop HV x b k Hx Hb H2 EP Pk) by (rewrite ?tbits_BITS; lia).
    unfold cbind, free. cbn [fst]. rewrite app_nil_r. reflexivity.
  - intros H2 Ep. assert (Hab : 2 <= uval b <= uval x).
    { split; [assumption|]. destruct (Z.le_gt_cases (uval b) (uval x)) as [L|L]; [assumption|].
      unfold u_checked_ilog in Ep. rewrite (u_checked_ilog_none HV) in Ep by (auto; lia). discriminate. }
    pose proof (u_checked_ilog_ok HV x b Hx Hb Hab) as U. destruct (ilog_panics (uval x) (uval b)) eqn:EP.
    2: { destruct U as (k' & Ek' & _). congruence. }
    unfold t. rewrite (cost_prefix HV x b Hx Hb Hab). fold s. cbv zeta. fold start. cbn [fst]. f_equal.
    cbn [c_ilog_loop]. assert (E : snd (c_op_div false x b) = Panic) by (rewrite er_op_div, (u_op_div_ok HV) by (auto; lia); rewrite EP; reflexivity).
    rewrite (cbind_panic _ _ _ _ E). cbn [cbind fst]. apply (cost_op_div HV); auto; lia.
Qed.

(** Divisions and products of limbs, counted. *)
Lemma divs_app : forall t u, divs (t ++ u) = (divs t + divs u)%nat.
Proof. intros. unfold divs. rewrite filter_app, app_length. reflexivity. Qed.
Lemma muls_app : forall t u, muls (t ++ u) = (muls t + muls u)%nat.
Proof. intros. unfold muls. rewrite filter_app, app_length. reflexivity. Qed.
Lemma divs_concat : forall t n, divs (concat (repeat t n)) = (n * divs t)%nat.
Proof. intros t n. induction n as [|n IH]; [reflexivity|]. cbn [repeat concat]. rewrite divs_app, IH. reflexivity. Qed.
Lemma muls_concat : forall t n, muls (concat (repeat t n)) = (n * muls t)%nat.
Proof. intros t n. induction n as [|n IH]; [reflexivity|]. cbn [repeat concat]. rewrite muls_app, IH. reflexivity. Qed.
Lemma divs_muls : forall n, divs (repeat Mul n) = 0%nat.
Proof. induction n; [reflexivity|exact IHn]. Qed.
Lemma divs_divs : forall n, divs (repeat Div n) = n.
Proof. unfold divs. induction n; [reflexivity|]. cbn. f_equal. exact IHn. Qed.

(** The number of passes is at most half the bits of [self], rounded up; base
    two reaches that for every [self]. *)
Theorem C107_passes : forall (c : Cfg) x b k, Valid -> wf x -> wf b -> 2 <= uval b -> u_checked_ilog x b = Ok (Some k) ->
  0 <= k - log_start (uval x) (uval b) <= (Z.log2 (uval x) + 1) / 2 /\
  (uval b = 2 -> k - log_start (uval x) (uval b) = (Z.log2 (uval x) + 1) / 2).
Proof.
  intros c x b k HV Hx Hb H2 Ek. destruct (C107_log c x b HV Hx Hb) as (_ & T & _). destruct (T H2 k Ek) as [SK _]. clear T.
  pose proof (uval_range HV x Hx) as Rx.
  assert (Hab : 2 <= uval b <= uval x).
  { split; [assumption|]. destruct (Z.le_gt_cases (uval b) (uval x)) as [L|L]; [assumption|].
    unfold u_checked_ilog in Ek. rewrite (u_checked_ilog_none HV) in Ek by (auto; lia). discriminate. }
  pose proof (u_checked_ilog_ok HV x b Hx Hb Hab) as U. destruct (ilog_panics (uval x) (uval b)); [congruence|].
  destruct U as (k' & Ek' & Rk & Pk). assert (k' = k) by congruence. subst k'.
  set (L := Z.log2 (uval x)) in *. set (l := Z.log2 (uval b)) in *.
  assert (l1 : 1 <= l) by (apply Z.log2_le_pow2; lia).
  assert (KL : l * k <= L).
  { apply Z.log2_le_pow2; [lia|]. transitivity (uval b ^ k); [|lia]. rewrite Z.pow_mul_r by lia. apply Z.pow_le_mono_l.
    assert (B0 : 0 < uval b) by lia. pose proof (Z.log2_spec (uval b) B0) as SP. fold l in SP. lia. }
  unfold log_start in *. fold L l in SK |- *. assert (L0 : 0 <= L) by apply Z.log2_nonneg.
  split.
  - split; [lia|]. destruct (Z.eq_dec l 1) as [E|E].
    + rewrite E in *. change (1 + 1) with 2 in *. pose proof (Z.div_mod L 2). pose proof (Z.mod_pos_bound L 2).
      pose proof (Z.div_mod (L + 1) 2). pose proof (Z.mod_pos_bound (L + 1) 2). lia.
    + assert (0 <= L / (l + 1)) by (apply Z.div_pos; lia). assert (k <= L / 2) by (apply Z.div_le_lower_bound; nia).
      assert (L / 2 <= (L + 1) / 2) by (apply Z.div_le_mono; lia). lia.
  - intros E. unfold l. rewrite E. change (Z.log2 2 + 1) with 2.
    assert (k = L).
    { rewrite E in Pk. symmetry. apply (Z.log2_unique (uval x) k); [lia|]. unfold Z.succ. exact Pk. }
    subst k. pose proof (Z.div_mod L 2). pose proof (Z.mod_pos_bound L 2).
    pose proof (Z.div_mod (L + 1) 2). pose proof (Z.mod_pos_bound (L + 1) 2). lia.
Qed.

(** For a base of one limb and a number of more than two, every division takes
    [N] limb divisions, so the logarithm takes exactly [N] times the passes plus
    one. *)
Theorem C107_log_limb : forall (c : Cfg) x b k, Valid -> wf x -> wf b -> 2 <= uval b < 2 ^ W -> 2 ^ (2 * W) <= uval x ->
  u_checked_ilog x b = Ok (Some k) ->
  let t := fst (c_u_checked_ilog x b) in
  let s := log_start (uval x) (uval b) in
  divs t = (Z.to_nat (k - s + 1) * N)%nat /\ muls t = ((power_products s + Z.to_nat (k - s)) * tri N)%nat.
Proof.
  intros c x b k HV Hx Hb H2 H3 Ek t s. destruct (C107_log c x b HV Hx Hb) as (_ & T & _). destruct (T ltac:(lia) k Ek) as [SK E].
  fold t s in E. fold s in SK. pose proof (uval_range HV x Hx) as Rx. pose proof (W_pos HV) as HW.
  destruct (C95_division c false x b HV Hx Hb ltac:(cbn [val]; lia)) as (_ & D & _). cbn [val] in D. unfold magnitude in D. cbn [val] in D.
  rewrite !Z.abs_eq in D by lia.
  assert (2 ^ W < 2 ^ (2 * W)) by (apply Z.pow_lt_mono_r; lia).
  specialize (D ltac:(lia) ltac:(lia)). destruct (Z.ltb_spec (uval x) (2 ^ (2 * W))); [lia|].
  rewrite D in E. rewrite E.
  assert (MM : forall n, muls (repeat Mul n) = n) by (intros n; unfold muls; induction n as [|n IH]; [reflexivity|cbn; f_equal; exact IH]).
  assert (MD : forall n, muls (repeat Div n) = 0%nat) by (intros n; unfold muls; induction n as [|n IH]; [reflexivity|exact IH]).
  rewrite !divs_app, !muls_app, divs_concat, muls_concat, !divs_app, !muls_app, !divs_muls, !divs_divs, !MM, !MD.
  replace (Z.to_nat (k - s + 1)) with (S (Z.to_nat (k - s))) by lia. split; nia.
Qed.

(** The signed logarithm is the unsigned one of the same numbers. *)
Theorem C107_log_signed : forall (c : Cfg) x b, Valid -> wf x -> wf b ->
  (sval x <= 0 \/ sval b <= 1 -> fst (c_s_checked_ilog x b) = []) /\
  (1 <= sval x -> 2 <= sval b -> fst (c_s_checked_ilog x b) = fst (c_u_checked_ilog x b)).
Proof.
  intros c x b HV Hx Hb. unfold c_s_checked_ilog. rewrite !(from_u8_ok HV) by (unfold fits_u; lia). rewrite !cbind_free.
  rewrite (le_const_ok HV) by wfauto. rewrite cbind_free. rewrite cbind_free. rewrite (le_const_ok HV) by wfauto. rewrite cbind_free.
  rewrite (val_ofZ_small HV true 0) by apply (fits_small HV true 0 ltac:(lia)).
  rewrite (val_ofZ_small HV true 1) by apply (fits_small HV true 1 ltac:(lia)). cbn [val].
  destruct (Z.leb_spec (sval x) 0), (Z.leb_spec (sval b) 1); cbn [orb]; split; intros; try lia; try reflexivity.
  unfold as_unsigned. rewrite !(mk_ok HV) by auto. rewrite !cbind_free.
  unfold cbind. rewrite <- (fst_unwrap _ (c_u_checked_ilog x b)). fold (c_u_ilog x b).
  destruct (c_u_ilog x b) as (t & [r| |]); cbn; try reflexivity. apply app_nil_r.
Qed.

(** ** Dividing once

    [hoisted_checked_ilog] (MCost3.v, not in the crate) gives the same answer,
    or the same panic, with a single division. *)
Section H.
Context {c : Cfg}.
Hypothesis HV : Valid.
Lemma hoisted_loop_ok : forall x b k, wf x -> wf b -> 2 <= uval b ->
  uval b ^ k <= uval x < uval b ^ (k + 1) -> k < 2 ^ 31 ->
  forall fuel n, 0 <= n <= k -> (Z.to_nat (k - n) < fuel)%nat ->
  hoisted_loop fuel b (ofZ (uval x / uval b)) n (ofZ (uval b ^ n)) = (repeat Mul (Z.to_nat (k - n) * tri N), Ok k).
Proof.
  intros x b k Hx Hb Hb2 Hk K31. pose proof (uval_range HV x Hx) as Rx. pose proof (uval_range HV b Hb) as Rb.
  assert (B1 : 0 < uval b) by lia. assert (B0 : uval b <> 0) by lia.
  pose proof (Z.div_mod (uval x) (uval b) B0) as DM. pose proof (Z.mod_pos_bound (uval x) (uval b) B1) as MB.
  assert (Fq : 0 <= uval x / uval b < 2 ^ BITS).
  { split; [apply Z.div_pos; lia|]. apply Z.le_lt_trans with (uval x); [apply Z.div_le_upper_bound; nia|lia]. }
  induction fuel as [|fuel IH]; intros n Hn HF; [lia|].
  assert (Pn : 1 <= uval b ^ n) by (assert (0 < uval b ^ n) by (apply Z.pow_pos_nonneg; lia); lia).
  assert (Ln : uval b ^ n <= uval b ^ k) by (apply Z.pow_le_mono_r; lia).
  assert (Fn : 0 <= uval b ^ n < 2 ^ BITS) by lia.
  cbn [hoisted_loop]. rewrite (le_const_ok HV) by apply (wf_ofZ HV). rewrite cbind_free.
  rewrite (val_ofZ_small HV false (uval b ^ n)) by exact Fn. rewrite (val_ofZ_small HV false (uval x / uval b)) by exact Fq.
  assert (PS : uval b ^ (n + 1) = uval b ^ n * uval b) by (rewrite Z.pow_add_r by lia; rewrite Z.pow_1_r; reflexivity).
  destruct (Z.leb_spec (uval b ^ n) (uval x / uval b)) as [L|L].
  - assert (H' : uval b ^ (n + 1) <= uval x) by (rewrite PS; clear - L DM MB Hb2; nia).
    assert (Hnk : n + 1 <= k).
    { destruct (Z.le_gt_cases (n + 1) k); [assumption|]. assert (n = k) by lia. subst n. lia. }
    unfold uadd. rewrite fb32 by lia. rewrite cbind_free.
    assert (Vr : uval (ofZ (uval b ^ n)) = uval b ^ n) by exact (val_ofZ_small HV false (uval b ^ n) Fn).
    assert (EM : snd (c_op_mul false (ofZ (uval b ^ n)) b) = Ok (ofZ (uval b ^ (n + 1)))).
    { rewrite er_op_mul. rewrite (op_mul_fits HV); [|apply (wf_ofZ HV)|exact Hb|].
      - cbn [val]. rewrite Vr, PS. reflexivity.
      - cbn [val]. rewrite Vr, <- PS. apply fu. lia. }
    rewrite (cbind_ok _ _ _ _ _ EM). rewrite (cost_op_mul HV); [|apply (wf_ofZ HV)|exact Hb|rewrite Vr; lia|lia|rewrite Vr, <- PS; lia].
    rewrite IH by lia. cbn [fst snd]. rewrite <- repeat_app. do 2 f_equal.
    replace (Z.to_nat (k - n)) with (S (Z.to_nat (k - (n + 1)))) by lia. cbn [Nat.mul]. reflexivity.
  - assert (n = k).
    { destruct (Z.le_gt_cases (n + 1) k) as [G|G]; [|lia]. exfalso.
      assert (uval b ^ (n + 1) <= uval b ^ k) by (apply Z.pow_le_mono_r; lia). rewrite PS in *. clear - L DM MB Hb2 H Hk. nia. }
    subst n. rewrite Z.sub_diag. reflexivity.
Qed.
Lemma hoisted_prefix : forall x b, wf x -> wf b -> 2 <= uval b <= uval x ->
  let n := log_start (uval x) (uval b) in
  let m := (let$ q := c_op_div false x b in
            let$ k := hoisted_loop (S (Z.to_nat tbits)) b q n (ofZ (uval b ^ n)) in free (Ok (Some k))) in
  hoisted_checked_ilog x b = (repeat Mul (power_products n * tri N) ++ fst m, snd m).
Proof.
  intros x b Hx Hb Hab n m. pose proof (uval_range HV x Hx) as Rx. pose proof (uval_range HV b Hb) as Rb.
  destruct (ilog_start _ _ Hab) as (S1 & S2). fold (log_start (uval x) (uval b)) in S1, S2. fold n in S1, S2.
  unfold hoisted_checked_ilog. rewrite (from_u8_ok HV) by wfauto. rewrite cbind_free.
  rewrite (le_const_ok HV) by wfauto. rewrite cbind_free. rewrite (lt_const_ok HV) by wfauto. rewrite cbind_free.
  rewrite (derived_eq_ok HV) by wfauto. rewrite (eqb0 HV false) by auto. rewrite (val_ofZ_small HV false 0) by apply (fits_0 HV).
  cbn [val]. destruct (Z.eqb_spec (uval x) 0); [lia|]. destruct (Z.leb_spec (uval b) 0); [lia|].
  destruct (Z.ltb_spec (uval x) (uval b)); [lia|]. cbn [orb]. rewrite !(ilog2_ok HV) by auto. cbn [val].
  destruct (Z.leb_spec (uval x) 0); [lia|]. rewrite cbind_free.
  destruct (Z.leb_spec (uval b) 0); [lia|]. rewrite cbind_free.
  pose proof (log2_lt_BITS HV _ Rx). pose proof (log2_lt_BITS HV _ Rb). pose proof (BITS_lt31 HV).
  pose proof (Z.log2_nonneg (uval x)). pose proof (Z.log2_nonneg (uval b)).
  unfold uadd. rewrite fb32 by lia. rewrite cbind_free. unfold udiv. destruct (Z.eqb_spec (Z.log2 (uval b) + 1) 0); [lia|]. rewrite cbind_free.
  fold (log_start (uval x) (uval b)). fold n.
  pose proof (Z.pow_nonneg (uval b) n ltac:(tauto)) as PN.
  assert (EP : snd (c_pow false b n) = Ok (ofZ (uval b ^ n))).
  { rewrite er_pow. rewrite (pow_fits HV) by (auto; try lia; apply fu; cbn [val]; lia). reflexivity. }
  rewrite (cbind_ok _ _ _ _ _ EP). rewrite (cost_pow HV) by (auto; lia). reflexivity.
Qed.
End H.

Theorem C107_once : forall (c : Cfg) x b, Valid -> wf x -> wf b -> uval b <> 1 ->
  let s := log_start (uval x) (uval b) in
  snd (hoisted_checked_ilog x b) = u_checked_ilog x b /\
  (forall k, u_checked_ilog x b = Ok (Some k) -> fst (hoisted_checked_ilog x b) =
     repeat Mul (power_products s * tri N) ++ fst (c_wrapping_div_rem false x b) ++ repeat Mul (Z.to_nat (k - s) * tri N)).
Proof.
  intros c x b HV Hx Hb H1 s. pose proof (uval_range HV x Hx) as Rx. pose proof (uval_range HV b Hb) as Rb.
  destruct (Z.le_gt_cases (uval x) 0) as [X0|X0]; [|destruct (Z.le_gt_cases (uval b) 0) as [B0|B0]; [|destruct (Z.lt_ge_cases (uval x) (uval b)) as [L|L]]].
  1-3: assert (U : u_checked_ilog x b = Ok None) by (unfold u_checked_ilog; apply (u_checked_ilog_none HV); auto; lia); rewrite U;
    split; [|discriminate]; unfold hoisted_checked_ilog; rewrite (from_u8_ok HV) by wfauto; rewrite cbind_free;
    rewrite (le_const_ok HV) by wfauto; rewrite cbind_free; rewrite (lt_const_ok HV) by wfauto; rewrite cbind_free;
    rewrite (derived_eq_ok HV) by wfauto; rewrite (eqb0 HV false) by auto; rewrite (val_ofZ_small HV false 0) by apply (fits_0 HV);
    cbn [val]; destruct (Z.eqb_spec (uval x) 0); [reflexivity|]; destruct (Z.leb_spec (uval b) 0); [reflexivity|];
    destruct (Z.ltb_spec (uval x) (uval b)); [reflexivity|]; lia.
  assert (Hab : 2 <= uval b <= uval x) by lia. assert (H2 : 2 <= uval b) by lia. assert (B1 : uval b <> 0) by lia.
  pose proof (u_checked_ilog_ok HV x b Hx Hb Hab) as U. pose proof (u_op_div_ok HV x b Hx Hb B1) as Q. rewrite <- er_op_div in Q.
  pose proof (cost_op_div HV x b Hx Hb B1) as CD.
  rewrite (hoisted_prefix HV x b Hx Hb Hab). fold s. cbv zeta. cbn [fst snd].
  destruct (ilog_panics (uval x) (uval b)).
  - rewrite U, (cbind_panic _ _ _ _ Q). split; [reflexivity|discriminate].
  - destruct U as (k & Ek & Rk & Pk). rewrite Ek. rewrite (cbind_ok _ _ _ _ _ Q).
    destruct (ilog_start _ _ Hab) as (S1 & S2). fold (log_start (uval x) (uval b)) in S1, S2. fold s in S1, S2.
    assert (SK : s <= k).
    { destruct (Z.le_gt_cases s k) as [G|G]; [assumption|]. exfalso.
      assert (uval b ^ (k + 1) <= uval b ^ s) by (apply Z.pow_le_mono_r; lia). lia. }
    pose proof (BITS_lt31 HV). rewrite (hoisted_loop_ok HV x b k Hx Hb H2 Pk) by (rewrite ?tbits_BITS; lia).
    unfold cbind, free. cbn [fst snd]. split; [reflexivity|]. intros k' [= <-]. rewrite CD, app_nil_r. reflexivity.
Qed.

(** Examples, 256 bits in four limbs.  The logarithm of the greatest number to
    base ten starts at 63, makes 14 passes and so 15 divisions by ten; to base
    two it makes 128 passes and 129 divisions of four limbs each. *)
Example C107_log_ex : let c := c256_64 in let x := ofZ (2 ^ 256 - 1) in
  log_start (2 ^ 256 - 1) 10 = 63 /\ snd (c_u_checked_ilog x (ofZ 10)) = Ok (Some 77) /\
  divs (fst (c_u_checked_ilog x (ofZ 10))) = 60%nat /\ muls (fst (c_u_checked_ilog x (ofZ 10))) = 250%nat /\
  divs (fst (hoisted_checked_ilog x (ofZ 10))) = 4%nat /\ muls (fst (hoisted_checked_ilog x (ofZ 10))) = 250%nat.
Proof. vm_compute. auto 8. Qed.
Example C107_log_two_ex : let c := c256_64 in let x := ofZ (2 ^ 256 - 1) in
  snd (c_u_checked_ilog x (ofZ 2)) = Ok (Some 255) /\ divs (fst (c_u_checked_ilog x (ofZ 2))) = 516%nat /\
  divs (fst (hoisted_checked_ilog x (ofZ 2))) = 4%nat /\ hoisted_checked_ilog (ofZ 5) (ofZ 7) = ([], Ok None) /\
  c_s_checked_ilog (ofZ 5) (ofZ (- 7)) = ([], Ok None).
Proof. vm_compute. auto 8. Qed.

(** ** Assumptions (each must print "Closed under the global context") *)

Print Assumptions C107_same.
Print Assumptions C107_pow.
Print Assumptions C107_pow_bound.
Print Assumptions C107_log.
Print Assumptions C107_passes.
Print Assumptions C107_log_limb.
Print Assumptions C107_log_signed.
Print Assumptions C107_once.
