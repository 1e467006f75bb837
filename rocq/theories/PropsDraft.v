(** * C103: the base-ten logarithms left in the source as comments *)

Require Import ZArith List Bool Lia.
From Verif Require Import Prim Spec MAdd MMul MCore MArith MScalar MDiv MApi MForms MDraft.
From Verif Require Import Facts PCore PWide PRet PArith PArith2 PPow PBits PBits2 PScalar PScalarDiv PDiv DivSpec TextSpec PApi PMulS PMisc PropsScalarAll PropsReadAll PropsFirst.
From Verif Require Import MForms MDraft.
Import ListNotations.
Local Open Scope Z_scope.
Local Notation E64 := (@ofZ c256_64).
Local Notation E384 := (@ofZ c384_64).

(** ** Proofs *)

Lemma ten_count_ok : forall fuel v, 1 <= v < 2 ^ Z.of_nat fuel -> is_log v 10 (ten_count fuel v).
Proof.
  induction fuel as [|fuel IH]; intros v Hv; [change (2 ^ Z.of_nat 0) with 1 in Hv; lia|]. cbn [ten_count]. unfold is_log. destruct (Z.ltb_spec v 10) as [L|L].
  - split; [lia|]. change (10 ^ 0) with 1. change (10 ^ (0 + 1)) with 10. lia.
  - rewrite Nat2Z.inj_succ, Z.pow_succ_r in Hv by lia. assert (B : 1 <= v / 10 < 2 ^ Z.of_nat fuel) by (split; [apply Z.div_le_lower_bound; lia|apply Z.div_lt_upper_bound; lia]).
    destruct (IH (v / 10) B) as (K & P1 & P2). set (k := ten_count fuel (v / 10)) in *. split; [lia|].
    pose proof (Z.div_mod v 10 ltac:(lia)). pose proof (Z.mod_pos_bound v 10 ltac:(lia)). replace (1 + k + 1) with (Z.succ (k + 1)) by lia.
    replace (1 + k) with (Z.succ k) by lia. rewrite !Z.pow_succ_r by lia. lia.
Qed.
Lemma is_log_unique : forall v k l, is_log v 10 k -> is_log v 10 l -> k = l.
Proof.
  intros v k l (K & K1 & K2) (L & L1 & L2). destruct (Z.lt_trichotomy k l) as [H|[H|H]]; auto; exfalso.
  - assert (10 ^ (k + 1) <= 10 ^ l) by (apply Z.pow_le_mono_r; lia). lia.
  - assert (10 ^ (l + 1) <= 10 ^ k) by (apply Z.pow_le_mono_r; lia). lia.
Qed.
(** dropping [n] digits *)
Lemma is_log_drop : forall v n k, 0 <= n -> is_log (v / 10 ^ n) 10 k -> is_log v 10 (n + k).
Proof.
  intros v n k Hn (K & K1 & K2). assert (P : 0 < 10 ^ n) by (apply Z.pow_pos_nonneg; lia). split; [lia|].
  pose proof (Z.div_mod v (10 ^ n) ltac:(lia)). pose proof (Z.mod_pos_bound v (10 ^ n) P). replace (n + k + 1) with (n + (k + 1)) by lia.
  rewrite (Z.pow_add_r 10 n k), (Z.pow_add_r 10 n (k + 1)) by lia. generalize dependent (10 ^ k). generalize dependent (10 ^ (k + 1)). intros. nia.
Qed.
Lemma E16_pow : E16 = 10 ^ 16. Proof. reflexivity. Qed.

Section P.
Context {c : Cfg}.
Hypothesis HV : Valid.
(** Dividing by 10^16 never needs a correction, with either limb size. *)
Lemma div_E16 : forall x, wf x -> div_us K64 false x E16 = Ok (ofZ (uval x / E16)).
Proof.
  intros x Hx. destruct (C83_scalar c PropsDivAll.Operator K64 x E16 HV Hx) as (Q & _).
  - split; reflexivity || discriminate.
  - discriminate.
  - destruct (W_cases HV) as [-> | ->]; replace (first_failure _ E16) with (@None Z) by (vm_compute; reflexivity); exact I.
  - exact (right_eq c false _ _ HV Q).
Qed.
(** the number of rounds above a limit *)
Definition rounds (lim v : Z) (j : nat) : Prop :=
  v / 10 ^ (16 * Z.of_nat j) < lim /\ forall i, (i < j)%nat -> lim <= v / 10 ^ (16 * Z.of_nat i).
Lemma rounds_step : forall lim v j, 0 <= v -> lim <= v -> rounds lim (v / E16) j -> rounds lim v (S j).
Proof.
  intros lim v j Hv L (R1 & R2). assert (D : forall i, v / E16 / 10 ^ (16 * Z.of_nat i) = v / 10 ^ (16 * Z.of_nat (S i))).
  { intros i. rewrite Z.div_div by (try discriminate; apply Z.pow_pos_nonneg; lia). f_equal. rewrite E16_pow, <- Z.pow_add_r by lia. f_equal. lia. }
  split; [rewrite <- D; exact R1|]. intros [|i] Hi; [change (10 ^ (16 * Z.of_nat 0)) with 1; rewrite Z.div_1_r; exact L|]. rewrite <- D. apply R2. lia.
Qed.
Lemma rounds_few : forall lim v j, 1 <= lim -> 0 <= v < 2 ^ BITS -> rounds lim v j -> 16 * Z.of_nat j <= BITS + 15.
Proof.
  intros lim v j Hl Hv (_ & R). destruct j as [|j]; [pose proof (BITS_ge HV); lia|]. specialize (R j ltac:(lia)).
  assert (P : 0 < 10 ^ (16 * Z.of_nat j)) by (apply Z.pow_pos_nonneg; lia). destruct (Z.le_gt_cases (16 * Z.of_nat (S j)) (BITS + 15)) as [|G]; auto. exfalso.
  assert (2 ^ BITS <= 10 ^ (16 * Z.of_nat j)).
  { apply Z.le_trans with (10 ^ BITS); [apply Z.pow_le_mono_l; lia|apply Z.pow_le_mono_r; lia]. }
  rewrite Z.div_small in R by lia. lia.
Qed.
Lemma uadd32 : forall a b, 0 <= a + b < 2 ^ 32 -> uadd 32 a b = Ok (a + b).
Proof. intros a b H. unfold uadd. apply uchk_ok. exact H. Qed.
Section Loop.
Variables (lim : Z) (loop : nat -> list Z -> Z -> res (list Z * Z)).
Hypothesis Hlim : 1 <= lim.
Hypothesis Hloop : forall fuel v log, 0 <= v < 2 ^ BITS -> loop fuel (ofZ v) log =
  if lim <=? v then match fuel with
                    | O => OutOfFuel
                    | S fuel => let* value := div_us K64 false (ofZ v) E16 in let* log := uadd 32 log 16 in loop fuel value log end
  else Ok (ofZ v, log).
Lemma loop_ok : forall fuel v log, 0 <= v < 2 ^ BITS -> v < 2 ^ Z.of_nat fuel -> 0 <= log -> v * 10 ^ log < 2 ^ BITS ->
  exists j, rounds lim v j /\ loop fuel (ofZ v) log = Ok (ofZ (v / 10 ^ (16 * Z.of_nat j)), log + 16 * Z.of_nat j).
Proof.
  intros fuel. induction fuel as [|fuel IH]; intros v log Hv Hf Hl HB; rewrite Hloop by auto; destruct (Z.leb_spec lim v) as [L|L].
  1: change (2 ^ Z.of_nat 0) with 1 in Hf; lia.
  1,3: exists 0%nat; split; [split; [change (10 ^ (16 * Z.of_nat 0)) with 1; rewrite Z.div_1_r; exact L|intros i Hi; lia]|];
    change (10 ^ (16 * Z.of_nat 0)) with 1; rewrite Z.div_1_r; f_equal; f_equal; lia.
  assert (P : 0 < 10 ^ log) by (apply Z.pow_pos_nonneg; lia).
  assert (LB : log < BITS).
  { destruct (Z.lt_ge_cases log BITS) as [|G]; auto. exfalso. assert (2 ^ BITS <= 10 ^ log); [|nia].
    pose proof (BITS_ge HV). apply Z.le_trans with (10 ^ BITS); [apply Z.pow_le_mono_l; lia|apply Z.pow_le_mono_r; lia]. }
  rewrite div_E16 by apply (wf_ofZ HV). cbn [bind]. change (uval (ofZ v)) with (val false (ofZ v)). rewrite (val_ofZ_small HV) by exact Hv. rewrite uadd32 by (pose proof (BITS_lt31 HV); lia). cbn [bind].
  assert (E0 : 0 < E16) by reflexivity. pose proof (Z.div_mod v E16 ltac:(lia)) as D. pose proof (Z.mod_pos_bound v E16 E0) as M.
  assert (Q0 : 0 <= v / E16) by (apply Z.div_pos; lia). assert (Q1 : v / E16 <= v) by nia.
  destruct (IH (v / E16) (log + 16)) as (j & R & E); [lia| | |  |].
  - rewrite Nat2Z.inj_succ, Z.pow_succ_r in Hf by lia. apply Z.div_lt_upper_bound; [lia|]. assert (2 < E16) by reflexivity. nia.
  - lia.
  - rewrite Z.pow_add_r by lia. rewrite <- E16_pow. nia.
  - exists (S j). split; [apply rounds_step; auto; lia|]. rewrite E. f_equal. f_equal; [|lia]. f_equal.
    rewrite Z.div_div by (try lia; apply Z.pow_pos_nonneg; lia). f_equal. rewrite E16_pow, <- Z.pow_add_r by lia. f_equal. lia.
Qed.
End Loop.
Lemma HB_limit : forall v, (0 <? v / 2 ^ HB) = (2 ^ HB <=? v).
Proof.
  intros v. assert (P : 0 < 2 ^ HB) by (apply Z.pow_pos_nonneg; [lia|pose proof (HB_BITS HV); lia]).
  destruct (Z.leb_spec (2 ^ HB) v) as [L|L]; [apply Z.ltb_lt|apply Z.ltb_ge].
  - assert (1 <= v / 2 ^ HB) by (apply Z.div_le_lower_bound; lia). lia.
  - assert (v / 2 ^ HB < 1) by (apply Z.div_lt_upper_bound; lia). lia.
Qed.
Lemma draft_loop : forall fuel v log, 0 <= v < 2 ^ BITS -> ilog10_loop fuel (ofZ v) log =
  if 2 ^ HB <=? v then match fuel with
                    | O => OutOfFuel
                    | S fuel => let* value := div_us K64 false (ofZ v) E16 in let* log := uadd 32 log 16 in ilog10_loop fuel value log end
  else Ok (ofZ v, log).
Proof.
  intros fuel v log Hv. assert (F : fits false v) by exact Hv. rewrite <- HB_limit.
  assert (Fq : fits false (v / 2 ^ HB)).
  { pose proof (HB_BITS HV). assert (1 <= 2 ^ HB) by (pose proof (pow2_pos HB); lia). split; [apply Z.div_pos; lia|]. apply Z.div_lt_upper_bound; [lia|]. nia. }
  destruct fuel; cbn [ilog10_loop]; rewrite (high_ok HV) by apply (wf_ofZ HV); cbn [bind]; rewrite (from_u8_ok HV) by (unfold fits_u; lia); cbn [bind];
    rewrite (gt_const_ok HV) by apply (wf_ofZ HV); cbn [bind]; change (uval (ofZ v)) with (val false (ofZ v)); rewrite (val_ofZ_small HV false v F), (val_ofZ_small HV false 0 (fits_0 HV false)), (val_ofZ_small HV false _ Fq); reflexivity.
Qed.
Lemma fix_loop : forall fuel v log, 0 <= v < 2 ^ BITS -> fix_ilog10_loop fuel (ofZ v) log =
  if 2 ^ 128 <=? v then match fuel with
                    | O => OutOfFuel
                    | S fuel => let* value := div_us K64 false (ofZ v) E16 in let* log := uadd 32 log 16 in fix_ilog10_loop fuel value log end
  else Ok (ofZ v, log).
Proof.
  intros fuel v log Hv. assert (F : fits false v) by exact Hv.
  assert (B : 2 ^ 128 <= 2 ^ BITS) by (apply pow2_le_mono; pose proof (BITS_ge HV); lia).
  assert (Fm : fits false (2 ^ 128 - 1)) by (split; lia).
  assert (T : (2 ^ 128 <=? v) = (2 ^ 128 - 1 <? v)) by (destruct (Z.leb_spec (2 ^ 128) v), (Z.ltb_spec (2 ^ 128 - 1) v); auto; lia). rewrite T.
  destruct fuel; cbn [fix_ilog10_loop]; rewrite (from_u128_ok HV) by (unfold fits_u; lia); cbn [bind];
    rewrite (gt_const_ok HV) by apply (wf_ofZ HV); cbn [bind]; rewrite !(val_ofZ_small HV) by auto; reflexivity.
Qed.
(** what follows the loop *)
Lemma last_step : forall w log, 0 <= w < 2 ^ BITS -> 0 <= log <= BITS + 15 ->
  (let* value := as_u128 (ofZ w) in let* l := p_ilog10 value in let* r := uadd 32 l log in Ok (Some r)) =
  if w mod 2 ^ 128 =? 0 then Panic else Ok (Some (ten_count 128 (w mod 2 ^ 128) + log)).
Proof.
  intros w log Hw Hl. rewrite (as_u128_ok HV) by apply (wf_ofZ HV). cbn [bind]. change (uval (ofZ w)) with (val false (ofZ w)). rewrite (val_ofZ_small HV) by exact Hw.
  pose proof (Z.mod_pos_bound w (2 ^ 128) ltac:(lia)) as M. unfold p_ilog10. destruct (Z.eqb_spec (w mod 2 ^ 128) 0) as [E|E].
  - rewrite E. reflexivity.
  - destruct (Z.leb_spec (w mod 2 ^ 128) 0); [lia|]. cbn [bind]. destruct (ten_count_ok 128 (w mod 2 ^ 128)) as (K & K1 & _); [change (Z.of_nat 128) with 128; lia|].
    set (k := ten_count 128 (w mod 2 ^ 128)) in *. assert (k < 128).
    { destruct (Z.lt_ge_cases k 128) as [|G]; auto. exfalso. assert (10 ^ 128 <= 10 ^ k) by (apply Z.pow_le_mono_r; lia). assert (2 ^ 128 <= 10 ^ 128) by (vm_compute; discriminate). lia. }
    rewrite uadd32 by (pose proof (BITS_lt31 HV); lia). reflexivity.
Qed.
Lemma quot_range : forall v n, 0 <= v < 2 ^ BITS -> 0 <= n -> 0 <= v / 10 ^ n < 2 ^ BITS.
Proof.
  intros v n Hv Hn. assert (P : 1 <= 10 ^ n) by (assert (0 < 10 ^ n) by (apply Z.pow_pos_nonneg; lia); lia).
  split; [apply Z.div_pos; lia|]. apply Z.le_lt_trans with v; [apply Z.div_le_upper_bound; nia|lia].
Qed.
Lemma draft_ok : forall lim loop x, 1 <= lim ->
  (forall fuel v log, 0 <= v < 2 ^ BITS -> loop fuel (ofZ v) log =
    if lim <=? v then match fuel with
                    | O => OutOfFuel
                    | S fuel => let* value := div_us K64 false (ofZ v) E16 in let* log := uadd 32 log 16 in loop fuel value log end
    else Ok (ofZ v, log)) -> wf x -> 1 <= uval x ->
  exists j, rounds lim (uval x) j /\
    (let* z := from_u8 0 in let* b := eq_const x z in
     if b then Ok None
     else let* (value, log) := loop (Z.to_nat BITS) x 0 in
       let* value := as_u128 value in let* l := p_ilog10 value in let* r := uadd 32 l log in Ok (Some r)) =
    (let r := uval x / 10 ^ (16 * Z.of_nat j) mod 2 ^ 128 in if r =? 0 then Panic else Ok (Some (ten_count 128 r + 16 * Z.of_nat j))).
Proof.
  intros lim loop x Hl HL Hx H1. pose proof (uval_range HV x Hx) as R. unfold fits_u in R.
  destruct (loop_ok lim loop Hl HL (Z.to_nat BITS) (uval x) 0) as (j & J & E); [lia| |lia|lia|].
  { rewrite Z2Nat.id by (pose proof (BITS_ge HV); lia). lia. }
  exists j. split; auto. rewrite (from_u8_ok HV) by (unfold fits_u; lia). cbn [bind]. rewrite (eq_const_ok HV) by (auto; apply (wf_ofZ HV)). cbn [bind].
  change (uval (ofZ 0)) with (val false (ofZ 0)). rewrite (val_ofZ_small HV) by apply (fits_0 HV). destruct (Z.eqb_spec (uval x) 0); [lia|].
  rewrite (ofZ_uval HV) in E by auto. rewrite E. cbn [bind]. rewrite last_step; [reflexivity|apply quot_range; lia|].
  pose proof (rounds_few lim (uval x) j Hl R J). lia.
Qed.
End P.

(** ** The unsigned draft *)

(** Zero has no logarithm; every other value is divided by 10^16 until the upper
    half of it is zero, and the logarithm of what then is in the lowest 128 bits
    is taken. *)
Theorem C103_outcome : forall (c : Cfg) x, Valid -> wf x ->
  (uval x = 0 -> u_checked_ilog10 x = Ok None /\ u_ilog10 x = Panic) /\
  (1 <= uval x -> exists j, rounds (2 ^ (BITS / 2)) (uval x) j /\
    let r := uval x / 10 ^ (16 * Z.of_nat j) mod 2 ^ 128 in
    (r = 0 -> u_checked_ilog10 x = Panic) /\
    (r <> 0 -> exists k, is_log r 10 k /\ u_checked_ilog10 x = Ok (Some (k + 16 * Z.of_nat j)))).
Proof.
  intros c x HV Hx. split.
  - intros H0. assert (E : u_checked_ilog10 x = Ok None).
    { unfold u_checked_ilog10. rewrite (from_u8_ok HV) by (unfold fits_u; lia). cbn [bind]. rewrite (eq_const_ok HV) by (auto; apply (wf_ofZ HV)). cbn [bind].
      change (uval (ofZ 0)) with (val false (ofZ 0)). rewrite (val_ofZ_small HV) by apply (fits_0 HV). rewrite H0. reflexivity. }
    split; auto. unfold u_ilog10. rewrite E. reflexivity.
  - intros H1. destruct (draft_ok HV (2 ^ HB) ilog10_loop x) as (j & J & E); auto.
    { pose proof (pow2_pos HB). pose proof (HB_BITS HV). lia. }
    { apply (draft_loop HV). }
    exists j. split; [exact J|]. change (u_checked_ilog10 x = (let r := uval x / 10 ^ (16 * Z.of_nat j) mod 2 ^ 128 in if r =? 0 then Panic else Ok (Some (ten_count 128 r + 16 * Z.of_nat j)))) in E.
    cbv zeta in *. set (r := _ mod 2 ^ 128) in *. assert (M : 0 <= r < 2 ^ 128) by (apply Z.mod_pos_bound; lia). destruct (Z.eqb_spec r 0) as [R0|R0].
    + split; auto. intros; contradiction.
    + split; [intros; contradiction|]. intros _. exists (ten_count 128 r). split; auto. apply ten_count_ok. change (Z.of_nat 128) with 128. lia.
Qed.
(** At 256 bits it is right, with either limb size. *)
Theorem C103_right_256 : forall (c : Cfg) x, Valid -> BITS = 256 -> wf x -> 1 <= uval x ->
  exists k, is_log (uval x) 10 k /\ u_checked_ilog10 x = Ok (Some k) /\ u_ilog10 x = Ok k.
Proof.
  intros c x HV HB Hx H1. destruct (proj2 (C103_outcome c x HV Hx) H1) as (j & (J1 & J2) & _ & H). rewrite HB in *. change (256 / 2) with 128 in *.
  assert (P : forall n, 0 <= n -> 0 < 10 ^ n) by (intros; apply Z.pow_pos_nonneg; lia).
  set (w := uval x / 10 ^ (16 * Z.of_nat j)) in *. assert (W1 : 1 <= w).
  { destruct j as [|j]; [unfold w; change (10 ^ (16 * Z.of_nat 0)) with 1; rewrite Z.div_1_r; lia|]. specialize (J2 j ltac:(lia)).
    replace w with (uval x / 10 ^ (16 * Z.of_nat j) / 10 ^ 16); [apply Z.div_le_lower_bound; [reflexivity|]; eapply Z.le_trans; [|exact J2]; vm_compute; discriminate|].
    unfold w. rewrite Z.div_div by (try apply Z.neq_sym, Z.lt_neq; apply P; lia). rewrite <- Z.pow_add_r by lia. f_equal. f_equal. lia. }
  rewrite (Z.mod_small w) in H by lia. destruct H as (k & K & E); [lia|]. exists (k + 16 * Z.of_nat j).
  split; [rewrite Z.add_comm; apply is_log_drop; [lia|exact K]|]. split; auto. unfold u_ilog10. rewrite E. reflexivity.
Qed.
(** It agrees with the logarithm the crate has, where that one answers. *)
Theorem C103_agrees_ilog : forall (c : Cfg) x b k, Valid -> BITS = 256 -> wf x -> wf b -> uval b = 10 ->
  u_checked_ilog x b = Ok (Some k) -> u_checked_ilog10 x = Ok (Some k).
Proof.
  intros c x b k HV HB Hx Hb B E. destruct (C79_ilog_unsigned c x b HV Hx Hb ltac:(lia)) as (_ & H & _). apply H in E. rewrite B in E. destruct E as ((_ & E1) & E2 & _).
  destruct (C103_right_256 c x HV HB Hx ltac:(lia)) as (l & L & E & _). rewrite E. do 2 f_equal. eapply is_log_unique; eauto.
Qed.
(** Above 256 bits it is wrong: a value of 129 bits passes for its lowest 128 bits. *)
Theorem C103_wide_refuted : exists (c : Cfg) x y, Valid /\ wf x /\ wf y /\ uval x = 2 ^ 128 + 5 /\ uval y = 2 ^ 128 /\ is_log (uval x) 10 38 /\
  u_checked_ilog10 x = Ok (Some 0) /\ u_checked_ilog10 y = Panic.
Proof.
  exists c384_64, (E384 (2 ^ 128 + 5)), (E384 (2 ^ 128)). split; [apply valid_c384_64|]. split; [apply (wf_ofZ valid_c384_64)|]. split; [apply (wf_ofZ valid_c384_64)|].
  vm_compute. intuition discriminate.
Qed.
(** … and right again with the test for 128 bits, at every width. *)
Theorem C103_corrected : forall (c : Cfg) x, Valid -> wf x ->
  (uval x = 0 -> fix_checked_ilog10 x = Ok None) /\
  (1 <= uval x -> exists k, is_log (uval x) 10 k /\ fix_checked_ilog10 x = Ok (Some k)).
Proof.
  intros c x HV Hx. split.
  - intros H0. unfold fix_checked_ilog10. rewrite (from_u8_ok HV) by (unfold fits_u; lia). cbn [bind]. rewrite (eq_const_ok HV) by (auto; apply (wf_ofZ HV)). cbn [bind].
    change (uval (ofZ 0)) with (val false (ofZ 0)). rewrite (val_ofZ_small HV) by apply (fits_0 HV). rewrite H0. reflexivity.
  - intros H1. destruct (draft_ok HV (2 ^ 128) fix_ilog10_loop x) as (j & (J1 & J2) & E); auto; [lia|apply (fix_loop HV)|].
    change (fix_checked_ilog10 x = (let r := uval x / 10 ^ (16 * Z.of_nat j) mod 2 ^ 128 in if r =? 0 then Panic else Ok (Some (ten_count 128 r + 16 * Z.of_nat j)))) in E.
    assert (P : forall n, 0 <= n -> 0 < 10 ^ n) by (intros; apply Z.pow_pos_nonneg; lia).
    set (w := uval x / 10 ^ (16 * Z.of_nat j)) in *. assert (W1 : 1 <= w).
    { destruct j as [|j]; [unfold w; change (10 ^ (16 * Z.of_nat 0)) with 1; rewrite Z.div_1_r; lia|]. specialize (J2 j ltac:(lia)).
      replace w with (uval x / 10 ^ (16 * Z.of_nat j) / 10 ^ 16); [apply Z.div_le_lower_bound; [reflexivity|]; eapply Z.le_trans; [|exact J2]; vm_compute; discriminate|].
      unfold w. rewrite Z.div_div by (try apply Z.neq_sym, Z.lt_neq; apply P; lia). rewrite <- Z.pow_add_r by lia. f_equal. f_equal. lia. }
    cbv zeta in E. rewrite (Z.mod_small w) in E by lia. destruct (Z.eqb_spec w 0); [lia|]. eexists. split; [|exact E].
    rewrite Z.add_comm. apply is_log_drop; [lia|]. apply ten_count_ok. change (Z.of_nat 128) with 128. lia.
Qed.

(** ** The signed draft *)

Theorem C103_signed : forall (c : Cfg) x, Valid -> wf x ->
  (sval x <= 0 -> s_checked_ilog10 x = Ok None /\ s_ilog10 x = Panic) /\
  (1 <= sval x -> BITS = 256 -> exists k, is_log (sval x) 10 k /\ s_checked_ilog10 x = Ok (Some k) /\ s_ilog10 x = Ok k) /\
  (1 <= sval x -> s_ilog10 x = u_ilog10 x).
Proof.
  intros c x HV Hx. assert (L : (let* z := from_u8 0 in le_const true x z) = Ok (sval x <=? 0)).
  { rewrite (from_u8_ok HV) by (unfold fits_u; lia). cbn [bind]. rewrite (le_const_ok HV) by (auto; apply (wf_ofZ HV)). rewrite (val_ofZ_small HV) by apply (fits_0 HV). reflexivity. }
  assert (S : s_checked_ilog10 x = if sval x <=? 0 then Ok None else let* l := u_ilog10 x in Ok (Some l)).
  { unfold s_checked_ilog10. rewrite (from_u8_ok HV) in * by (unfold fits_u; lia). cbn [bind] in *. rewrite L. cbn [bind]. destruct (sval x <=? 0); [reflexivity|].
    unfold as_unsigned. rewrite (mk_ok HV). reflexivity. }
  unfold s_ilog10. rewrite S. destruct (Z.leb_spec (sval x) 0) as [G|G].
  - split; [auto|]. split; intros; lia.
  - split; [intros; lia|]. split.
    + intros H1 HB. assert (U : uval x = sval x).
      { pose proof (sval_range HV x Hx) as R. rewrite <- (ofZ_sval HV x Hx) at 1. apply (val_ofZ_small HV false). pose proof (pBhalf HV). unfold fits_s in R. split; lia. }
      destruct (C103_right_256 c x HV HB Hx ltac:(lia)) as (k & K & _ & E). rewrite U in K. exists k. split; auto. rewrite E. split; reflexivity.
    + intros _. destruct (u_ilog10 x); reflexivity.
Qed.
Example C103_ex : @u_checked_ilog10 c256_64 (E64 (10 ^ 77)) = Ok (Some 77) /\ @u_checked_ilog10 c256_64 (E64 (10 ^ 77 - 1)) = Ok (Some 76) /\ @u_checked_ilog10 c256_64 (E64 1) = Ok (Some 0) /\
  @s_ilog10 c256_64 (E64 (10 ^ 40)) = Ok 40 /\ @s_ilog10 c256_64 (E64 (-5)) = Panic /\ @u_checked_ilog10 c256_32 (@ofZ c256_32 (10 ^ 60)) = Ok (Some 60) /\
  rounds (2 ^ 128) (10 ^ 60) 2 /\ @fix_checked_ilog10 c384_64 (E384 (2 ^ 128 + 5)) = Ok (Some 38) /\ @fix_checked_ilog10 c384_64 (E384 (10 ^ 115)) = Ok (Some 115).
Proof.
  repeat (split; [vm_compute; reflexivity|]). split; [|vm_compute; auto]. split; [reflexivity|]. intros [|[|i]] Hi; try lia; vm_compute; discriminate.
Qed.

(** ** Assumptions (each must print "Closed under the global context") *)

Print Assumptions C103_outcome.
Print Assumptions C103_right_256.
Print Assumptions C103_agrees_ilog.
Print Assumptions C103_wide_refuted.
Print Assumptions C103_corrected.
Print Assumptions C103_signed.
