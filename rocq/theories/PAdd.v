(** * Proofs about MAdd.v (addition and subtraction on limb arrays) *)

Require Import ZArith List Bool Lia.
From Verif Require Import Prim Spec Facts MAdd.
Import ListNotations.
Local Open Scope Z_scope.

(** Resolve bounds-checked accesses whose index is in range. *)
Ltac len := rewrite ?length_upd, ?repeat_length, ?length_lenc in *; lia.
Ltac mstep :=
  repeat (cbn [bind];
          first [ rewrite get_ok by len | rewrite set_ok by len ]); cbn [bind].

(** Run the first loop of the goal with an invariant over (array, flag) states. *)
Ltac run_loop I r cy E HI :=
  match goal with
  | |- context [for_range ?lo ?hi ?b ?s] =>
      destruct (for_range_inv _ I b lo hi s) as ((r & cy) & E & HI)
  end.

Section P.
Context {c : Cfg}.
Hypothesis HW : 1 <= W <= 64.

Local Notation B := (2 ^ W).

Lemma W0 : 0 <= W. Proof. lia. Qed.
Lemma W1 : 1 <= W. Proof. lia. Qed.
Lemma pw0 : forall n, 0 <= W * Z.of_nat n. Proof. lia. Qed.

Lemma Bpos : 0 < B.
Proof. apply pow2_pos; lia. Qed.

Lemma p_oadd_spec : forall x y, 0 <= x < B -> 0 <= y < B -> forall v f,
  p_overflowing_add W x y = (v, f) -> 0 <= v < B /\ v + B * b2z f = x + y.
Proof.
  intros x y Hx Hy v f E. unfold p_overflowing_add, ucast in E. inversion E; subst; clear E.
  pose proof Bpos. destruct (in_u_reflect W (x + y)) as [F|F]; unfold fits_u in F; cbn [negb b2z].
  - rewrite Z.mod_small by lia. lia.
  - replace ((x + y) mod B) with (x + y - B).
    + lia.
    + apply Z.mod_unique with (q := 1); lia.
Qed.

Lemma p_osub_spec : forall x y, 0 <= x < B -> 0 <= y < B -> forall v f,
  p_overflowing_sub W x y = (v, f) -> 0 <= v < B /\ v - B * b2z f = x - y.
Proof.
  intros x y Hx Hy v f E. unfold p_overflowing_sub, ucast in E. inversion E; subst; clear E.
  pose proof Bpos. destruct (in_u_reflect W (x - y)) as [F|F]; unfold fits_u in F; cbn [negb b2z].
  - rewrite Z.mod_small by lia. lia.
  - replace ((x - y) mod B) with (x - y + B).
    + lia.
    + apply Z.mod_unique with (q := -1); lia.
Qed.

Lemma b2z_lt : forall b : bool, 0 <= b2z b < B.
Proof. intros. pose proof (b2z_range b). pose proof (pow2_ge2 W W1). lia. Qed.

Lemma carrying_add_spec : forall x y cy, 0 <= x < B -> 0 <= y < B -> forall v f,
  carrying_add x y cy = (v, f) -> 0 <= v < B /\ v + B * b2z f = x + y + b2z cy.
Proof.
  intros x y cy Hx Hy v f E. unfold carrying_add in E.
  destruct (p_overflowing_add W x y) as [v0 c0] eqn:E0.
  destruct (p_overflowing_add W v0 (b2z cy)) as [v1 c1] eqn:E1.
  inversion E; subst; clear E.
  apply p_oadd_spec in E0; auto. apply p_oadd_spec in E1; try tauto; [|apply b2z_lt].
  pose proof (b2z_lt cy). destruct c0, c1, cy; cbn in *; lia.
Qed.

Lemma borrowing_sub_spec : forall x y cy, 0 <= x < B -> 0 <= y < B -> forall v f,
  borrowing_sub x y cy = (v, f) -> 0 <= v < B /\ v - B * b2z f = x - y - b2z cy.
Proof.
  intros x y cy Hx Hy v f E. unfold borrowing_sub in E.
  destruct (p_overflowing_sub W x y) as [v0 c0] eqn:E0.
  destruct (p_overflowing_sub W v0 (b2z cy)) as [v1 c1] eqn:E1.
  inversion E; subst; clear E.
  apply p_osub_spec in E0; auto. apply p_osub_spec in E1; try tauto; [|apply b2z_lt].
  pose proof (b2z_lt cy). destruct c0, c1, cy; cbn in *; lia.
Qed.

(** The state invariant shared by all carry chains: [i] digits done, [t] is
    the exact value they should have. *)
Definition chain_inv (n : nat) (sg : Z) (t : nat -> Z) (i : nat) (s : list Z * bool) : Prop :=
  length (fst s) = n /\ digits W (fst s) /\
  pv W (fst s) i + sg * b2z (snd s) * 2 ^ (W * Z.of_nat i) = t i.

Lemma chain_step : forall n sg t i r cy v f,
  chain_inv n sg t i (r, cy) -> (i < n)%nat -> 0 <= v < B ->
  t (S i) = t i + (v + sg * B * b2z f - sg * b2z cy) * 2 ^ (W * Z.of_nat i) ->
  chain_inv n sg t (S i) (upd r i v, f).
Proof.
  intros n sg t i r cy v f (HL & Hd & E) Hi Hv Et. unfold chain_inv in *. cbn [fst snd] in *.
  split; [rewrite length_upd; auto|]. split; [apply digits_upd; auto|].
  rewrite pv_upd_S by lia. rewrite pow2_S by lia. rewrite Et. rewrite <- E. ring.
Qed.

Lemma chain_init : forall n sg t, t 0%nat = 0 -> chain_inv n sg t 0 (repeat 0 n, false).
Proof.
  intros. repeat split; cbn [fst snd].
  - apply repeat_length.
  - apply digits_repeat0. lia.
  - rewrite pv_0. cbn. lia.
Qed.

(** Final step of a wrapping chain: the top digit is computed modulo [B]. *)
Lemma chain_final : forall n sg t r cy v tot,
  chain_inv (S n) sg t n (r, cy) -> 0 <= v < B ->
  (exists q, tot = t n + (v - sg * b2z cy + q * B) * 2 ^ (W * Z.of_nat n)) ->
  upd r n v = lenc W (S n) tot.
Proof.
  intros n sg t r cy v tot (HL & Hd & E) Hv (q & Et). cbn [fst snd] in *.
  apply lenc_unique; [lia| apply digits_upd; auto | rewrite length_upd; auto |].
  rewrite (lval_last W _ n) by (rewrite ?length_upd; lia).
  rewrite pv_upd_ge by lia. rewrite nth_upd_same by lia.
  apply mod_eq_intro with (k := - q).
  - pose proof (pow2_pos _ (pw0 (S n))). lia.
  - rewrite Et, <- E, pow2_S by lia. ring.
Qed.

Lemma chain_done : forall n sg t r cy,
  chain_inv n sg t n (r, cy) -> r = lenc W n (t n) /\ lval W r + sg * b2z cy * 2 ^ (W * Z.of_nat n) = t n.
Proof.
  intros n sg t r cy (HL & Hd & E). cbn [fst snd] in *. rewrite <- HL in E at 1. rewrite pv_full in E.
  split; auto. apply lenc_unique; auto; [lia|].
  apply mod_eq_intro with (k := - sg * b2z cy); [|lia].
  pose proof (pow2_pos _ (pw0 n)). lia.
Qed.

Lemma carry_iff : forall r cy v m, lval W r + 1 * b2z cy * m = v -> 0 <= lval W r < m ->
  (cy = true <-> ~ (0 <= v < m)).
Proof. intros r cy v m E H. destruct cy; cbn [b2z] in E; split; intros; auto; try discriminate; lia. Qed.

Lemma borrow_iff : forall r cy v m, lval W r + -1 * b2z cy * m = v -> 0 <= lval W r < m ->
  (cy = true <-> ~ (0 <= v < m)).
Proof. intros r cy v m E H. destruct cy; cbn [b2z] in E; split; intros; auto; try discriminate; lia. Qed.

Lemma ucast_ex : forall v, exists q, ucast W v = v + q * B.
Proof.
  intros. unfold ucast. exists (- (v / B)). pose proof Bpos. rewrite Z.mod_eq by lia. ring.
Qed.

Local Notation pw n := (2 ^ (W * Z.of_nat n)).

(** Range facts for the [i]-th digit of every digit list in the context. *)
Ltac dig i :=
  repeat match goal with
  | H : digits W ?l |- _ =>
      lazymatch goal with
      | _ : 0 <= nth i l 0 < B |- _ => fail
      | _ => pose proof (digits_nth W l i W0 H)
      end
  end.


(** One step of each of the four kinds of loop bodies. *)
Ltac step2 spec :=
  let j := fresh "j" in let r := fresh "r" in let cy := fresh "cy" in
  let Hj := fresh "Hj" in let I := fresh "I" in let HLr := fresh "HLr" in
  intros j (r & cy) Hj I; pose proof I as (HLr & _); cbn [fst] in HLr; mstep;
  match goal with
  | |- context [let (_, _) := ?e in _] =>
      let v := fresh "v" in let f := fresh "f" in let Ec := fresh "Ec" in let Hv := fresh "Hv" in
      destruct e as (v & f) eqn:Ec; dig j; apply spec in Ec; auto using b2z_lt;
      destruct Ec as (Hv & Ec); mstep;
      eexists; split; [reflexivity|];
      apply (chain_step _ _ _ _ _ cy); [exact I | lia | exact Hv |];
      rewrite ?pv_S by lia
  end.

(** *** Addition *)

Lemma wadd_final : forall n t x r cy tot,
  chain_inv (S n) 1 t n (r, cy) -> (exists q, tot = t n + (x + q * B) * pw n) ->
  upd r n (p_wrapping_add W x (b2z cy)) = lenc W (S n) tot.
Proof.
  intros n t x r cy tot I (q & E). eapply chain_final; eauto.
  - apply ucast_range; lia.
  - unfold p_wrapping_add. destruct (ucast_ex (x + b2z cy)) as (q2 & ->).
    exists (q - q2). rewrite E. ring.
Qed.

Lemma wsub_final : forall n t x r cy tot,
  chain_inv (S n) (-1) t n (r, cy) -> (exists q, tot = t n + (x + q * B) * pw n) ->
  upd r n (p_wrapping_sub W x (b2z cy)) = lenc W (S n) tot.
Proof.
  intros n t x r cy tot I (q & E). eapply chain_final; eauto.
  - apply ucast_range; lia.
  - unfold p_wrapping_sub. destruct (ucast_ex (x - b2z cy)) as (q2 & ->).
    exists (q - q2). rewrite E. ring.
Qed.

Lemma add_wrapping_full_ok : forall x y, (1 <= length x)%nat -> length y = length x ->
  digits W x -> digits W y ->
  add_wrapping_full x y = Ok (lenc W (length x) (lval W x + lval W y)).
Proof.
  intros x y Hn HL Hx Hy. unfold add_wrapping_full. remember (length x) as n eqn:En.
  destruct n as [|n]; [lia|]. replace (S n - 1)%nat with n by lia.
  run_loop (chain_inv (S n) 1 (fun i => pv W x i + pv W y i)) r cy E HI.
  - lia.
  - step2 carrying_add_spec.
    replace (v + 1 * B * b2z f - 1 * b2z cy) with (nth j x 0 + nth j y 0) by lia. ring.
  - apply chain_init. reflexivity.
  - pose proof HI as (HLr & _). cbn [fst] in HLr. rewrite E. mstep. f_equal.
    eapply wadd_final; eauto. unfold p_wrapping_add.
    destruct (ucast_ex (nth n x 0 + nth n y 0)) as (q & ->).
    exists (- q). rewrite !(lval_last W _ n) by lia. ring.
Qed.

Lemma add_overflowing_full_ok : forall x y, length y = length x ->
  digits W x -> digits W y ->
  exists f, add_overflowing_full x y = Ok (lenc W (length x) (lval W x + lval W y), f) /\
  (f = true <-> ~ (0 <= lval W x + lval W y < pw (length x))).
Proof.
  intros x y HL Hx Hy. unfold add_overflowing_full. remember (length x) as n eqn:En.
  run_loop (chain_inv n 1 (fun i => pv W x i + pv W y i)) r cy E HI.
  - lia.
  - step2 carrying_add_spec.
    replace (v + 1 * B * b2z f - 1 * b2z cy) with (nth j x 0 + nth j y 0) by lia. ring.
  - apply chain_init. reflexivity.
  - exists cy. rewrite E. pose proof HI as (HLr & Hd & _). cbn [fst] in *.
    apply chain_done in HI. cbv beta in HI. rewrite !pv_all in HI by auto.
    destruct HI as (E1 & E2). split; [congruence|].
    apply (carry_iff r); auto. rewrite <- HLr. apply lval_range; auto; lia.
Qed.

(** Target value of a chain that adds a scalar into the low digits. *)
Lemma add_wrapping_limb_ok : forall x y, (2 <= length x)%nat ->
  digits W x -> 0 <= y < B ->
  add_wrapping_limb x y = Ok (lenc W (length x) (lval W x + y)).
Proof.
  intros x y Hn Hx Hy. unfold add_wrapping_limb. remember (length x) as n eqn:En.
  destruct n as [|n]; [lia|]. replace (S n - 1)%nat with n by lia.
  replace (2 <=? S n)%nat with true by (symmetry; apply Nat.leb_le; lia). cbn [assert_]. mstep.
  destruct (p_overflowing_add W (nth 0 x 0) y) as (v0 & f0) eqn:E0. dig 0%nat.
  apply p_oadd_spec in E0; auto. destruct E0 as (Hv0 & E0). mstep.
  run_loop (chain_inv (S n) 1 (fun i => pv W x i + y)) r cy E HI.
  - lia.
  - step2 p_oadd_spec.
    replace (v + 1 * B * b2z f - 1 * b2z cy) with (nth j x 0) by lia. ring.
  - repeat split; cbn [fst snd].
    + len.
    + apply digits_upd; auto. apply digits_repeat0; lia.
    + rewrite pv_upd_S by len. rewrite pv_S by lia. rewrite !pv_0.
      change (Z.of_nat 0) with 0. change (Z.of_nat 1) with 1. rewrite Z.mul_0_r, Z.pow_0_r, !Z.mul_1_r. lia.
  - pose proof HI as (HLr & _). cbn [fst] in HLr. rewrite E. mstep. f_equal.
    eapply wadd_final; eauto. exists 0. rewrite !(lval_last W _ n) by lia. ring.
Qed.

Lemma add_overflowing_limb_ok : forall x y, (2 <= length x)%nat ->
  digits W x -> 0 <= y < B ->
  exists f, add_overflowing_limb x y = Ok (lenc W (length x) (lval W x + y), f) /\
  (f = true <-> ~ (0 <= lval W x + y < pw (length x))).
Proof.
  intros x y Hn Hx Hy. unfold add_overflowing_limb. remember (length x) as n eqn:En.
  replace (2 <=? n)%nat with true by (symmetry; apply Nat.leb_le; lia). cbn [assert_]. mstep.
  destruct (p_overflowing_add W (nth 0 x 0) y) as (v0 & f0) eqn:E0. dig 0%nat.
  apply p_oadd_spec in E0; auto. destruct E0 as (Hv0 & E0). mstep.
  run_loop (chain_inv n 1 (fun i => pv W x i + y)) r cy E HI.
  - lia.
  - step2 p_oadd_spec.
    replace (v + 1 * B * b2z f - 1 * b2z cy) with (nth j x 0) by lia. ring.
  - repeat split; cbn [fst snd].
    + len.
    + apply digits_upd; auto. apply digits_repeat0; lia.
    + rewrite pv_upd_S by len. rewrite pv_S by lia. rewrite !pv_0.
      change (Z.of_nat 0) with 0. change (Z.of_nat 1) with 1. rewrite Z.mul_0_r, Z.pow_0_r, !Z.mul_1_r. lia.
  - exists cy. rewrite E. pose proof HI as (HLr & Hd & _). cbn [fst] in *.
    apply chain_done in HI. cbv beta in HI. rewrite !pv_all in HI by auto.
    destruct HI as (E1 & E2). split; [congruence|].
    apply (carry_iff r); auto. rewrite <- HLr. apply lval_range; auto; lia.
Qed.

Lemma pv_ge : forall l k, (length l <= k)%nat -> pv W l k = lval W l.
Proof. intros. unfold pv. rewrite firstn_all2; auto. Qed.

Lemma add_wrapping_mn_ok : forall x y, (2 <= length y < length x)%nat ->
  digits W x -> digits W y ->
  add_wrapping_mn x y = Ok (lenc W (length x) (lval W x + lval W y)).
Proof.
  intros x y Hn Hx Hy. unfold add_wrapping_mn. remember (length x) as m eqn:Em.
  remember (length y) as n eqn:En.
  destruct m as [|m]; [lia|]. replace (S m - 1)%nat with m by lia.
  replace ((2 <=? n)%nat && (n <? S m)%nat) with true
    by (symmetry; apply andb_true_iff; split; [apply Nat.leb_le|apply Nat.ltb_lt]; lia).
  cbn [assert_ bind].
  run_loop (chain_inv (S m) 1 (fun i => pv W x i + pv W y i)) r cy E HI.
  - lia.
  - step2 carrying_add_spec.
    replace (v + 1 * B * b2z f - 1 * b2z cy) with (nth j x 0 + nth j y 0) by lia. ring.
  - apply chain_init. reflexivity.
  - rewrite E. clear E. cbn [bind].
    run_loop (chain_inv (S m) 1 (fun i => pv W x i + pv W y i)) r' cy' E' HI'.
    + lia.
    + step2 p_oadd_spec. rewrite !(pv_ge y) by lia.
      replace (v + 1 * B * b2z f - 1 * b2z cy0) with (nth j x 0) by lia. ring.
    + auto.
    + pose proof HI' as (HLr & _). cbn [fst] in HLr. rewrite E'. mstep. f_equal.
      eapply wadd_final; eauto. exists 0. cbv beta.
      rewrite (lval_last W x m) by lia. rewrite (pv_ge y) by lia. ring.
Qed.

Lemma add_overflowing_mn_ok : forall x y, (2 <= length y < length x)%nat ->
  digits W x -> digits W y ->
  exists f, add_overflowing_mn x y = Ok (lenc W (length x) (lval W x + lval W y), f) /\
  (f = true <-> ~ (0 <= lval W x + lval W y < pw (length x))).
Proof.
  intros x y Hn Hx Hy. unfold add_overflowing_mn. remember (length x) as m eqn:Em.
  remember (length y) as n eqn:En.
  replace ((2 <=? n)%nat && (n <? m)%nat) with true
    by (symmetry; apply andb_true_iff; split; [apply Nat.leb_le|apply Nat.ltb_lt]; lia).
  cbn [assert_ bind].
  run_loop (chain_inv m 1 (fun i => pv W x i + pv W y i)) r cy E HI.
  - lia.
  - step2 carrying_add_spec.
    replace (v + 1 * B * b2z f - 1 * b2z cy) with (nth j x 0 + nth j y 0) by lia. ring.
  - apply chain_init. reflexivity.
  - rewrite E. clear E. cbn [bind].
    run_loop (chain_inv m 1 (fun i => pv W x i + pv W y i)) r' cy' E' HI'.
    + lia.
    + step2 p_oadd_spec. rewrite !(pv_ge y) by lia.
      replace (v + 1 * B * b2z f - 1 * b2z cy0) with (nth j x 0) by lia. ring.
    + auto.
    + exists cy'. rewrite E'. pose proof HI' as (HLr & Hd & _). cbn [fst] in *.
      apply chain_done in HI'. cbv beta in HI'. rewrite !pv_ge in HI' by lia.
      destruct HI' as (E1 & E2). split; [congruence|].
      apply (carry_iff r'); auto. rewrite <- HLr. apply lval_range; auto; lia.
Qed.

(** *** Scalars as limb arrays *)

Lemma wide_limbs_ok : forall y, 0 <= y < 2 ^ (2 * W) -> wide_limbs y = Ok (lenc W 2 y).
Proof.
  intros y Hy. unfold wide_limbs. cbn [set length repeat Nat.ltb Nat.leb bind upd].
  rewrite ushr_ok by lia. cbn [bind]. reflexivity.
Qed.

Lemma lval_wide_limbs : forall y, 0 <= y < 2 ^ (2 * W) -> lval W (lenc W 2 y) = y.
Proof.
  intros y Hy. rewrite lval_lenc by lia. apply Z.mod_small.
  replace (W * Z.of_nat 2) with (2 * W) by lia. auto.
Qed.

Lemma add_wrapping_wide_ok : forall x y, (3 <= length x)%nat ->
  digits W x -> 0 <= y < 2 ^ (2 * W) ->
  add_wrapping_wide x y = Ok (lenc W (length x) (lval W x + y)).
Proof.
  intros x y Hn Hx Hy. unfold add_wrapping_wide. rewrite wide_limbs_ok by auto. cbn [bind].
  rewrite add_wrapping_mn_ok by (auto using digits_lenc, W0; rewrite length_lenc; lia).
  rewrite lval_wide_limbs by auto. reflexivity.
Qed.

Lemma add_overflowing_wide_ok : forall x y, (3 <= length x)%nat ->
  digits W x -> 0 <= y < 2 ^ (2 * W) ->
  exists f, add_overflowing_wide x y = Ok (lenc W (length x) (lval W x + y), f) /\
  (f = true <-> ~ (0 <= lval W x + y < pw (length x))).
Proof.
  intros x y Hn Hx Hy. unfold add_overflowing_wide. rewrite wide_limbs_ok by auto. cbn [bind].
  destruct (add_overflowing_mn_ok x (lenc W 2 y)) as (f & E & F); auto using digits_lenc, W0; try (rewrite length_lenc; lia).

  rewrite lval_wide_limbs in * by auto. exists f; auto.
Qed.

(** *** Subtraction *)

Lemma sub_wrapping_full_ok : forall x y, (2 <= length x)%nat -> length y = length x ->
  digits W x -> digits W y ->
  sub_wrapping_full x y = Ok (lenc W (length x) (lval W x - lval W y)).
Proof.
  intros x y Hn HL Hx Hy. unfold sub_wrapping_full. remember (length x) as n eqn:En.
  destruct n as [|n]; [lia|]. replace (S n - 1)%nat with n by lia.
  replace (2 <=? S n)%nat with true by (symmetry; apply Nat.leb_le; lia). cbn [assert_ bind].
  run_loop (chain_inv (S n) (-1) (fun i => pv W x i - pv W y i)) r cy E HI.
  - lia.
  - step2 borrowing_sub_spec.
    replace (v + -1 * B * b2z f - -1 * b2z cy) with (nth j x 0 - nth j y 0) by lia. ring.
  - apply chain_init. reflexivity.
  - pose proof HI as (HLr & _). cbn [fst] in HLr. rewrite E. mstep. f_equal.
    eapply wsub_final; eauto. unfold p_wrapping_sub.
    destruct (ucast_ex (nth n x 0 - nth n y 0)) as (q & ->).
    exists (- q). rewrite !(lval_last W _ n) by lia. ring.
Qed.

Lemma sub_overflowing_full_ok : forall x y, (2 <= length x)%nat -> length y = length x ->
  digits W x -> digits W y ->
  exists f, sub_overflowing_full x y = Ok (lenc W (length x) (lval W x - lval W y), f) /\
  (f = true <-> ~ (0 <= lval W x - lval W y < pw (length x))).
Proof.
  intros x y Hn HL Hx Hy. unfold sub_overflowing_full. remember (length x) as n eqn:En.
  replace (2 <=? n)%nat with true by (symmetry; apply Nat.leb_le; lia). cbn [assert_ bind].
  run_loop (chain_inv n (-1) (fun i => pv W x i - pv W y i)) r cy E HI.
  - lia.
  - step2 borrowing_sub_spec.
    replace (v + -1 * B * b2z f - -1 * b2z cy) with (nth j x 0 - nth j y 0) by lia. ring.
  - apply chain_init. reflexivity.
  - exists cy. rewrite E. pose proof HI as (HLr & Hd & _). cbn [fst] in *.
    apply chain_done in HI. cbv beta in HI. rewrite !pv_all in HI by auto.
    destruct HI as (E1 & E2). split; [congruence|].
    apply (borrow_iff r); auto. rewrite <- HLr. apply lval_range; auto; lia.
Qed.

Lemma sub_wrapping_limb_ok : forall x y, (2 <= length x)%nat ->
  digits W x -> 0 <= y < B ->
  sub_wrapping_limb x y = Ok (lenc W (length x) (lval W x - y)).
Proof.
  intros x y Hn Hx Hy. unfold sub_wrapping_limb. remember (length x) as n eqn:En.
  destruct n as [|n]; [lia|]. replace (S n - 1)%nat with n by lia.
  replace (2 <=? S n)%nat with true by (symmetry; apply Nat.leb_le; lia). cbn [assert_]. mstep.
  destruct (p_overflowing_sub W (nth 0 x 0) y) as (v0 & f0) eqn:E0. dig 0%nat.
  apply p_osub_spec in E0; auto. destruct E0 as (Hv0 & E0). mstep.
  run_loop (chain_inv (S n) (-1) (fun i => pv W x i - y)) r cy E HI.
  - lia.
  - step2 p_osub_spec.
    replace (v + -1 * B * b2z f - -1 * b2z cy) with (nth j x 0) by lia. ring.
  - repeat split; cbn [fst snd].
    + len.
    + apply digits_upd; auto. apply digits_repeat0; lia.
    + rewrite pv_upd_S by len. rewrite pv_S by lia. rewrite !pv_0.
      change (Z.of_nat 0) with 0. change (Z.of_nat 1) with 1. rewrite Z.mul_0_r, Z.pow_0_r, !Z.mul_1_r. lia.
  - pose proof HI as (HLr & _). cbn [fst] in HLr. rewrite E. mstep. f_equal.
    eapply wsub_final; eauto. exists 0. rewrite !(lval_last W _ n) by lia. ring.
Qed.

Lemma sub_overflowing_limb_ok : forall x y, (2 <= length x)%nat ->
  digits W x -> 0 <= y < B ->
  exists f, sub_overflowing_limb x y = Ok (lenc W (length x) (lval W x - y), f) /\
  (f = true <-> ~ (0 <= lval W x - y < pw (length x))).
Proof.
  intros x y Hn Hx Hy. unfold sub_overflowing_limb. remember (length x) as n eqn:En.
  replace (2 <=? n)%nat with true by (symmetry; apply Nat.leb_le; lia). cbn [assert_]. mstep.
  destruct (p_overflowing_sub W (nth 0 x 0) y) as (v0 & f0) eqn:E0. dig 0%nat.
  apply p_osub_spec in E0; auto. destruct E0 as (Hv0 & E0). mstep.
  run_loop (chain_inv n (-1) (fun i => pv W x i - y)) r cy E HI.
  - lia.
  - step2 p_osub_spec.
    replace (v + -1 * B * b2z f - -1 * b2z cy) with (nth j x 0) by lia. ring.
  - repeat split; cbn [fst snd].
    + len.
    + apply digits_upd; auto. apply digits_repeat0; lia.
    + rewrite pv_upd_S by len. rewrite pv_S by lia. rewrite !pv_0.
      change (Z.of_nat 0) with 0. change (Z.of_nat 1) with 1. rewrite Z.mul_0_r, Z.pow_0_r, !Z.mul_1_r. lia.
  - exists cy. rewrite E. pose proof HI as (HLr & Hd & _). cbn [fst] in *.
    apply chain_done in HI. cbv beta in HI. rewrite !pv_all in HI by auto.
    destruct HI as (E1 & E2). split; [congruence|].
    apply (borrow_iff r); auto. rewrite <- HLr. apply lval_range; auto; lia.
Qed.

Lemma sub_wrapping_mn_ok : forall x y, (2 <= length y < length x)%nat ->
  digits W x -> digits W y ->
  sub_wrapping_mn x y = Ok (lenc W (length x) (lval W x - lval W y)).
Proof.
  intros x y Hn Hx Hy. unfold sub_wrapping_mn. remember (length x) as m eqn:Em.
  remember (length y) as n eqn:En.
  destruct m as [|m]; [lia|]. replace (S m - 1)%nat with m by lia.
  replace ((2 <=? n)%nat && (n <? S m)%nat) with true
    by (symmetry; apply andb_true_iff; split; [apply Nat.leb_le|apply Nat.ltb_lt]; lia).
  cbn [assert_ bind].
  run_loop (chain_inv (S m) (-1) (fun i => pv W x i - pv W y i)) r cy E HI.
  - lia.
  - step2 borrowing_sub_spec.
    replace (v + -1 * B * b2z f - -1 * b2z cy) with (nth j x 0 - nth j y 0) by lia. ring.
  - apply chain_init. reflexivity.
  - rewrite E. clear E. cbn [bind].
    run_loop (chain_inv (S m) (-1) (fun i => pv W x i - pv W y i)) r' cy' E' HI'.
    + lia.
    + step2 p_osub_spec. rewrite !(pv_ge y) by lia.
      replace (v + -1 * B * b2z f - -1 * b2z cy0) with (nth j x 0) by lia. ring.
    + auto.
    + pose proof HI' as (HLr & _). cbn [fst] in HLr. rewrite E'. mstep. f_equal.
      eapply wsub_final; eauto. exists 0. cbv beta.
      rewrite (lval_last W x m) by lia. rewrite (pv_ge y) by lia. ring.
Qed.

Lemma sub_overflowing_mn_ok : forall x y, (2 <= length y < length x)%nat ->
  digits W x -> digits W y ->
  exists f, sub_overflowing_mn x y = Ok (lenc W (length x) (lval W x - lval W y), f) /\
  (f = true <-> ~ (0 <= lval W x - lval W y < pw (length x))).
Proof.
  intros x y Hn Hx Hy. unfold sub_overflowing_mn. remember (length x) as m eqn:Em.
  remember (length y) as n eqn:En.
  replace ((2 <=? n)%nat && (n <? m)%nat) with true
    by (symmetry; apply andb_true_iff; split; [apply Nat.leb_le|apply Nat.ltb_lt]; lia).
  cbn [assert_ bind].
  run_loop (chain_inv m (-1) (fun i => pv W x i - pv W y i)) r cy E HI.
  - lia.
  - step2 borrowing_sub_spec.
    replace (v + -1 * B * b2z f - -1 * b2z cy) with (nth j x 0 - nth j y 0) by lia. ring.
  - apply chain_init. reflexivity.
  - rewrite E. clear E. cbn [bind].
    run_loop (chain_inv m (-1) (fun i => pv W x i - pv W y i)) r' cy' E' HI'.
    + lia.
    + step2 p_osub_spec. rewrite !(pv_ge y) by lia.
      replace (v + -1 * B * b2z f - -1 * b2z cy0) with (nth j x 0) by lia. ring.
    + auto.
    + exists cy'. rewrite E'. pose proof HI' as (HLr & Hd & _). cbn [fst] in *.
      apply chain_done in HI'. cbv beta in HI'. rewrite !pv_ge in HI' by lia.
      destruct HI' as (E1 & E2). split; [congruence|].
      apply (borrow_iff r'); auto. rewrite <- HLr. apply lval_range; auto; lia.
Qed.

Lemma sub_wrapping_wide_ok : forall x y, (3 <= length x)%nat ->
  digits W x -> 0 <= y < 2 ^ (2 * W) ->
  sub_wrapping_wide x y = Ok (lenc W (length x) (lval W x - y)).
Proof.
  intros x y Hn Hx Hy. unfold sub_wrapping_wide. rewrite wide_limbs_ok by auto. cbn [bind].
  rewrite sub_wrapping_mn_ok by (auto using digits_lenc, W0; rewrite length_lenc; lia).
  rewrite lval_wide_limbs by auto. reflexivity.
Qed.

Lemma sub_overflowing_wide_ok : forall x y, (3 <= length x)%nat ->
  digits W x -> 0 <= y < 2 ^ (2 * W) ->
  exists f, sub_overflowing_wide x y = Ok (lenc W (length x) (lval W x - y), f) /\
  (f = true <-> ~ (0 <= lval W x - y < pw (length x))).
Proof.
  intros x y Hn Hx Hy. unfold sub_overflowing_wide. rewrite wide_limbs_ok by auto. cbn [bind].
  destruct (sub_overflowing_mn_ok x (lenc W 2 y)) as (f & E & F); auto using digits_lenc, W0; try (rewrite length_lenc; lia).

  rewrite lval_wide_limbs in * by auto. exists f; auto.
Qed.

End P.
