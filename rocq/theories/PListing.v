(** * Proofs about the machine of MListing.v *)

Require Import ZArith List Bool Lia.
From Verif Require Import Prim Spec Facts MAdd PAdd PAddS MListing.
Import ListNotations.
Local Open Scope Z_scope.

Notation Q := (2 ^ 64).

(** Registers and bytes in range. *)
Definition sane (st : state) : Prop :=
  (forall r, 0 <= regs st r < Q) /\ (forall p, 0 <= mem st p < 256).

(** ** Memory *)

Lemma byte_range : forall k m a v, (forall p, 0 <= m p < 256) -> forall p, 0 <= store k m a v p < 256.
Proof.
  intros k m a v H p. unfold store. cbv zeta. destruct (_ <? _); auto. apply Z.mod_pos_bound. lia.
Qed.

Lemma load_range : forall m, (forall p, 0 <= m p < 256) -> forall k a, 0 <= load k m a < 256 ^ Z.of_nat k.
Proof.
  intros m H. induction k; intros a; cbn [load].
  - cbn. lia.
  - specialize (IHk (a + 1)). specialize (H (a mod Q)).
    rewrite Nat2Z.inj_succ, Z.pow_succ_r by lia. lia.
Qed.

Lemma load8_range : forall m a, (forall p, 0 <= m p < 256) -> 0 <= load 8 m a < Q.
Proof. intros. apply (load_range m H 8 a). Qed.

Lemma load_other : forall n k m a b v,
  (forall i, 0 <= i < Z.of_nat n -> Z.of_nat k <= (b + i - a) mod Q) ->
  load n (store k m a v) b = load n m b.
Proof.
  induction n; intros k m a b v H; cbn [load]; auto. f_equal.
  - unfold store. cbv zeta. rewrite Zminus_mod_idemp_l.
    specialize (H 0). rewrite Z.add_0_r in H. specialize (H ltac:(lia)).
    destruct (Z.ltb_spec ((b - a) mod Q) (Z.of_nat k)); auto. lia.
  - f_equal. apply IHn. intros i Hi. specialize (H (i + 1) ltac:(lia)).
    replace (b + 1 + i - a) with (b + (i + 1) - a) by lia. auto.
Qed.

Lemma load_same_gen : forall m a v k n, (n <= k)%nat -> Z.of_nat k < Q ->
  load n (store k m a v) (a + Z.of_nat (k - n)) = (v / 256 ^ Z.of_nat (k - n)) mod 256 ^ Z.of_nat n.
Proof.
  intros m a v k. induction n; intros Hn Hk; cbn [load].
  - change (256 ^ Z.of_nat 0) with 1. rewrite Z.mod_1_r. auto.
  - replace (a + Z.of_nat (k - S n) + 1) with (a + Z.of_nat (k - n)) by lia.
    rewrite IHn by lia. unfold store at 1. cbv zeta. rewrite Zminus_mod_idemp_l.
    replace (a + Z.of_nat (k - S n) - a) with (Z.of_nat (k - S n)) by lia.
    rewrite Z.mod_small by lia.
    destruct (Z.ltb_spec (Z.of_nat (k - S n)) (Z.of_nat k)); [|lia].
    replace (k - n)%nat with (S (k - S n)) by lia. set (j := (k - S n)%nat).
    assert (0 < 256 ^ Z.of_nat j) by (apply Z.pow_pos_nonneg; lia).
    assert (0 < 256 ^ Z.of_nat n) by (apply Z.pow_pos_nonneg; lia).
    replace (256 ^ Z.of_nat (S j)) with (256 ^ Z.of_nat j * 256) by (rewrite Nat2Z.inj_succ, Z.pow_succ_r by lia; ring).
    replace (256 ^ Z.of_nat (S n)) with (256 * 256 ^ Z.of_nat n) by (rewrite Nat2Z.inj_succ, Z.pow_succ_r by lia; ring).
    rewrite <- Z.div_div by lia. rewrite Z.rem_mul_r by lia. ring.
Qed.
Lemma load_same : forall m a v k, Z.of_nat k < Q -> load k (store k m a v) a = v mod 256 ^ Z.of_nat k.
Proof.
  intros m a v k Hk. pose proof (load_same_gen m a v k k (le_n k) Hk) as E.
  rewrite Nat.sub_diag in E. change (Z.of_nat 0) with 0 in E. rewrite Z.add_0_r in E. rewrite E.
  rewrite Z.pow_0_r, Z.div_1_r. auto.
Qed.

(** Displacements in a short block do not meet around the address space. *)
Lemma apart : forall a i j k n, 0 <= i <= 64 -> 0 <= j <= 64 -> 0 <= k <= 8 -> 0 <= n <= 8 ->
  i + n <= j \/ j + k <= i -> forall t, 0 <= t < n -> k <= (a + i + t - (a + j)) mod Q.
Proof.
  intros a i j k n Hi Hj Hk Hn H t Ht. replace (a + i + t - (a + j)) with (i + t - j) by lia.
  destruct (Z.le_gt_cases 0 (i + t - j)).
  - rewrite Z.mod_small by lia. lia.
  - rewrite <- (Z.mod_add _ 1) by lia. rewrite Z.mod_small by lia. lia.
Qed.

Lemma load8_same : forall m a v, 0 <= v < Q -> load 8 (store 8 m a v) a = v.
Proof. intros. rewrite load_same by (cbn; lia). apply Z.mod_small. exact H. Qed.
Lemma load8_apart : forall m a i j k v, 0 <= i <= 64 -> 0 <= j <= 64 -> (k <= 8)%nat ->
  i + 8 <= j \/ j + Z.of_nat k <= i -> load 8 (store k m (a + j) v) (a + i) = load 8 m (a + i).
Proof. intros. apply load_other. intros t Ht. apply apart with (n := 8); auto; lia. Qed.

(** The [n] limbs of an array at an address. *)
Definition array (m : Z -> Z) (a : Z) (n : nat) : list Z :=
  map (fun i => load 8 m (a + 8 * Z.of_nat i)) (seq 0 n).

Lemma array4 : forall m a, array m a 4 = [load 8 m (a + 0); load 8 m (a + 8); load 8 m (a + 16); load 8 m (a + 24)].
Proof. reflexivity. Qed.

Lemma array_stored : forall m a v0 v1 v2 v3, 0 <= v0 < Q -> 0 <= v1 < Q -> 0 <= v2 < Q -> 0 <= v3 < Q ->
  array (store 8 (store 8 (store 8 (store 8 m (a + 0) v0) (a + 8) v1) (a + 16) v2) (a + 24) v3) a 4 = [v0; v1; v2; v3].
Proof.
  intros. rewrite array4.
  repeat first [rewrite load8_same by auto | rewrite load8_apart by (try lia; cbn; lia)]. reflexivity.
Qed.
Lemma array_stored_flag : forall m a v, array (store 1 m (a + 32) v) a 4 = array m a 4.
Proof.
  intros. rewrite !array4. repeat rewrite load8_apart by (try lia; cbn; lia). reflexivity.
Qed.
Lemma flag_stored : forall m a v, 0 <= v < 256 -> store 1 m (a + 32) v ((a + 32) mod Q) = v.
Proof.
  intros. unfold store. cbv zeta. rewrite Zminus_mod_idemp_l, Z.sub_diag.
  change (0 mod Q) with 0. cbn [Z.ltb]. change (0 <? Z.of_nat 1) with true. cbv iota.
  rewrite Z.pow_0_r, Z.div_1_r. apply Z.mod_small. auto.
Qed.
Lemma store_outside : forall k m a d v p n, 0 <= d -> d + Z.of_nat k <= n -> n <= 64 ->
  n <= (p - a) mod Q -> store k m (a + d) v p = m p.
Proof.
  intros k m a d v p n Hd Hk Hn H. unfold store. cbv zeta.
  replace (p - (a + d)) with ((p - a) - d) by lia. rewrite <- Zminus_mod_idemp_l.
  pose proof (Z.mod_pos_bound (p - a) Q ltac:(lia)). rewrite Z.mod_small by lia.
  destruct (Z.ltb_spec ((p - a) mod Q - d) (Z.of_nat k)); auto. lia.
Qed.

(** ** Bits and bytes *)

Lemma b2z_range : forall b, 0 <= MListing.b2z b <= 1.
Proof. intros []; cbn; lia. Qed.
Lemma byte_put : forall o b, (o - o mod 2 ^ 8 + MListing.b2z b) mod 2 ^ 8 = MListing.b2z b.
Proof.
  intros o b. pose proof (b2z_range b).
  replace (o - o mod 2 ^ 8 + MListing.b2z b) with (MListing.b2z b + (o / 2 ^ 8) * 2 ^ 8) by (rewrite (Z.div_mod o (2 ^ 8)) at 2 by lia; lia).
  rewrite Z.mod_add by lia. apply Z.mod_small. lia.
Qed.
Lemma byte_put2 : forall o a b, (o - o mod 2 ^ 8 + a - a + MListing.b2z b) mod 2 ^ 8 = MListing.b2z b.
Proof. intros. rewrite <- (byte_put o b) at 2. f_equal. lia. Qed.
Lemma lxor_bits : forall a b, Z.lxor (MListing.b2z a) (MListing.b2z b) = MListing.b2z (xorb a b).
Proof. intros [] []; reflexivity. Qed.
Lemma put8_range : forall o v, 0 <= o < Q -> 0 <= v < 256 -> 0 <= o - o mod 2 ^ 8 + v < Q.
Proof.
  intros o v Ho Hv. pose proof (Z.div_mod o (2 ^ 8) ltac:(lia)).
  assert (0 <= o / 2 ^ 8 < 2 ^ 56).
  { split; [apply Z.div_pos; lia|]. apply Z.div_lt_upper_bound; lia. }
  lia.
Qed.

(** ** Four-limb sums and differences *)

Definition in4 (l : list Z) : Prop := length l = 4%nat /\ digits 64 l.
Lemma in4_intro : forall a b d e, 0 <= a < Q -> 0 <= b < Q -> 0 <= d < Q -> 0 <= e < Q -> in4 [a; b; d; e].
Proof. intros. split; auto. repeat constructor; auto; lia. Qed.

Lemma carry_split : forall t, 0 <= t < 2 * Q -> t = t mod Q + Q * MListing.b2z (Q <=? t).
Proof.
  intros t H. destruct (Z.leb_spec Q t); cbn [MListing.b2z].
  - replace t with (t - Q + 1 * Q) at 2 by lia. rewrite Z.mod_add, Z.mod_small by lia. lia.
  - rewrite Z.mod_small by lia. lia.
Qed.
Lemma borrow_split : forall t, - Q <= t < Q -> t = t mod Q - Q * MListing.b2z (t <? 0).
Proof.
  intros t H. destruct (Z.ltb_spec t 0); cbn [MListing.b2z].
  - rewrite <- (Z.mod_add t 1) by lia. rewrite Z.mod_small by lia. lia.
  - rewrite Z.mod_small by lia. lia.
Qed.

Ltac bits := repeat match goal with
  | |- context [MListing.b2z ?b] =>
      lazymatch goal with H : 0 <= MListing.b2z b <= 1 |- _ => fail | _ => pose proof (b2z_range b) end
  | H : context [MListing.b2z ?b] |- _ =>
      lazymatch goal with H : 0 <= MListing.b2z b <= 1 |- _ => fail | _ => pose proof (b2z_range b) end
  end.

Section Four.
Variables x0 x1 x2 x3 y0 y1 y2 y3 t0 t1 t2 t3 : Z.
Hypotheses (X0 : 0 <= x0 < Q) (X1 : 0 <= x1 < Q) (X2 : 0 <= x2 < Q) (X3 : 0 <= x3 < Q).
Hypotheses (Y0 : 0 <= y0 < Q) (Y1 : 0 <= y1 < Q) (Y2 : 0 <= y2 < Q) (Y3 : 0 <= y3 < Q).
Let x := [x0; x1; x2; x3].
Let y := [y0; y1; y2; y3].
Let r := [t0 mod Q; t1 mod Q; t2 mod Q; t3 mod Q].

Lemma r_in4 : in4 r.
Proof. apply in4_intro; apply Z.mod_pos_bound; lia. Qed.

Section Add.
Hypotheses (T0 : t0 = x0 + y0) (T1 : t1 = x1 + y1 + MListing.b2z (Q <=? t0))
  (T2 : t2 = x2 + y2 + MListing.b2z (Q <=? t1)) (T3 : t3 = x3 + y3 + MListing.b2z (Q <=? t2)).

Lemma add4_sum : lval 64 x + lval 64 y = lval 64 r + 2 ^ 256 * MListing.b2z (Q <=? t3).
Proof.
  subst x y r. cbn [lval]. bits.
  pose proof (carry_split t0 ltac:(lia)). pose proof (carry_split t1 ltac:(lia)).
  pose proof (carry_split t2 ltac:(lia)). pose proof (carry_split t3 ltac:(lia)).
  lia.
Qed.
Lemma add4 : r = lenc 64 4 (lval 64 x + lval 64 y).
Proof.
  apply lenc_unique; try apply r_in4; try lia.
  rewrite add4_sum. change (64 * Z.of_nat 4) with 256. rewrite Z.mul_comm, Z.mod_add by lia. auto.
Qed.
Lemma add4_flag : (Q <=? t3) = true <-> ~ (0 <= lval 64 x + lval 64 y < 2 ^ 256).
Proof.
  pose proof (lval_range 64 r ltac:(lia) (proj2 r_in4)) as B. change (64 * Z.of_nat (length r)) with 256 in B.
  rewrite add4_sum. destruct (Q <=? t3); cbn [MListing.b2z]; split; intros; try lia; try discriminate.
Qed.
End Add.

Section Sub.
Hypotheses (T0 : t0 = x0 - y0) (T1 : t1 = x1 - y1 - MListing.b2z (t0 <? 0))
  (T2 : t2 = x2 - y2 - MListing.b2z (t1 <? 0)) (T3 : t3 = x3 - y3 - MListing.b2z (t2 <? 0)).

Lemma sub4_sum : lval 64 x - lval 64 y = lval 64 r - 2 ^ 256 * MListing.b2z (t3 <? 0).
Proof.
  subst x y r. cbn [lval]. bits.
  pose proof (borrow_split t0 ltac:(lia)). pose proof (borrow_split t1 ltac:(lia)).
  pose proof (borrow_split t2 ltac:(lia)). pose proof (borrow_split t3 ltac:(lia)).
  lia.
Qed.
Lemma sub4 : r = lenc 64 4 (lval 64 x - lval 64 y).
Proof.
  apply lenc_unique; try apply r_in4; try lia.
  rewrite sub4_sum. change (64 * Z.of_nat 4) with 256.
  replace (lval 64 r - 2 ^ 256 * MListing.b2z (t3 <? 0)) with (lval 64 r + (- MListing.b2z (t3 <? 0)) * 2 ^ 256) by lia.
  rewrite Z.mod_add by lia. auto.
Qed.
Lemma sub4_flag : (t3 <? 0) = true <-> ~ (0 <= lval 64 x - lval 64 y < 2 ^ 256).
Proof.
  pose proof (lval_range 64 r ltac:(lia) (proj2 r_in4)) as B. change (64 * Z.of_nat (length r)) with 256 in B.
  rewrite sub4_sum. destruct (t3 <? 0); cbn [MListing.b2z]; split; intros; try lia; try discriminate.
Qed.
End Sub.
End Four.

(** ** The signed overflow flag *)

Lemma signed_range : forall v, 0 <= v < Q -> - 2 ^ 63 <= signed 64 v < 2 ^ 63.
Proof. intros v H. unfold signed. change (64 - 1) with 63. destruct (Z.ltb_spec v (2 ^ 63)); lia. Qed.

Lemma range_spec : forall v, out_of_range 64 v = false <-> - 2 ^ 63 <= v < 2 ^ 63.
Proof.
  intros v. unfold out_of_range. change (64 - 1) with 63. rewrite negb_false_iff, andb_true_iff, Z.leb_le, Z.ltb_lt. tauto.
Qed.
Lemma range_spec_t : forall v, out_of_range 64 v = true <-> ~ (- 2 ^ 63 <= v < 2 ^ 63).
Proof. intros v. rewrite <- range_spec. destruct (out_of_range 64 v); split; intros; auto; try discriminate; congruence. Qed.

Ltac oor v := let E := fresh "E" in destruct (out_of_range 64 v) eqn:E;
  [apply range_spec_t in E | apply range_spec in E].

Lemma signed_cases : forall v, 0 <= v < Q -> (v < 2 ^ 63 /\ signed 64 v = v) \/ (2 ^ 63 <= v /\ signed 64 v = v - Q).
Proof. intros v H. unfold signed. change (64 - 1) with 63. destruct (Z.ltb_spec v (2 ^ 63)); lia. Qed.

Lemma xor_add : forall a b f, 0 <= a < Q -> 0 <= b < Q ->
  xorb (out_of_range 64 (signed 64 a + signed 64 b)) (out_of_range 64 (signed 64 ((a + b) mod Q) + MListing.b2z f)) =
  out_of_range 64 (signed 64 a + signed 64 b + MListing.b2z f).
Proof.
  intros a b f Ha Hb. pose proof (carry_split (a + b) ltac:(lia)) as E. bits.
  pose proof (Z.mod_pos_bound (a + b) Q ltac:(lia)) as R.
  pose proof (signed_cases a Ha). pose proof (signed_cases b Hb). pose proof (signed_cases _ R).
  set (v := (a + b) mod Q) in *. clearbody v.
  oor (signed 64 a + signed 64 b); oor (signed 64 v + MListing.b2z f); oor (signed 64 a + signed 64 b + MListing.b2z f);
    cbn [xorb]; auto; exfalso; destruct (Q <=? a + b); cbn [MListing.b2z] in *; lia.
Qed.
Lemma xor_sub : forall a b f, 0 <= a < Q -> 0 <= b < Q ->
  xorb (out_of_range 64 (signed 64 a - signed 64 b)) (out_of_range 64 (signed 64 ((a - b) mod Q) - MListing.b2z f)) =
  out_of_range 64 (signed 64 a - signed 64 b - MListing.b2z f).
Proof.
  intros a b f Ha Hb. pose proof (borrow_split (a - b) ltac:(lia)) as E. bits.
  pose proof (Z.mod_pos_bound (a - b) Q ltac:(lia)) as R.
  pose proof (signed_cases a Ha). pose proof (signed_cases b Hb). pose proof (signed_cases _ R).
  set (v := (a - b) mod Q) in *. clearbody v.
  oor (signed 64 a - signed 64 b); oor (signed 64 v - MListing.b2z f); oor (signed 64 a - signed 64 b - MListing.b2z f);
    cbn [xorb]; auto; exfalso; destruct (a - b <? 0); cbn [MListing.b2z] in *; lia.
Qed.

(** The configuration of the listings: four 64-bit limbs. *)
Definition x86 (k d : bool) : Cfg := {| W := 64; N := 4; chk := k; dbg := d |}.
Lemma W_x86 : forall k d, 1 <= @W (x86 k d) <= 64.
Proof. intros; cbn; lia. Qed.

Lemma lsval4 : forall k d a0 a1 a2 a3, in4 [a0; a1; a2; a3] ->
  @lsval (x86 k d) [a0; a1; a2; a3] = a0 + Q * a1 + 2 ^ 128 * a2 + 2 ^ 192 * signed 64 a3.
Proof.
  intros k d a0 a1 a2 a3 (_ & H). unfold lsval. cbn [x86 W length lval]. change (64 * Z.of_nat 4) with 256.
  inversion H as [|? ? G0 T0]; inversion T0 as [|? ? G1 T1]; inversion T1 as [|? ? G2 T2]; inversion T2 as [|? ? G3 T3]; subst.
  unfold swrap. change (256 - 1) with 255.
  destruct (signed_cases a3 G3) as [(L & ->)|(L & ->)].
  - rewrite Z.mod_small by lia. lia.
  - rewrite <- (Z.mod_add _ (-1)) by lia. rewrite Z.mod_small by lia. lia.
Qed.

Lemma fits_top : forall lo s, 0 <= lo < 2 ^ 192 -> fits_s 256 (lo + 2 ^ 192 * s) <-> out_of_range 64 s = false.
Proof. intros lo s H. rewrite range_spec. unfold fits_s. change (256 - 1) with 255. lia. Qed.

Section FourSigned.
Variables x0 x1 x2 x3 y0 y1 y2 y3 t0 t1 t2 : Z.
Hypotheses (X0 : 0 <= x0 < Q) (X1 : 0 <= x1 < Q) (X2 : 0 <= x2 < Q) (X3 : 0 <= x3 < Q).
Hypotheses (Y0 : 0 <= y0 < Q) (Y1 : 0 <= y1 < Q) (Y2 : 0 <= y2 < Q) (Y3 : 0 <= y3 < Q).
Variables k d : bool.
Let x := [x0; x1; x2; x3].
Let y := [y0; y1; y2; y3].

Lemma add4_oflag : t0 = x0 + y0 -> t1 = x1 + y1 + MListing.b2z (Q <=? t0) -> t2 = x2 + y2 + MListing.b2z (Q <=? t1) ->
  out_of_range 64 (signed 64 x3 + signed 64 y3 + MListing.b2z (Q <=? t2)) = true <->
  ~ fits_s 256 (@lsval (x86 k d) x + @lsval (x86 k d) y).
Proof.
  intros T0 T1 T2. subst x y. rewrite !lsval4 by (apply in4_intro; auto). bits.
  pose proof (carry_split t0 ltac:(lia)). pose proof (carry_split t1 ltac:(lia)). pose proof (carry_split t2 ltac:(lia)).
  pose proof (Z.mod_pos_bound t0 Q ltac:(lia)). pose proof (Z.mod_pos_bound t1 Q ltac:(lia)).
  pose proof (Z.mod_pos_bound t2 Q ltac:(lia)).
  replace (x0 + Q * x1 + 2 ^ 128 * x2 + 2 ^ 192 * signed 64 x3 + (y0 + Q * y1 + 2 ^ 128 * y2 + 2 ^ 192 * signed 64 y3))
    with ((t0 mod Q + Q * (t1 mod Q) + 2 ^ 128 * (t2 mod Q)) + 2 ^ 192 * (signed 64 x3 + signed 64 y3 + MListing.b2z (Q <=? t2))) by lia.
  rewrite fits_top by lia. destruct (out_of_range _ _); split; intros; auto; try discriminate; congruence.
Qed.
Lemma sub4_oflag : t0 = x0 - y0 -> t1 = x1 - y1 - MListing.b2z (t0 <? 0) -> t2 = x2 - y2 - MListing.b2z (t1 <? 0) ->
  out_of_range 64 (signed 64 x3 - signed 64 y3 - MListing.b2z (t2 <? 0)) = true <->
  ~ fits_s 256 (@lsval (x86 k d) x - @lsval (x86 k d) y).
Proof.
  intros T0 T1 T2. subst x y. rewrite !lsval4 by (apply in4_intro; auto). bits.
  pose proof (borrow_split t0 ltac:(lia)). pose proof (borrow_split t1 ltac:(lia)). pose proof (borrow_split t2 ltac:(lia)).
  pose proof (Z.mod_pos_bound t0 Q ltac:(lia)). pose proof (Z.mod_pos_bound t1 Q ltac:(lia)).
  pose proof (Z.mod_pos_bound t2 Q ltac:(lia)).
  replace (x0 + Q * x1 + 2 ^ 128 * x2 + 2 ^ 192 * signed 64 x3 - (y0 + Q * y1 + 2 ^ 128 * y2 + 2 ^ 192 * signed 64 y3))
    with ((t0 mod Q + Q * (t1 mod Q) + 2 ^ 128 * (t2 mod Q)) + 2 ^ 192 * (signed 64 x3 - signed 64 y3 - MListing.b2z (t2 <? 0))) by lia.
  rewrite fits_top by lia. destruct (out_of_range _ _); split; intros; auto; try discriminate; congruence.
Qed.
End FourSigned.

(** ** Every run keeps registers and bytes in range *)

Lemma width_le : forall s, 8 <= width s <= 64.
Proof. destruct s; cbn; lia. Qed.
Lemma pow_width : forall s, 256 <= 2 ^ width s <= Q.
Proof. intros s. pose proof (width_le s). split; [change 256 with (2 ^ 8)|]; apply Z.pow_le_mono_r; lia. Qed.

Lemma read_range : forall s st a, sane st -> 0 <= read s st a < 2 ^ width s.
Proof.
  intros s st a (Hr & Hm). pose proof (pow_width s). unfold read. destruct a.
  - destruct s; try apply Z.mod_pos_bound; try (cbn; lia). apply Hr.
  - apply Z.mod_pos_bound. lia.
  - pose proof (load_range (mem st) Hm (bytes s) (regs st base + disp)) as B.
    replace (2 ^ width s) with (256 ^ Z.of_nat (bytes s)) by (destruct s; reflexivity). auto.
Qed.

Lemma put_range : forall s o v, 0 <= o < Q -> 0 <= v < 2 ^ width s -> 0 <= o - o mod 2 ^ width s + v < Q.
Proof.
  intros s o v Ho Hv. pose proof (pow_width s) as P.
  pose proof (Z.mod_pos_bound o (2 ^ width s) ltac:(lia)). pose proof (Z.div_mod o (2 ^ width s) ltac:(lia)) as E.
  assert (HQ : exists q, Q = 2 ^ width s * q) by (destruct s; [exists (2 ^ 56)|exists (2 ^ 48)|exists (2 ^ 32)|exists 1]; reflexivity).
  destruct HQ as (q & HQ).
  assert (0 <= 2 ^ width s * (o / 2 ^ width s)) by (apply Z.mul_nonneg_nonneg; [|apply Z.div_pos]; lia).
  set (b := 2 ^ width s) in *. clearbody b. set (u := o / b) in *. clearbody u.
  set (m := o mod b) in *. clearbody m.
  assert (b * u < b * q) by lia.
  assert (u < q) by (apply (Z.mul_lt_mono_pos_l b); lia).
  assert (b * (u + 1) <= b * q) by (apply Zmult_le_compat_l; lia). lia.
Qed.

Lemma write_sane : forall s st d v st', sane st -> 0 <= v < 2 ^ width s -> write s st d v = Some st' -> sane st'.
Proof.
  intros s st d v st' (Hr & Hm) Hv E. pose proof (pow_width s). destruct d; cbn [write] in E; inversion E; subst; clear E; split; cbn [regs mem]; auto.
  - intro q. unfold put. destruct (reg_eqb r q); auto. pose proof (put_range s _ v (Hr r) Hv).
    destruct s; auto; lia.
  - apply byte_range; auto.
Qed.

Lemma sane_flags : forall a b d st, sane st -> sane (flags a b d st).
Proof. intros a b d st H; exact H. Qed.

Lemma addc_sane : forall s st d a f st', sane st -> addc s st d a f = Some st' -> sane st'.
Proof.
  intros s st d a f st' H E. unfold addc in E. pose proof (pow_width s).
  eapply write_sane; [apply sane_flags; exact H| |exact E]. apply Z.mod_pos_bound. lia.
Qed.
Lemma subb_sane : forall s st d a f st', sane st -> subb s st d a f = Some st' -> sane st'.
Proof.
  intros s st d a f st' H E. unfold subb in E. pose proof (pow_width s).
  eapply write_sane; [apply sane_flags; exact H| |exact E]. apply Z.mod_pos_bound. lia.
Qed.
Lemma shift_sane : forall op s st d a st', sane st -> shift op s st d a = Some st' -> sane st'.
Proof.
  intros op s st d a st' H E. unfold shift in E. cbv zeta in E. pose proof (pow_width s).
  destruct (_ =? 0) in E; (eapply write_sane; [|apply Z.mod_pos_bound|exact E]; [|lia]); auto.
Qed.

Lemma bit_small : forall w v, 0 <= w -> 0 <= v -> (forall i, w <= i -> Z.testbit v i = false) -> v < 2 ^ w.
Proof.
  intros w v Hw Hv H. destruct (Z.eq_dec v 0) as [->|N]; [apply Z.pow_pos_nonneg; lia|].
  apply Z.log2_lt_pow2; [lia|]. apply Z.nle_gt. intro L.
  pose proof (Z.bit_log2 v ltac:(lia)). rewrite H in *; auto; discriminate.
Qed.
Lemma high_bits : forall w v i, 0 <= v < 2 ^ w -> 0 <= w <= i -> Z.testbit v i = false.
Proof.
  intros w v i Hv Hi. destruct (Z.eq_dec v 0) as [->|N]; [apply Z.bits_0|].
  apply Z.bits_above_log2; [lia|]. apply Z.lt_le_trans with w; [|lia]. apply Z.log2_lt_pow2; lia.
Qed.
Lemma logic_range : forall op g w a b, (forall i, Z.testbit (op a b) i = g (Z.testbit a i) (Z.testbit b i)) ->
  g false false = false -> 0 <= w -> 0 <= a < 2 ^ w -> 0 <= b < 2 ^ w -> 0 <= op a b -> 0 <= op a b < 2 ^ w.
Proof.
  intros op g w a b H G Hw Ha Hb Ho. split; auto. apply bit_small; auto. intros i Hi.
  rewrite H, (high_bits w a), (high_bits w b) by lia. auto.
Qed.

Lemma logic_sane : forall op g s st d a st',
  (forall a b i, Z.testbit (op a b) i = g (Z.testbit a i) (Z.testbit b i)) -> g false false = false ->
  (forall a b, 0 <= a -> 0 <= b -> 0 <= op a b) ->
  sane st -> logic op s st d a = Some st' -> sane st'.
Proof.
  intros op g s st d a st' H G P S E. unfold logic in E. pose proof (width_le s).
  pose proof (read_range s st d S). pose proof (read_range s st a S).
  eapply write_sane; [apply sane_flags; exact S| |exact E]. apply logic_range with (g := g); auto; try lia. apply P; lia.
Qed.

Lemma step_sane : forall i st st', sane st -> step i st = Some st' -> sane st'.
Proof.
  intros i st st' H E. pose proof (fun s => pow_width s) as PW. destruct i; cbn [step] in E; try discriminate.
  - eapply write_sane; eauto. apply read_range; auto.
  - destruct (Z.ltb_spec (width t) (width s)); [|discriminate]. eapply write_sane; eauto.
    pose proof (read_range t st a H). pose proof (width_le t).
    assert (2 ^ width t <= 2 ^ width s) by (apply Z.pow_le_mono_r; lia). lia.
  - eapply addc_sane; eauto.
  - unfold with_flag in E. destruct (cf st); [|discriminate]. eapply addc_sane; eauto.
  - eapply subb_sane; eauto.
  - unfold with_flag in E. destruct (cf st); [|discriminate]. eapply subb_sane; eauto.
  - eapply (logic_sane Z.land andb); eauto using Z.land_spec. intros; apply Z.land_nonneg; auto.
  - eapply (logic_sane Z.lor orb); eauto using Z.lor_spec. intros; apply Z.lor_nonneg; auto.
  - eapply (logic_sane Z.lxor xorb); eauto using Z.lxor_spec. intros; apply Z.lxor_nonneg; tauto.
  - inversion E; subst. exact H.
  - eapply write_sane; [apply sane_flags; exact H| |exact E]. apply Z.mod_pos_bound. specialize (PW s). lia.
  - eapply shift_sane; eauto.
  - eapply shift_sane; eauto.
  - eapply shift_sane; eauto.
  - unfold with_flag in E. destruct (of st) as [b|]; [|discriminate]. eapply write_sane; [exact H| |exact E].
    pose proof (b2z_range b). cbn. lia.
  - unfold with_flag in E. destruct (cf st) as [b|]; [|discriminate]. eapply write_sane; [exact H| |exact E].
    pose proof (b2z_range b). cbn. lia.
  - unfold with_flag in E. destruct (zf st) as [b|]; [|discriminate]. eapply write_sane; [exact H| |exact E].
    destruct b; apply read_range; auto.
Qed.

Lemma run_sane : forall p b st st', sane st -> run p b st = Some st' -> sane st'.
Proof.
  induction p as [|i p IH]; intros b st st' H E; cbn [run] in E; [discriminate|].
  destruct b.
  - destruct i; eauto.
  - assert (G : forall j, match step j st with Some st0 => run p false st0 | None => None end = Some st' -> sane st').
    { intros j. destruct (step j st) as [s1|] eqn:F; intros E'; [|discriminate]. eapply IH; [|exact E']. eapply step_sane; eauto. }
    destruct i; try (eapply G; exact E); eauto.
    + unfold with_flag in E. destruct (zf st) as [b|]; [|discriminate]. eauto.
    + inversion E; subst; auto.
Qed.

(** ** What a listing has to deliver

    The result pointer arrives in [rdi] and leaves in [rax], the operands are
    at [rsi] and at (or in) [rdx].  The registers a called function must keep
    are kept, and no byte outside the result is changed. *)

Definition kept (st st' : state) (n : Z) : Prop :=
  regs st' RAX = regs st RDI /\
  (forall r, In r [RBX; RSP; RBP; R12; R13; R14; R15] -> regs st' r = regs st r) /\
  (forall p, n <= (p - regs st RDI) mod Q -> mem st' p = mem st p) /\
  sane st'.
(** A function returning [[u64; 4]]. *)
Definition gives (p : list instr) (st : state) (m : res (list Z)) : Prop :=
  exists st', run p false st = Some st' /\ kept st st' 32 /\ m = Ok (array (mem st') (regs st RDI) 4).
(** A function returning [([u64; 4], bool)]. *)
Definition gives_flag (p : list instr) (st : state) (m : res (list Z * bool)) : Prop :=
  exists st' f, run p false st = Some st' /\ kept st st' 33 /\
  mem st' ((regs st RDI + 32) mod Q) = MListing.b2z f /\ m = Ok (array (mem st') (regs st RDI) 4, f).

(** The operands: an array at [rsi], and an array at [rdx] or a number in it. *)
Definition xs (st : state) : list Z := array (mem st) (regs st RSI) 4.
Definition ys (st : state) : list Z := array (mem st) (regs st RDX) 4.
Definition yu (st : state) : Z := regs st RDX.
Definition yi (st : state) : Z := signed 64 (regs st RDX).

Lemma gives_intro : forall p st st' v0 v1 v2 v3 m, sane st ->
  run p false st = Some st' ->
  regs st' RAX = regs st RDI ->
  (forall r, In r [RBX; RSP; RBP; R12; R13; R14; R15] -> regs st' r = regs st r) ->
  mem st' = store 8 (store 8 (store 8 (store 8 (mem st) (regs st RDI + 0) v0) (regs st RDI + 8) v1) (regs st RDI + 16) v2) (regs st RDI + 24) v3 ->
  0 <= v0 < Q -> 0 <= v1 < Q -> 0 <= v2 < Q -> 0 <= v3 < Q ->
  m = Ok [v0; v1; v2; v3] -> gives p st m.
Proof.
  intros p st st' v0 v1 v2 v3 m S E A C M B0 B1 B2 B3 Em. exists st'. split; auto. split.
  - split; auto. split; auto. split; [|eapply run_sane; eauto].
    intros q Hq. rewrite M. repeat rewrite (store_outside 8 _ (regs st RDI) _ _ q 32) by (auto; lia). auto.
  - rewrite M, array_stored; auto.
Qed.
Lemma gives_flag_intro : forall p st st' v0 v1 v2 v3 f m, sane st ->
  run p false st = Some st' ->
  regs st' RAX = regs st RDI ->
  (forall r, In r [RBX; RSP; RBP; R12; R13; R14; R15] -> regs st' r = regs st r) ->
  mem st' = store 1 (store 8 (store 8 (store 8 (store 8 (mem st) (regs st RDI + 0) v0) (regs st RDI + 8) v1) (regs st RDI + 16) v2) (regs st RDI + 24) v3)
              (regs st RDI + 32) (MListing.b2z f) ->
  0 <= v0 < Q -> 0 <= v1 < Q -> 0 <= v2 < Q -> 0 <= v3 < Q ->
  m = Ok ([v0; v1; v2; v3], f) -> gives_flag p st m.
Proof.
  intros p st st' v0 v1 v2 v3 f m S E A C M B0 B1 B2 B3 Em. exists st', f. split; auto. split; [|split].
  - split; auto. split; auto. split; [|eapply run_sane; eauto].
    intros q Hq. rewrite M. rewrite (store_outside 1 _ (regs st RDI) _ _ q 33) by (auto; lia).
    repeat rewrite (store_outside 8 _ (regs st RDI) _ _ q 33) by (auto; lia). auto.
  - rewrite M. apply flag_stored. pose proof (b2z_range f). lia.
  - rewrite M, array_stored_flag, array_stored; auto.
Qed.

(** Comparing a flag computed by the model with the machine's. *)
Lemma same_flag : forall (a b : bool) (P : Prop), (a = true <-> P) -> (b = true <-> P) -> a = b.
Proof. intros [] [] P H H'; auto; [symmetry; apply H'; apply H; auto | apply H; apply H'; auto]. Qed.
