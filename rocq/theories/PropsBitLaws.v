(** * Properties: laws of the bit operations (C80)

    Everything here is stated on sequences of calls of the modelled
    functions.  C15 to C20 say what every single call does; these say
    that the calls fit together the way callers rely on. *)

Require Import ZArith List Bool Lia Permutation.
From Verif Require Import Prim Spec Facts MAdd MMul MShift MCore MLayout PCore PBits PWide MArith PArith PArith2 PPow PMisc PBits2 PRet PLayout
  PropsBits PropsLayout.
Import ListNotations.
Local Open Scope Z_scope.

(** ** Bit patterns *)

Section C.
Context {c : Cfg} (HV : Valid).

Lemma bits_ext : forall a b, wf a -> wf b -> (forall i, 0 <= i < BITS -> Z.testbit (uval a) i = Z.testbit (uval b) i) -> a = b.
Proof.
  intros a b Ha Hb H. pose proof (uval_range HV a Ha). pose proof (uval_range HV b Hb). pose proof (BITS_pos HV).
  apply (uval_inj HV); auto. rewrite <- (Z.mod_small (uval a) (2 ^ BITS)), <- (Z.mod_small (uval b) (2 ^ BITS)) by auto.
  apply Z.bits_inj'. intros i Hi. rewrite !Z.testbit_mod_pow2 by lia. destruct (Z.ltb_spec i BITS); [|reflexivity].
  cbn [andb]. apply H. lia.
Qed.
(** [m] returns the value whose bit [i] is [f i]. *)
Definition shows (m : res (list Z)) (f : Z -> bool) : Prop :=
  exists r, m = Ok r /\ wf r /\ forall i, 0 <= i < BITS -> Z.testbit (uval r) i = f i.
Lemma shows_eq : forall m m' f g, shows m f -> shows m' g -> (forall i, 0 <= i < BITS -> f i = g i) -> m = m'.
Proof.
  intros m m' f g (r & -> & Wr & Hr) (s & -> & Ws & Hs) H. f_equal. apply bits_ext; auto.
  intros i Hi. rewrite Hr, Hs by auto. auto.
Qed.
Lemma shows_ret : forall x, wf x -> shows (Ok x) (Z.testbit (uval x)).
Proof. intros x Hx. exists x. auto. Qed.
Lemma shows_ofZ : forall v, shows (Ok (ofZ v)) (Z.testbit v).
Proof.
  intros v. exists (ofZ v). split; [auto|]. split; [apply (wf_ofZ HV)|]. intros i Hi. rewrite (uval_ofZ HV), Z.testbit_mod_pow2 by lia.
  destruct (Z.ltb_spec i BITS); [auto|lia].
Qed.
Lemma shows_bind : forall m f k g, shows m f ->
  (forall r, wf r -> (forall i, 0 <= i < BITS -> Z.testbit (uval r) i = f i) -> shows (k r) g) -> shows (let* r := m in k r) g.
Proof. intros m f k g (r & -> & Wr & Hr) H. cbn [bind]. auto. Qed.
Lemma shows_of : forall m v, m = Ok (ofZ v) -> shows m (Z.testbit v).
Proof. intros m v ->. apply shows_ofZ. Qed.
Lemma shows_and : forall x y, wf x -> wf y -> shows (bitand_const x y) (fun i => Z.testbit (uval x) i && Z.testbit (uval y) i).
Proof. intros x y Hx Hy. destruct (C19_bitwise c x y HV Hx Hy) as (a & o & e & n & E & _ & _ & _ & Wa & _ & _ & _ & H). exists a. repeat split; auto; try apply Wa. intros. apply H; auto. Qed.
Lemma shows_or : forall x y, wf x -> wf y -> shows (bitor_const x y) (fun i => Z.testbit (uval x) i || Z.testbit (uval y) i).
Proof. intros x y Hx Hy. destruct (C19_bitwise c x y HV Hx Hy) as (a & o & e & n & _ & E & _ & _ & _ & Wa & _ & _ & H). exists o. repeat split; auto; try apply Wa. intros. apply H; auto. Qed.
Lemma shows_xor : forall x y, wf x -> wf y -> shows (bitxor_const x y) (fun i => xorb (Z.testbit (uval x) i) (Z.testbit (uval y) i)).
Proof. intros x y Hx Hy. destruct (C19_bitwise c x y HV Hx Hy) as (a & o & e & n & _ & _ & E & _ & _ & _ & Wa & _ & H). exists e. repeat split; auto; try apply Wa. intros. apply H; auto. Qed.
Lemma shows_not : forall x, wf x -> shows (not_const x) (fun i => negb (Z.testbit (uval x) i)).
Proof. intros x Hx. destruct (C19_bitwise c x x HV Hx Hx) as (a & o & e & n & _ & _ & _ & E & _ & _ & _ & Wa & H). exists n. repeat split; auto; try apply Wa. intros. apply H; auto. Qed.
Lemma shows_shl : forall x r, wf x -> 0 <= r < BITS -> shows (wrapping_shl x r) (fun i => if i <? r then false else Z.testbit (uval x) (i - r)).
Proof.
  intros x r Hx Hr. pose proof (shows_of _ _ (wrapping_shl_ok HV x r Hx)) as (s & E & Ws & H). exists s. split; auto. split; auto.
  intros i Hi. rewrite H by auto. rewrite Z.mod_small by auto. rewrite <- Z.shiftl_mul_pow2, Z.shiftl_spec by lia.
  destruct (Z.ltb_spec i r); [apply Z.testbit_neg_r; lia|reflexivity].
Qed.
Lemma shows_shr_u : forall x r, wf x -> 0 <= r < BITS -> shows (wrapping_shr false x r) (fun i => Z.testbit (uval x) (i + r)).
Proof.
  intros x r Hx Hr. pose proof (shows_of _ _ (wrapping_shr_ok HV false x r Hx)) as (s & E & Ws & H). exists s. split; auto. split; auto.
  intros i Hi. rewrite H by auto. rewrite Z.mod_small by auto. cbn [val]. rewrite <- Z.shiftr_div_pow2, Z.shiftr_spec by lia. reflexivity.
Qed.
Lemma uval_high : forall x i, wf x -> BITS <= i -> Z.testbit (uval x) i = false.
Proof.
  intros x i Hx Hi. pose proof (uval_range HV x Hx). pose proof (BITS_pos HV). rewrite <- (Z.mod_small (uval x) (2 ^ BITS)) by auto.
  apply Z.mod_pow2_bits_high. lia.
Qed.
Lemma shows_shr_s : forall x r, wf x -> 0 <= r < BITS -> shows (wrapping_shr true x r) (fun i => Z.testbit (uval x) (Z.min (i + r) (BITS - 1))).
Proof.
  intros x r Hx Hr. pose proof (shows_of _ _ (wrapping_shr_ok HV true x r Hx)) as (s & E & Ws & H). exists s. split; auto. split; auto.
  intros i Hi. rewrite H by auto. rewrite Z.mod_small by auto. cbn [val]. rewrite <- Z.shiftr_div_pow2, Z.shiftr_spec by lia.
  destruct (sval_cong HV x Hx) as (k & K). pose proof (sval_range HV x Hx) as S. pose proof (BITS_pos HV).
  assert (L : forall j, 0 <= j < BITS -> Z.testbit (sval x) j = Z.testbit (uval x) j).
  { intros j Hj. transitivity (Z.testbit (sval x mod 2 ^ BITS) j).
    - rewrite Z.testbit_mod_pow2 by lia. destruct (Z.ltb_spec j BITS); [auto|lia].
    - rewrite K, Z_mod_plus_full. rewrite Z.mod_small by (apply (uval_range HV); auto). reflexivity. }
  destruct (Z.lt_ge_cases (i + r) BITS) as [h|h].
  - rewrite Z.min_l by lia. apply L. lia.
  - rewrite Z.min_r by lia. rewrite <- (L (BITS - 1)) by lia.
    destruct (Z.lt_ge_cases (sval x) 0) as [n|n].
    + assert (forall j, BITS - 1 <= j -> Z.testbit (sval x) j = true) as F.
      { intros j Hj. destruct (Z.eq_dec (Z.pred (- sval x)) 0) as [z|z].
        - replace (sval x) with (-1) by lia. apply Z.bits_m1. lia.
        - apply Z.bits_above_log2_neg; auto. assert (2 ^ (BITS - 1) <= 2 ^ j) by (apply Z.pow_le_mono_r; lia).
          apply Z.log2_lt_pow2; lia. }
      rewrite !F by lia. reflexivity.
    + assert (forall j, BITS - 1 <= j -> Z.testbit (sval x) j = false) as F.
      { intros j Hj. rewrite <- (Z.mod_small (sval x) (2 ^ (BITS - 1))) by lia. apply Z.mod_pow2_bits_high. lia. }
      rewrite !F by lia. reflexivity.
Qed.
Lemma rotl_u : forall x n, wf x -> 0 <= n < 2 ^ 32 -> shows (rotate_left x n) (fun i => Z.testbit (uval x) ((i - n) mod BITS)).
Proof.
  intros x n Hx Hn. destruct (C17_rotate_left c x n HV Hx Hn) as (r & E & Wr & H). exists r. split; auto. split; auto.
  intros i Hi. pose proof (BITS_pos HV). rewrite <- H by (apply Z.mod_pos_bound; lia). f_equal. rewrite Zplus_mod_idemp_l.
  replace (i - n + n) with i by ring. symmetry. apply Z.mod_small. auto.
Qed.
Lemma rotr_u : forall x n, wf x -> 0 <= n < 2 ^ 32 -> shows (rotate_right x n) (fun i => Z.testbit (uval x) ((i + n) mod BITS)).
Proof. intros x n Hx Hn. exact (C17_rotate_right c x n HV Hx Hn). Qed.
Definition bits_of (x : list Z) (f : Z -> bool) : Prop := forall i, 0 <= i < BITS -> Z.testbit (uval x) i = f i.
Lemma and_f : forall x y f g, wf x -> wf y -> bits_of x f -> bits_of y g -> shows (bitand_const x y) (fun i => f i && g i).
Proof. intros x y f g Hx Hy F G. destruct (shows_and x y Hx Hy) as (r & E & Wr & H). exists r. split; auto. split; auto. intros i Hi. rewrite <- F, <- G by auto. auto. Qed.
Lemma or_f : forall x y f g, wf x -> wf y -> bits_of x f -> bits_of y g -> shows (bitor_const x y) (fun i => f i || g i).
Proof. intros x y f g Hx Hy F G. destruct (shows_or x y Hx Hy) as (r & E & Wr & H). exists r. split; auto. split; auto. intros i Hi. rewrite <- F, <- G by auto. auto. Qed.
Lemma xor_f : forall x y f g, wf x -> wf y -> bits_of x f -> bits_of y g -> shows (bitxor_const x y) (fun i => xorb (f i) (g i)).
Proof. intros x y f g Hx Hy F G. destruct (shows_xor x y Hx Hy) as (r & E & Wr & H). exists r. split; auto. split; auto. intros i Hi. rewrite <- F, <- G by auto. auto. Qed.
Lemma not_f : forall x f, wf x -> bits_of x f -> shows (not_const x) (fun i => negb (f i)).
Proof. intros x f Hx F. destruct (shows_not x Hx) as (r & E & Wr & H). exists r. split; auto. split; auto. intros i Hi. rewrite <- F by auto. auto. Qed.
Lemma shl_f : forall x r f, wf x -> 0 <= r < BITS -> bits_of x f -> shows (wrapping_shl x r) (fun i => if i <? r then false else f (i - r)).
Proof.
  intros x n f Hx Hn F. destruct (shows_shl x n Hx Hn) as (r & E & Wr & H). exists r. split; auto. split; auto. intros i Hi.
  rewrite H by auto. destruct (Z.ltb_spec i n); auto. apply F. lia.
Qed.
Lemma shr_f : forall x r f, wf x -> 0 <= r < BITS -> bits_of x f -> shows (wrapping_shr false x r) (fun i => if i + r <? BITS then f (i + r) else false).
Proof.
  intros x n f Hx Hn F. destruct (shows_shr_u x n Hx Hn) as (r & E & Wr & H). exists r. split; auto. split; auto. intros i Hi.
  rewrite H by auto. destruct (Z.ltb_spec (i + n) BITS); [apply F; lia|]. apply uval_high; auto.
Qed.
Lemma sar_f : forall x r f, wf x -> 0 <= r < BITS -> bits_of x f -> shows (wrapping_shr true x r) (fun i => f (Z.min (i + r) (BITS - 1))).
Proof.
  intros x n f Hx Hn F. destruct (shows_shr_s x n Hx Hn) as (r & E & Wr & H). exists r. split; auto. split; auto. intros i Hi.
  rewrite H by auto. apply F. lia.
Qed.
Lemma rotl_f : forall x n f, wf x -> 0 <= n < 2 ^ 32 -> bits_of x f -> shows (rotate_left x n) (fun i => f ((i - n) mod BITS)).
Proof.
  intros x n f Hx Hn F. destruct (rotl_u x n Hx Hn) as (r & E & Wr & H). exists r. split; auto. split; auto. intros i Hi.
  pose proof (BITS_pos HV). rewrite H by auto. apply F. apply Z.mod_pos_bound. lia.
Qed.
Lemma rotr_f : forall x n f, wf x -> 0 <= n < 2 ^ 32 -> bits_of x f -> shows (rotate_right x n) (fun i => f ((i + n) mod BITS)).
Proof.
  intros x n f Hx Hn F. destruct (rotr_u x n Hx Hn) as (r & E & Wr & H). exists r. split; auto. split; auto. intros i Hi.
  pose proof (BITS_pos HV). rewrite H by auto. apply F. apply Z.mod_pos_bound. lia.
Qed.
Lemma bits_self : forall x, bits_of x (Z.testbit (uval x)).
Proof. intros x i _. reflexivity. Qed.
Lemma bits_const : forall v, bits_of (ofZ v) (Z.testbit v).
Proof. intros v. destruct (shows_ofZ v) as (r & E & _ & H). injection E as <-. exact H. Qed.
End C.

Ltac sh1 := match goal with
  | |- shows (bind _ _) _ => eapply shows_bind
  | |- shows (bitand_const _ _) _ => eapply and_f
  | |- shows (bitor_const _ _) _ => eapply or_f
  | |- shows (bitxor_const _ _) _ => eapply xor_f
  | |- shows (not_const _) _ => eapply not_f
  | |- shows (wrapping_shl _ _) _ => eapply shl_f
  | |- shows (wrapping_shr false _ _) _ => eapply shr_f
  | |- shows (wrapping_shr true _ _) _ => eapply sar_f
  | |- shows (rotate_left _ _) _ => eapply rotl_f
  | |- shows (rotate_right _ _) _ => eapply rotr_f
  | |- shows (Ok (ofZ _)) _ => eapply shows_ofZ
  | |- shows (Ok _) _ => eapply shows_ret
  | |- Valid => eassumption
  | |- wf (ofZ _) => apply wf_ofZ
  | |- wf _ => eassumption
  | |- bits_of (ofZ _) _ => apply bits_const
  | H : forall i, _ -> Z.testbit (uval ?x) i = _ |- bits_of ?x _ => exact H
  | |- bits_of _ _ => apply bits_self
  | |- forall _, _ => intros
  | |- _ <= _ < _ => lia
  end.
(** Both sides are sequences of bit-level calls: compare bit by bit. *)
Ltac sh := eapply shows_eq; [eassumption|solve [repeat sh1]|solve [repeat sh1]|];
  intros; cbn beta.
Ltac bb := repeat match goal with |- context [Z.testbit ?x ?i] => destruct (Z.testbit x i) eqn:? end; try reflexivity.

(** ** Boolean algebra *)

Theorem C80_boolean_algebra : forall (c : Cfg) x y z, Valid -> wf x -> wf y -> wf z ->
  (bitand_const x y = bitand_const y x /\ bitor_const x y = bitor_const y x /\ bitxor_const x y = bitxor_const y x) /\
  ((let* p := bitand_const x y in bitand_const p z) = (let* q := bitand_const y z in bitand_const x q) /\
   (let* p := bitor_const x y in bitor_const p z) = (let* q := bitor_const y z in bitor_const x q) /\
   (let* p := bitxor_const x y in bitxor_const p z) = (let* q := bitxor_const y z in bitxor_const x q)) /\
  (bitand_const x x = Ok x /\ bitor_const x x = Ok x /\ bitxor_const x x = Ok (ofZ 0)) /\
  ((let* p := bitor_const x y in bitand_const x p) = Ok x /\ (let* p := bitand_const x y in bitor_const x p) = Ok x) /\
  ((let* q := bitor_const y z in bitand_const x q) = (let* p := bitand_const x y in let* q := bitand_const x z in bitor_const p q) /\
   (let* q := bitand_const y z in bitor_const x q) = (let* p := bitor_const x y in let* q := bitor_const x z in bitand_const p q) /\
   (let* q := bitxor_const y z in bitand_const x q) = (let* p := bitand_const x y in let* q := bitand_const x z in bitxor_const p q)).
Proof.
  intros c x y z HV Hx Hy Hz. repeat split; sh; rewrite ?Z.bits_0; bb.
Qed.
Theorem C80_complement : forall (c : Cfg) x y, Valid -> wf x -> wf y ->
  (let* n := not_const x in not_const n) = Ok x /\
  (let* n := not_const x in bitand_const x n) = Ok (ofZ 0) /\
  (let* n := not_const x in bitor_const x n) = Ok (ofZ (-1)) /\
  (let* p := bitand_const x y in not_const p) = (let* a := not_const x in let* b := not_const y in bitor_const a b) /\
  (let* p := bitor_const x y in not_const p) = (let* a := not_const x in let* b := not_const y in bitand_const a b) /\
  not_const x = bitxor_const x (ofZ (-1)) /\
  (let* e := bitxor_const x y in bitxor_const e y) = Ok x /\
  bitxor_const x y = (let* o := bitor_const x y in let* a := bitand_const x y in let* n := not_const a in bitand_const o n).
Proof.
  intros c x y HV Hx Hy. repeat split; sh; rewrite ?Z.bits_0, ?Z.bits_m1 by lia; bb.
Qed.

(** ** Shifts *)

Theorem C80_shl_shl : forall (c : Cfg) x a b, Valid -> wf x -> 0 <= a < BITS -> 0 <= b < BITS ->
  (let* p := wrapping_shl x a in wrapping_shl p b) = (if a + b <? BITS then wrapping_shl x (a + b) else Ok (ofZ 0)).
Proof.
  intros c x a b HV Hx Ha Hb. destruct (Z.ltb_spec (a + b) BITS); sh.
  - destruct (Z.ltb_spec i b), (Z.ltb_spec i (a + b)), (Z.ltb_spec (i - b) a); try lia; try reflexivity. f_equal. ring.
  - rewrite Z.bits_0. destruct (Z.ltb_spec i b); auto. destruct (Z.ltb_spec (i - b) a); auto. lia.
Qed.
Theorem C80_shr_shr : forall (c : Cfg) x a b, Valid -> wf x -> 0 <= a < BITS -> 0 <= b < BITS ->
  (let* p := wrapping_shr false x a in wrapping_shr false p b) = (if a + b <? BITS then wrapping_shr false x (a + b) else Ok (ofZ 0)) /\
  (let* p := wrapping_shr true x a in wrapping_shr true p b) = wrapping_shr true x (Z.min (a + b) (BITS - 1)).
Proof.
  intros c x a b HV Hx Ha Hb. split; [destruct (Z.ltb_spec (a + b) BITS)|]; sh.
  - destruct (Z.ltb_spec (i + b) BITS), (Z.ltb_spec (i + b + a) BITS), (Z.ltb_spec (i + (a + b)) BITS); try lia; try reflexivity. f_equal. ring.
  - rewrite Z.bits_0. destruct (Z.ltb_spec (i + b) BITS); auto. destruct (Z.ltb_spec (i + b + a) BITS); auto. lia.
  - f_equal. lia.
Qed.
(** Shifting out and back masks: the low bits are lost one way, the high bits the other. *)
Theorem C80_shift_back : forall (c : Cfg) x n, Valid -> wf x -> 0 <= n < BITS ->
  (let* p := wrapping_shl x n in wrapping_shr false p n) = bitand_const x (ofZ (Z.ones (BITS - n))) /\
  (let* p := wrapping_shr false x n in wrapping_shl p n) = bitand_const x (ofZ (- 2 ^ n)) /\
  (let* p := wrapping_shr true x n in wrapping_shl p n) = bitand_const x (ofZ (- 2 ^ n)).
Proof.
  intros c x n HV Hx Hn.
  assert (M : forall i, 0 <= i -> Z.testbit (- 2 ^ n) i = negb (i <? n)).
  { intros i Hi. replace (- 2 ^ n) with (Z.lnot (Z.ones n)) by (rewrite Z.ones_equiv; unfold Z.lnot; lia).
    rewrite Z.lnot_spec, Z.testbit_ones_nonneg by lia. reflexivity. }
  repeat split; sh; rewrite ?M, ?Z.testbit_ones_nonneg by lia.
  - destruct (Z.ltb_spec (i + n) BITS), (Z.ltb_spec i (BITS - n)), (Z.ltb_spec (i + n) n); try lia;
      rewrite ?andb_true_r, ?andb_false_r; try reflexivity. f_equal. ring.
  - destruct (Z.ltb_spec i n), (Z.ltb_spec (i - n + n) BITS); try lia; cbn [negb]; rewrite ?andb_true_r, ?andb_false_r; try reflexivity. f_equal. ring.
  - destruct (Z.ltb_spec i n); cbn [negb]; rewrite ?andb_true_r, ?andb_false_r; try reflexivity. f_equal. lia.
Qed.
Theorem C80_shift_bitwise : forall (c : Cfg) sg x y n, Valid -> wf x -> wf y -> 0 <= n < BITS ->
  ((let* p := bitand_const x y in wrapping_shl p n) = (let* a := wrapping_shl x n in let* b := wrapping_shl y n in bitand_const a b) /\
   (let* p := bitor_const x y in wrapping_shl p n) = (let* a := wrapping_shl x n in let* b := wrapping_shl y n in bitor_const a b) /\
   (let* p := bitxor_const x y in wrapping_shl p n) = (let* a := wrapping_shl x n in let* b := wrapping_shl y n in bitxor_const a b)) /\
  ((let* p := bitand_const x y in wrapping_shr sg p n) = (let* a := wrapping_shr sg x n in let* b := wrapping_shr sg y n in bitand_const a b) /\
   (let* p := bitor_const x y in wrapping_shr sg p n) = (let* a := wrapping_shr sg x n in let* b := wrapping_shr sg y n in bitor_const a b) /\
   (let* p := bitxor_const x y in wrapping_shr sg p n) = (let* a := wrapping_shr sg x n in let* b := wrapping_shr sg y n in bitxor_const a b)) /\
  (let* p := not_const x in wrapping_shr true p n) = (let* a := wrapping_shr true x n in not_const a).
Proof.
  intros c sg x y n HV Hx Hy Hn. destruct sg; repeat split; sh; try reflexivity;
    try (destruct (i <? n); reflexivity); destruct (i + n <? BITS); reflexivity.
Qed.

(** ** Rotations *)

Theorem C80_rotations : forall (c : Cfg) x a b, Valid -> wf x -> 0 <= a -> 0 <= b -> a + b < 2 ^ 32 ->
  (let* p := rotate_left x a in rotate_left p b) = rotate_left x (a + b) /\
  (let* p := rotate_right x a in rotate_right p b) = rotate_right x (a + b) /\
  (let* p := rotate_left x a in rotate_right p b) = (let* p := rotate_right x b in rotate_left p a) /\
  (b <= a -> (let* p := rotate_left x a in rotate_right p b) = rotate_left x (a - b)).
Proof.
  intros c x a b HV Hx Ha Hb Hab. pose proof (BITS_pos HV). repeat split; [| | |intro]; sh; f_equal.
  - rewrite Zminus_mod_idemp_l. f_equal. ring.
  - rewrite Zplus_mod_idemp_l. f_equal. ring.
  - rewrite Zminus_mod_idemp_l, Zplus_mod_idemp_l. f_equal. ring.
  - rewrite Zminus_mod_idemp_l. f_equal. ring.
Qed.
(** Only the amount modulo the width matters, and left and right are each other's complement. *)
Theorem C80_rotation_amount : forall (c : Cfg) x n, Valid -> wf x -> 0 <= n < 2 ^ 32 ->
  rotate_left x n = rotate_left x (n mod BITS) /\ rotate_right x n = rotate_right x (n mod BITS) /\
  (n mod BITS = 0 -> rotate_left x n = Ok x /\ rotate_right x n = Ok x) /\
  rotate_left x n = rotate_right x (BITS - n mod BITS).
Proof.
  intros c x n HV Hx Hn. pose proof (BITS_pos HV) as Hp. assert (0 < BITS) as Hp' by lia. pose proof (Z.mod_pos_bound n BITS Hp') as Hm.
  assert (n mod BITS <= n) as Hl by (apply Z.mod_le; lia). pose proof (BITS_lt HV) as HB.
  assert (0 <= BITS - n mod BITS < 2 ^ 32) as HB' by lia.
  split; [|split; [|split; [intro z; split|]]]; sh; f_equal.
  - rewrite Zminus_mod_idemp_r. reflexivity.
  - rewrite Zplus_mod_idemp_r. reflexivity.
  - rewrite Zminus_mod, z, Z.sub_0_r, Zmod_mod. apply Z.mod_small; auto.
  - rewrite Zplus_mod, z, Z.add_0_r, Zmod_mod. apply Z.mod_small; auto.
  - replace (i + (BITS - n mod BITS)) with (i - n mod BITS + 1 * BITS) by ring. rewrite Z_mod_plus_full, Zminus_mod_idemp_r. reflexivity.
Qed.
Theorem C80_rotation_shifts : forall (c : Cfg) x n, Valid -> wf x -> 0 < n < BITS ->
  rotate_left x n = (let* a := wrapping_shl x n in let* b := wrapping_shr false x (BITS - n) in bitor_const a b) /\
  rotate_right x n = (let* a := wrapping_shr false x n in let* b := wrapping_shl x (BITS - n) in bitor_const a b).
Proof.
  intros c x n HV Hx Hn. pose proof (BITS_lt HV) as HB. assert (0 <= n < 2 ^ 32) as Hn' by lia. split; sh.
  - destruct (Z.ltb_spec i n), (Z.ltb_spec (i + (BITS - n)) BITS); try lia; rewrite ?orb_false_r; cbn [orb]; f_equal.
    + replace (i - n) with (i + (BITS - n) + (-1) * BITS) by ring. rewrite Z_mod_plus_full. apply Z.mod_small. lia.
    + apply Z.mod_small. lia.
  - destruct (Z.ltb_spec (i + n) BITS), (Z.ltb_spec i (BITS - n)); try lia; rewrite ?orb_false_r; cbn [orb]; f_equal.
    + apply Z.mod_small. lia.
    + replace (i + n) with (i - (BITS - n) + 1 * BITS) by ring. rewrite Z_mod_plus_full. apply Z.mod_small. lia.
Qed.
Theorem C80_rotation_bitwise : forall (c : Cfg) x y n, Valid -> wf x -> wf y -> 0 <= n < 2 ^ 32 ->
  (let* p := bitand_const x y in rotate_left p n) = (let* a := rotate_left x n in let* b := rotate_left y n in bitand_const a b) /\
  (let* p := bitor_const x y in rotate_left p n) = (let* a := rotate_left x n in let* b := rotate_left y n in bitor_const a b) /\
  (let* p := bitxor_const x y in rotate_left p n) = (let* a := rotate_left x n in let* b := rotate_left y n in bitxor_const a b) /\
  (let* p := not_const x in rotate_left p n) = (let* a := rotate_left x n in not_const a).
Proof. intros c x y n HV Hx Hy Hn. repeat split; sh; reflexivity. Qed.

(** ** Bits and arithmetic *)

Lemma add_lor_land : forall a b, Z.lor a b + Z.land a b = a + b.
Proof.
  intros a b. assert (H1 : Z.land (Z.ldiff b a) (Z.land b a) = 0) by (apply Z.bits_inj'; intros i Hi; rewrite !Z.land_spec, Z.ldiff_spec, Z.bits_0; bb).
  assert (H2 : Z.land a (Z.ldiff b a) = 0) by (apply Z.bits_inj'; intros i Hi; rewrite !Z.land_spec, Z.ldiff_spec, Z.bits_0; bb).
  pose proof (Z.add_nocarry_lxor _ _ H1) as E1. pose proof (Z.add_nocarry_lxor _ _ H2) as E2.
  assert (Z.lxor (Z.ldiff b a) (Z.land b a) = b) by (apply Z.bits_inj'; intros i Hi; rewrite Z.lxor_spec, !Z.land_spec, Z.ldiff_spec; bb).
  assert (Z.lxor a (Z.ldiff b a) = Z.lor a b) by (apply Z.bits_inj'; intros i Hi; rewrite Z.lxor_spec, Z.lor_spec, Z.ldiff_spec; bb).
  rewrite (Z.land_comm a b). lia.
Qed.
Lemma add_lxor_land : forall a b, Z.lxor a b + 2 * Z.land a b = a + b.
Proof.
  intros a b. assert (H1 : Z.land (Z.lxor a b) (Z.land a b) = 0) by (apply Z.bits_inj'; intros i Hi; rewrite !Z.land_spec, Z.lxor_spec, Z.bits_0; bb).
  pose proof (Z.add_nocarry_lxor _ _ H1) as E1. pose proof (add_lor_land a b).
  assert (Z.lxor (Z.lxor a b) (Z.land a b) = Z.lor a b) by (apply Z.bits_inj'; intros i Hi; rewrite !Z.lxor_spec, Z.lor_spec, Z.land_spec; bb).
  lia.
Qed.
Section A.
Context {c : Cfg} (HV : Valid).
Lemma add_u : forall sg x y, wf x -> wf y -> wrapping_add sg x y = Ok (ofZ (uval x + uval y)).
Proof.
  intros sg x y Hx Hy. rewrite (wrapping_add_ok HV) by auto. f_equal. destruct (val_cong HV sg x Hx) as (k & ->), (val_cong HV sg y Hy) as (k' & ->).
  apply (ofZ_cong HV) with (k := k + k'). ring.
Qed.
Lemma sub_u : forall sg x y, wf x -> wf y -> wrapping_sub sg x y = Ok (ofZ (uval x - uval y)).
Proof.
  intros sg x y Hx Hy. rewrite (wrapping_sub_ok HV) by auto. f_equal. destruct (val_cong HV sg x Hx) as (k & ->), (val_cong HV sg y Hy) as (k' & ->).
  apply (ofZ_cong HV) with (k := k - k'). ring.
Qed.
Lemma ofZ_plus : forall a b, ofZ (uval (ofZ a) + uval (ofZ b)) = ofZ (a + b).
Proof. intros a b. rewrite !(uval_ofZ HV). rewrite <- (ofZ_mod HV), <- Zplus_mod, (ofZ_mod HV). reflexivity. Qed.
Lemma ofZ_minus : forall a b, ofZ (uval (ofZ a) - uval (ofZ b)) = ofZ (a - b).
Proof. intros a b. rewrite !(uval_ofZ HV). rewrite <- (ofZ_mod HV), <- Zminus_mod, (ofZ_mod HV). reflexivity. Qed.
Lemma ofZ_times : forall a b, ofZ (uval (ofZ a) * b) = ofZ (a * b).
Proof. intros a b. rewrite (uval_ofZ HV). rewrite <- (ofZ_mod HV), Zmult_mod_idemp_l, (ofZ_mod HV). reflexivity. Qed.
Lemma plus_l : forall a b, ofZ (uval (ofZ a) + b) = ofZ (a + b).
Proof. intros a b. rewrite (uval_ofZ HV). rewrite <- (ofZ_mod HV), Zplus_mod_idemp_l, (ofZ_mod HV). reflexivity. Qed.
Lemma plus_r : forall a b, ofZ (a + uval (ofZ b)) = ofZ (a + b).
Proof. intros a b. rewrite (uval_ofZ HV). rewrite <- (ofZ_mod HV), Zplus_mod_idemp_r, (ofZ_mod HV). reflexivity. Qed.
Lemma not_ofZ : forall a, ofZ (-1 - uval (ofZ a)) = ofZ (-1 - a).
Proof. intros a. rewrite (uval_ofZ HV). rewrite <- (ofZ_mod HV), Zminus_mod_idemp_r, (ofZ_mod HV). reflexivity. Qed.
Lemma u_eta : forall x, wf x -> x = ofZ (uval x).
Proof. intros x Hx. symmetry. apply (ofZ_uval HV); auto. Qed.
End A.
Ltac ar HV := repeat first
  [ rewrite (bitand_ok HV) by (auto; apply (wf_ofZ HV)) | rewrite (bitor_ok HV) by (auto; apply (wf_ofZ HV))
  | rewrite (bitxor_ok HV) by (auto; apply (wf_ofZ HV)) | rewrite (not_const_ok HV) by (auto; apply (wf_ofZ HV))
  | rewrite (add_u HV) by (auto; apply (wf_ofZ HV)) | rewrite (sub_u HV) by (auto; apply (wf_ofZ HV))
  | rewrite (wrapping_shl_ok HV) by (auto; apply (wf_ofZ HV))
  | rewrite (u_wrapping_neg_ok HV) by (auto; apply (wf_ofZ HV)) | progress cbn [bind] ].

(** Addition is exclusive-or plus the carries, and inclusive-or plus the common bits. *)
Theorem C80_add_bits : forall (c : Cfg) sg x y, Valid -> wf x -> wf y ->
  wrapping_add sg x y = (let* e := bitxor_const x y in let* a := bitand_const x y in let* d := wrapping_shl a 1 in wrapping_add sg e d) /\
  wrapping_add sg x y = (let* o := bitor_const x y in let* a := bitand_const x y in wrapping_add sg o a) /\
  bitxor_const x y = (let* o := bitor_const x y in let* a := bitand_const x y in wrapping_sub sg o a) /\
  (bitand_const x y = Ok (ofZ 0) -> wrapping_add sg x y = bitor_const x y /\ wrapping_add sg x y = bitxor_const x y).
Proof.
  intros c sg x y HV Hx Hy. pose proof (BITS_lt HV) as _. assert (B1 : 1 < BITS) by (pose proof (BITS_ge HV); lia).
  ar HV. rewrite Z.mod_small by lia. rewrite (ofZ_times HV), !(ofZ_plus HV), (ofZ_minus HV).
  split; [|split; [|split]].
  - do 2 f_equal. rewrite <- (add_lxor_land (uval x) (uval y)) at 1. ring.
  - do 2 f_equal. rewrite add_lor_land. reflexivity.
  - do 2 f_equal. pose proof (add_lor_land (uval x) (uval y)). pose proof (add_lxor_land (uval x) (uval y)). lia.
  - intro E. assert (Z.land (uval x) (uval y) = 0) as Z0.
    { injection E as E. apply (f_equal uval) in E. rewrite !(uval_ofZ HV) in E. rewrite Z.mod_0_l in E by (apply Z.pow_nonzero; lia).
      rewrite <- E. apply Z.bits_inj'. intros i Hi. rewrite Z.testbit_mod_pow2 by lia. destruct (Z.ltb_spec i BITS); [reflexivity|].
      rewrite Z.land_spec, (uval_high HV x) by auto. reflexivity. }
    pose proof (add_lor_land (uval x) (uval y)). pose proof (add_lxor_land (uval x) (uval y)). split; do 2 f_equal; lia.
Qed.
(** Negation is complement plus one; subtraction is addition between two complements. *)
Theorem C80_neg_bits : forall (c : Cfg) sg x y, Valid -> wf x -> wf y ->
  u_wrapping_neg x = (let* n := not_const x in wrapping_add sg n (ofZ 1)) /\
  not_const x = (let* n := u_wrapping_neg x in wrapping_sub sg n (ofZ 1)) /\
  wrapping_sub sg x y = (let* n := not_const x in let* s := wrapping_add sg n y in not_const s) /\
  wrapping_sub sg x y = (let* n := not_const y in let* s := wrapping_add sg x n in wrapping_add sg s (ofZ 1)).
Proof.
  intros c sg x y HV Hx Hy. ar HV. repeat first [rewrite (plus_r HV) | rewrite (plus_l HV)]; rewrite ?(ofZ_minus HV), ?(not_ofZ HV).
  repeat split; do 2 f_equal; ring.
Qed.

(** ** The lowest set bit *)

Lemma bits_pred : forall u t i, 0 <= t -> 0 <= i -> (forall j, 0 <= j < t -> Z.testbit u j = false) -> Z.testbit u t = true ->
  Z.testbit (u - 1) i = if i <? t then true else if i =? t then false else Z.testbit u i.
Proof.
  intros u t i Ht Hi Hl Hb. set (q := u / 2 ^ (t + 1)). pose proof (Z.pow_pos_nonneg 2 t ltac:(lia) Ht) as Hp.
  assert (Eu : u = q * 2 ^ (t + 1) + 2 ^ t).
  { pose proof (Z.div_mod u (2 ^ (t + 1)) ltac:(apply Z.pow_nonzero; lia)) as E. fold q in E. rewrite Z.mul_comm.
    replace (2 ^ t) with (u mod 2 ^ (t + 1)); auto. apply Z.bits_inj'. intros j Hj. rewrite Z.testbit_mod_pow2, Z.pow2_bits_eqb by lia.
    destruct (Z.ltb_spec j (t + 1)), (Z.eqb_spec t j); try lia; cbn [andb]; auto; [subst; auto|apply Hl; lia]. }
  assert (E1 : u - 1 = Z.ones t + q * 2 ^ (t + 1)) by (rewrite Z.ones_equiv; lia).
  assert (O : 0 <= Z.ones t < 2 ^ (t + 1)) by (rewrite Z.ones_equiv, Z.pow_add_r by lia; lia).
  assert (H0 : forall j, 0 <= j -> Z.testbit (q * 2 ^ (t + 1)) j = if j <? t + 1 then false else Z.testbit q (j - (t + 1))).
  { intros j Hj. destruct (Z.ltb_spec j (t + 1)); [apply Z.mul_pow2_bits_low; auto|apply Z.mul_pow2_bits; lia]. }
  assert (D1 : Z.land (Z.ones t) (q * 2 ^ (t + 1)) = 0).
  { apply Z.bits_inj'. intros j Hj. rewrite Z.land_spec, Z.bits_0, H0, Z.testbit_ones_nonneg by lia.
    destruct (Z.ltb_spec j t), (Z.ltb_spec j (t + 1)); try lia; auto. }
  assert (D2 : Z.land (q * 2 ^ (t + 1)) (2 ^ t) = 0).
  { apply Z.bits_inj'. intros j Hj. rewrite Z.land_spec, Z.bits_0, H0, Z.pow2_bits_eqb by lia.
    destruct (Z.eqb_spec t j), (Z.ltb_spec j (t + 1)); try lia; auto; apply andb_false_r. }
  pose proof (Z.add_nocarry_lxor _ _ D1) as X1. pose proof (Z.add_nocarry_lxor _ _ D2) as X2.
  assert (Bu : Z.testbit u i = xorb (Z.testbit (q * 2 ^ (t + 1)) i) (Z.testbit (2 ^ t) i)) by (rewrite <- Z.lxor_spec; f_equal; lia).
  rewrite E1, X1, Z.lxor_spec, H0, Z.testbit_ones_nonneg by lia. rewrite H0, Z.pow2_bits_eqb in Bu by lia.
  destruct (Z.ltb_spec i t), (Z.eqb_spec i t), (Z.ltb_spec i (t + 1)), (Z.eqb_spec t i); try lia; rewrite ?Bu; cbn; auto;
    rewrite ?xorb_false_r, ?xorb_false_l; auto.
Qed.
Section L.
Context {c : Cfg} (HV : Valid).
Lemma low_bit : forall x, wf x -> uval x <> 0 -> exists t, trailing_zeros x = Ok t /\ 0 <= t < BITS /\
  (forall j, 0 <= j < t -> Z.testbit (uval x) j = false) /\ Z.testbit (uval x) t = true.
Proof.
  intros x Hx H0. destruct (C18_trailing_zeros c x HV Hx) as (t & E & R1 & R2 & R3). exists t. split; auto.
  destruct (Z.eq_dec t BITS) as [->|n].
  - exfalso. apply H0. apply Z.bits_inj'. intros i Hi. rewrite Z.bits_0. destruct (Z.lt_ge_cases i BITS); [apply R2; lia|apply (uval_high HV); auto].
  - split; [lia|]. split; auto. apply R3. lia.
Qed.
Lemma pred_f : forall sg x t, wf x -> 0 <= t < BITS -> (forall j, 0 <= j < t -> Z.testbit (uval x) j = false) -> Z.testbit (uval x) t = true ->
  shows (wrapping_sub sg x (ofZ 1)) (fun i => if i <? t then true else if i =? t then false else Z.testbit (uval x) i).
Proof.
  intros sg x t Hx Ht Hl Hb. rewrite (sub_u HV) by (auto; apply (wf_ofZ HV)). rewrite (uval_ofZ HV).
  assert (2 <= 2 ^ BITS) by (pose proof (BITS_pos HV); change 2 with (2 ^ 1) at 1; apply Z.pow_le_mono_r; lia).
  rewrite Z.mod_small by lia. destruct (shows_ofZ HV (uval x - 1)) as (r & E & Wr & H'). exists r. split; auto. split; auto.
  intros i Hi. rewrite H' by auto. apply bits_pred; auto; lia.
Qed.
Lemma neg_f : forall x t, wf x -> 0 <= t < BITS -> (forall j, 0 <= j < t -> Z.testbit (uval x) j = false) -> Z.testbit (uval x) t = true ->
  shows (u_wrapping_neg x) (fun i => if i <? t then false else if i =? t then true else negb (Z.testbit (uval x) i)).
Proof.
  intros x t Hx Ht Hl Hb. rewrite (u_wrapping_neg_ok HV) by auto.
  replace (- uval x) with (Z.lnot (uval x - 1)) by (unfold Z.lnot; lia).
  destruct (shows_ofZ HV (Z.lnot (uval x - 1))) as (r & E & Wr & H'). exists r. split; auto. split; auto.
  intros i Hi. rewrite H', Z.lnot_spec, (bits_pred _ t) by (auto; lia). destruct (i <? t), (i =? t); reflexivity.
Qed.
End L.

(** For a non-zero value, [x & -x] is the lowest set bit alone, [x & (x - 1)]
    clears it, [x ^ (x - 1)] covers it and everything below, [!x & (x - 1)]
    covers exactly what is below. *)
Theorem C80_lowest_bit : forall (c : Cfg) sg x, Valid -> wf x -> uval x <> 0 -> exists t, trailing_zeros x = Ok t /\ 0 <= t < BITS /\
  (let* n := u_wrapping_neg x in bitand_const x n) = Ok (ofZ (2 ^ t)) /\
  (let* p := wrapping_sub sg x (ofZ 1) in bitand_const x p) = Ok (ofZ (uval x - 2 ^ t)) /\
  (let* p := wrapping_sub sg x (ofZ 1) in bitxor_const x p) = Ok (ofZ (2 ^ (t + 1) - 1)) /\
  (let* p := wrapping_sub sg x (ofZ 1) in let* n := not_const x in bitand_const n p) = Ok (ofZ (2 ^ t - 1)).
Proof.
  intros c sg x HV Hx H0. destruct (low_bit HV x Hx H0) as (t & E & Ht & Hl & Hb). exists t. split; auto. split; auto.
  pose proof (neg_f HV x t Hx Ht Hl Hb) as Fn. pose proof (pred_f HV sg x t Hx Ht Hl Hb) as Fp.
  assert (M : forall i, 0 <= i -> Z.testbit (uval x - 2 ^ t) i = if i =? t then false else Z.testbit (uval x) i).
  { intros i Hi. replace (uval x - 2 ^ t) with (Z.lxor (uval x) (2 ^ t)).
    - rewrite Z.lxor_spec, Z.pow2_bits_eqb by lia. destruct (Z.eqb_spec t i), (Z.eqb_spec i t); try lia; [subst; rewrite Hb; auto|apply xorb_false_r].
    - rewrite Z.sub_nocarry_ldiff; [apply Z.bits_inj'; intros j Hj; rewrite Z.lxor_spec, Z.ldiff_spec, Z.pow2_bits_eqb by lia|
        apply Z.bits_inj'; intros j Hj; rewrite Z.ldiff_spec, Z.bits_0, Z.pow2_bits_eqb by lia];
      destruct (Z.eqb_spec t j); subst; rewrite ?Hb, ?xorb_false_r, ?andb_true_r; cbn; auto. }
  repeat split.
  - eapply shows_eq; [eassumption| |eapply shows_ofZ; eassumption|].
    + eapply shows_bind; [exact Fn|]. intros r Wr Hr. eapply and_f; repeat sh1.
    + intros i Hi. cbn beta. rewrite Z.pow2_bits_eqb by lia.
      destruct (Z.ltb_spec i t), (Z.eqb_spec i t), (Z.eqb_spec t i); try lia; subst; rewrite ?Hb, ?andb_false_r, ?andb_negb_r; auto.
  - eapply shows_eq; [eassumption| |eapply shows_ofZ; eassumption|].
    + eapply shows_bind; [exact Fp|]. intros r Wr Hr. eapply and_f; repeat sh1.
    + intros i Hi. cbn beta. rewrite M by lia.
      destruct (Z.ltb_spec i t), (Z.eqb_spec i t); try lia; subst; rewrite ?Hb, ?andb_false_r, ?andb_true_r, ?andb_diag; auto.
  - eapply shows_eq; [eassumption| |eapply shows_ofZ; eassumption|].
    + eapply shows_bind; [exact Fp|]. intros r Wr Hr. eapply xor_f; repeat sh1.
    + intros i Hi. cbn beta. replace (2 ^ (t + 1) - 1) with (Z.ones (t + 1)) by (rewrite Z.ones_equiv; lia). rewrite Z.testbit_ones_nonneg by lia.
      destruct (Z.ltb_spec i t), (Z.eqb_spec i t), (Z.ltb_spec i (t + 1)); try lia; subst; rewrite ?Hb, ?xorb_nilpotent; auto. rewrite Hl by lia. auto.
  - eapply shows_eq; [eassumption| |eapply shows_ofZ; eassumption|].
    + eapply shows_bind; [exact Fp|]. intros r Wr Hr. repeat sh1.
    + intros i Hi. cbn beta. replace (2 ^ t - 1) with (Z.ones t) by (rewrite Z.ones_equiv; lia). rewrite Z.testbit_ones_nonneg by lia.
      destruct (Z.ltb_spec i t), (Z.eqb_spec i t); try lia; subst; rewrite ?andb_false_r; auto. { rewrite Hl by lia. auto. }
      destruct (Z.testbit (uval x) i); auto.
Qed.

(** ** Counting *)

Lemma count_ext : forall n f g, (forall i, (i < n)%nat -> f i = g i) -> length (filter f (seq 0 n)) = length (filter g (seq 0 n)).
Proof. intros n f g H. f_equal. apply filter_ext_in. intros i Hi. apply in_seq in Hi. apply H. lia. Qed.
Lemma filter_map_length : forall (A B : Type) (g : A -> B) (f : B -> bool) l, length (filter f (map g l)) = length (filter (fun a => f (g a)) l).
Proof. intros A B g f l. induction l as [|a l IH]; cbn; auto. destruct (f (g a)); cbn; auto. Qed.
Lemma count_permuted : forall (f : nat -> bool) l l', Permutation l l' -> length (filter f l) = length (filter f l').
Proof.
  intros f l l' P. induction P as [|a l l' P IH|a b l|l l' l'' P1 IH1 P2 IH2]; cbn; auto.
  - destruct (f a); cbn; congruence.
  - destruct (f a), (f b); reflexivity.
  - congruence.
Qed.
Lemma count_perm : forall n (g : nat -> nat) f f',
  (forall i, (i < n)%nat -> (g i < n)%nat) -> (forall i j, (i < n)%nat -> (j < n)%nat -> g i = g j -> i = j) ->
  (forall i, (i < n)%nat -> f' (g i) = f i) -> length (filter f' (seq 0 n)) = length (filter f (seq 0 n)).
Proof.
  intros n g f f' Hr Hi He. rewrite <- (count_ext n (fun i => f' (g i)) f) by auto. rewrite <- (filter_map_length nat nat g f').
  assert (P : Permutation (map g (seq 0 n)) (seq 0 n)).
  { apply NoDup_Permutation_bis.
    - assert (forall l, NoDup l -> (forall i, In i l -> (i < n)%nat) -> NoDup (map g l)) as ND.
      { induction l as [|a l IH]; cbn; intros N0 B0; [constructor|]. inversion N0; subst. constructor; [|apply IH; auto].
        intro K. apply in_map_iff in K as (b & K1 & K2). apply Hi in K1; auto. subst. auto. }
      apply ND; [apply seq_NoDup|]. intros i K. apply in_seq in K. lia.
    - rewrite map_length. auto.
    - intros i K. apply in_map_iff in K as (b & <- & K2). apply in_seq in K2. apply in_seq. specialize (Hr b). lia. }
  symmetry. apply count_permuted. exact P.
Qed.
Lemma count_split : forall l (f : nat -> bool), (length (filter f l) + length (filter (fun i => negb (f i)) l))%nat = length l.
Proof. induction l as [|a l IH]; intros f; cbn; auto. specialize (IH f). destruct (f a); cbn; lia. Qed.
Lemma count_incl_excl : forall l (f g : nat -> bool),
  (length (filter (fun i => f i || g i) l) + length (filter (fun i => f i && g i) l) = length (filter f l) + length (filter g l))%nat.
Proof. induction l as [|a l IH]; intros f g; cbn; auto. specialize (IH f g). destruct (f a), (g a); cbn; lia. Qed.
Lemma count_xor : forall l (f g : nat -> bool),
  (length (filter (fun i => xorb (f i) (g i)) l) + 2 * length (filter (fun i => f i && g i) l) = length (filter f l) + length (filter g l))%nat.
Proof. induction l as [|a l IH]; intros f g; cbn; auto. specialize (IH f g). destruct (f a), (g a); cbn; lia. Qed.
(** The number of set bits among positions [0 .. b-1] of [f]. *)
Definition pop (b : Z) (f : Z -> bool) : Z := Z.of_nat (length (filter (fun i => f (Z.of_nat i)) (seq 0 (Z.to_nat b)))).
Section P.
Context {c : Cfg} (HV : Valid).
Lemma ones_pop : forall x f, wf x -> bits_of x f -> count_ones x = Ok (pop BITS f).
Proof.
  intros x f Hx F. rewrite (C18_count_ones c x HV Hx). unfold bit_count, pop. do 2 f_equal. apply count_ext. intros i Hi.
  rewrite F by lia. destruct (f (Z.of_nat i)); reflexivity.
Qed.
Lemma zeros_pop : forall x f, wf x -> bits_of x f -> count_zeros x = Ok (BITS - pop BITS f).
Proof.
  intros x f Hx F. rewrite (C18_count_zeros c x HV Hx). unfold bit_count, pop. f_equal. pose proof (BITS_pos HV).
  pose proof (count_split (seq 0 (Z.to_nat BITS)) (fun i => f (Z.of_nat i))) as S. rewrite seq_length in S.
  rewrite (count_ext _ (fun i => eqb (Z.testbit (uval x) (Z.of_nat i)) false) (fun i => negb (f (Z.of_nat i)))); [lia|].
  intros i Hi. rewrite F by lia. destruct (f (Z.of_nat i)); reflexivity.
Qed.
End P.

Theorem C80_counts : forall (c : Cfg) x y, Valid -> wf x -> wf y -> exists cx zx cy ca co ce,
  count_ones x = Ok cx /\ count_zeros x = Ok zx /\ count_ones y = Ok cy /\
  (let* a := bitand_const x y in count_ones a) = Ok ca /\ (let* o := bitor_const x y in count_ones o) = Ok co /\
  (let* e := bitxor_const x y in count_ones e) = Ok ce /\
  cx + zx = BITS /\ co + ca = cx + cy /\ ce + 2 * ca = cx + cy /\
  (let* n := not_const x in count_ones n) = Ok zx /\ (let* n := not_const x in count_zeros n) = Ok cx.
Proof.
  intros c x y HV Hx Hy. pose proof (BITS_pos HV).
  destruct (shows_and HV x y Hx Hy) as (a & Ea & Wa & Ba). destruct (shows_or HV x y Hx Hy) as (o & Eo & Wo & Bo).
  destruct (shows_xor HV x y Hx Hy) as (e & Ee & We & Be). destruct (shows_not HV x Hx) as (n & En & Wn & Bn).
  rewrite Ea, Eo, Ee, En. cbn [bind].
  rewrite (ones_pop HV x _ Hx (bits_self x)), (zeros_pop HV x _ Hx (bits_self x)), (ones_pop HV y _ Hy (bits_self y)),
    (ones_pop HV a _ Wa Ba), (ones_pop HV o _ Wo Bo), (ones_pop HV e _ We Be), (ones_pop HV n _ Wn Bn), (zeros_pop HV n _ Wn Bn).
  do 6 eexists. do 6 (split; [reflexivity|]). unfold pop.
  pose proof (count_incl_excl (seq 0 (Z.to_nat BITS)) (fun i => Z.testbit (uval x) (Z.of_nat i)) (fun i => Z.testbit (uval y) (Z.of_nat i))) as C1.
  pose proof (count_xor (seq 0 (Z.to_nat BITS)) (fun i => Z.testbit (uval x) (Z.of_nat i)) (fun i => Z.testbit (uval y) (Z.of_nat i))) as C2.
  pose proof (count_split (seq 0 (Z.to_nat BITS)) (fun i => Z.testbit (uval x) (Z.of_nat i))) as C3. rewrite seq_length in C3.
  repeat split; try lia; f_equal; lia.
Qed.
(** Counting does not depend on where the bits are. *)
Theorem C80_counts_moved : forall (c : Cfg) x n, Valid -> wf x -> 0 <= n < 2 ^ 32 ->
  (let* r := rotate_left x n in count_ones r) = count_ones x /\ (let* r := rotate_right x n in count_ones r) = count_ones x.
Proof.
  intros c x n HV Hx Hn. pose proof (BITS_pos HV) as Hp. assert (0 < BITS) as Hp0 by lia.
  assert (L : forall m, 0 <= m < 2 ^ 32 -> (let* r := rotate_left x m in count_ones r) = count_ones x).
  { intros m Hm. destruct (C17_rotate_left c x m HV Hx Hm) as (r & E & Wr & B). rewrite E. cbn [bind].
    rewrite (ones_pop HV r _ Wr (bits_self r)), (ones_pop HV x _ Hx (bits_self x)). unfold pop. do 2 f_equal.
    apply count_perm with (g := fun i => Z.to_nat ((Z.of_nat i + m) mod BITS)).
    - intros i Hi. pose proof (Z.mod_pos_bound (Z.of_nat i + m) BITS Hp0). lia.
    - intros i j Hi Hj E'. pose proof (Z.mod_pos_bound (Z.of_nat i + m) BITS Hp0). pose proof (Z.mod_pos_bound (Z.of_nat j + m) BITS Hp0).
      apply Z2Nat.inj in E'; try lia. assert ((Z.of_nat i) mod BITS = (Z.of_nat j) mod BITS) as K.
      { replace (Z.of_nat i) with (Z.of_nat i + m - m) by ring. rewrite Zminus_mod, E', <- Zminus_mod. f_equal. ring. }
      rewrite !Z.mod_small in K by lia. lia.
    - intros i Hi. pose proof (Z.mod_pos_bound (Z.of_nat i + m) BITS Hp0). rewrite Z2Nat.id by lia. apply B. lia. }
  split; [apply L; auto|]. destruct (C80_rotation_amount c x n HV Hx Hn) as (_ & R & _ & _).
  pose proof (Z.mod_pos_bound n BITS Hp0) as Hm. pose proof (BITS_lt HV) as HB.
  assert (rotate_right x n = rotate_left x (BITS - n mod BITS)) as ->; [|apply L; lia].
  assert (0 <= BITS - n mod BITS < 2 ^ 32) as HB' by lia. sh. f_equal.
  replace (i - (BITS - n mod BITS)) with (i + n mod BITS + (-1) * BITS) by ring. rewrite Z_mod_plus_full, Zplus_mod_idemp_r. reflexivity.
Qed.
(** A value is a power of two exactly when one bit is set, and clearing the lowest set bit removes one. *)
Theorem C80_power_of_two_count : forall (c : Cfg) x, Valid -> wf x ->
  (is_power_of_two x = Ok true <-> count_ones x = Ok 1) /\ (is_power_of_two x = Ok false <-> count_ones x <> Ok 1).
Proof.
  intros c x HV Hx. destruct (C37_is_power_of_two c x HV Hx) as (b & E & H). rewrite E, (ones_pop HV x _ Hx (bits_self x)).
  pose proof (BITS_pos HV) as Hp. pose proof (uval_range HV x Hx) as R.
  assert (K : b = true <-> pop BITS (Z.testbit (uval x)) = 1).
  { rewrite H. unfold pop. split.
    - intros (k & Hk & Ek). assert (k < BITS) by (apply Z.pow_lt_mono_r_iff with 2; lia).
      rewrite (count_ext _ _ (fun i => Nat.eqb i (Z.to_nat k))).
      + assert (G : forall n s m, (s <= m)%nat -> length (filter (fun i => Nat.eqb i m) (seq s n)) = if (m <? s + n)%nat then 1%nat else 0%nat).
        { induction n as [|n IH]; intros s m L; cbn [seq filter].
          - destruct (Nat.ltb_spec m (s + 0)); [lia|auto].
          - destruct (Nat.eqb_spec s m).
            + subst s. cbn [length]. destruct (Nat.ltb_spec m (m + S n)); [|lia]. f_equal.
              assert (forall n' s', (m < s')%nat -> filter (fun i => Nat.eqb i m) (seq s' n') = []) as Z0.
              { induction n' as [|n' IH']; intros s' L'; cbn; auto. destruct (Nat.eqb_spec s' m); [lia|]. apply IH'. lia. }
              rewrite Z0 by lia. auto.
            + rewrite IH by lia. replace (s + S n)%nat with (S s + n)%nat by lia. auto. }
        rewrite G by lia. destruct (Nat.ltb_spec (Z.to_nat k) (0 + Z.to_nat BITS)); lia.
      + intros i Hi. rewrite Ek, Z.pow2_bits_eqb by lia. destruct (Z.eqb_spec k (Z.of_nat i)), (Nat.eqb_spec i (Z.to_nat k)); try lia; auto.
    - intro L. destruct (filter _ _) as [|k [|k' l]] eqn:F; cbn in L; try lia. exists (Z.of_nat k). split; [lia|].
      assert (I : forall i, (i < Z.to_nat BITS)%nat -> Z.testbit (uval x) (Z.of_nat i) = Nat.eqb i k).
      { intros i Hi. destruct (Z.testbit (uval x) (Z.of_nat i)) eqn:T.
        - assert (In i [k]) as [->|[]] by (rewrite <- F; apply filter_In; split; auto; apply in_seq; lia). symmetry. apply Nat.eqb_refl.
        - destruct (Nat.eqb_spec i k); auto. subst. assert (In k [k]) as I' by (left; auto). rewrite <- F in I'. apply filter_In in I' as (_ & T'). congruence. }
      apply Z.bits_inj'. intros i Hi. rewrite Z.pow2_bits_eqb by lia. destruct (Z.lt_ge_cases i BITS).
      + rewrite <- (Z2Nat.id i) at 1 by lia. rewrite I by lia. destruct (Nat.eqb_spec (Z.to_nat i) k), (Z.eqb_spec (Z.of_nat k) i); try lia; auto.
      + rewrite (uval_high HV) by auto. destruct (Z.eqb_spec (Z.of_nat k) i); auto. exfalso.
        assert (In k [k]) as I' by (left; auto). rewrite <- F in I'. apply filter_In in I' as (I' & _). apply in_seq in I'. lia. }
  destruct b; split; split; intro J; try congruence.
  - f_equal. apply K. auto.
  - exfalso. apply J. f_equal. apply K. auto.
  - injection J as J. apply K in J. congruence.
  - intro J'. injection J' as J'. apply K in J'. congruence.
Qed.

(** ** Runs at either end *)

Section R.
Context {c : Cfg} (HV : Valid).
Lemma run_flip_top : forall x n t r, bits_of n (fun i => negb (Z.testbit (uval x) i)) -> run_top BITS (uval x) t r -> run_top BITS (uval n) (negb t) r.
Proof.
  intros x n t r B (H1 & H2 & H3). split; auto. split.
  - intros i Hi. rewrite B by lia. rewrite H2 by lia. auto.
  - intro L. rewrite B by lia. rewrite H3 by lia. auto.
Qed.
Lemma run_flip_bot : forall x n t r, bits_of n (fun i => negb (Z.testbit (uval x) i)) -> run_bot BITS (uval x) t r -> run_bot BITS (uval n) (negb t) r.
Proof.
  intros x n t r B (H1 & H2 & H3). split; auto. split.
  - intros i Hi. rewrite B by lia. rewrite H2 by lia. auto.
  - intro L. rewrite B by lia. rewrite H3 by lia. auto.
Qed.
Lemma run_rev : forall x n t r, bits_of n (fun i => Z.testbit (uval x) (BITS - 1 - i)) ->
  (run_top BITS (uval x) t r -> run_bot BITS (uval n) t r) /\ (run_bot BITS (uval x) t r -> run_top BITS (uval n) t r).
Proof.
  intros x n t r B. split; intros (H1 & H2 & H3); (split; [auto|split]).
  - intros i Hi. rewrite B by lia. apply H2. lia.
  - intro L. rewrite B by lia. apply H3. lia.
  - intros i Hi. rewrite B by lia. apply H2. lia.
  - intro L. rewrite B by lia. replace (BITS - 1 - (BITS - 1 - r)) with r by ring. apply H3. lia.
Qed.
End R.
Theorem C80_runs : forall (c : Cfg) x, Valid -> wf x ->
  (let* n := not_const x in leading_zeros n) = leading_ones x /\ (let* n := not_const x in leading_ones n) = leading_zeros x /\
  (let* n := not_const x in trailing_zeros n) = trailing_ones x /\ (let* n := not_const x in trailing_ones n) = trailing_zeros x.
Proof.
  intros c x HV Hx. destruct (shows_not HV x Hx) as (n & E & Wn & B). rewrite E. cbn [bind].
  destruct (C18_leading_zeros c x HV Hx) as (a & Ea & Ra). destruct (C18_leading_ones c x HV Hx) as (b & Eb & Rb).
  destruct (C18_trailing_zeros c x HV Hx) as (d & Ed & Rd). destruct (C18_trailing_ones c x HV Hx) as (e & Ee & Re).
  destruct (C18_leading_zeros c n HV Wn) as (a' & Ea' & Ra'). destruct (C18_leading_ones c n HV Wn) as (b' & Eb' & Rb').
  destruct (C18_trailing_zeros c n HV Wn) as (d' & Ed' & Rd'). destruct (C18_trailing_ones c n HV Wn) as (e' & Ee' & Re').
  rewrite Ea, Eb, Ed, Ee, Ea', Eb', Ed', Ee'.
  apply (run_flip_top _ _ _ _ B) in Ra, Rb. apply (run_flip_bot _ _ _ _ B) in Rd, Re. cbn [negb] in *.
  repeat split; f_equal; solve [eapply run_top_unique; eauto | eapply run_bot_unique; eauto].
Qed.
(** The number of trailing zeros is the number of bits set in [!x & (x - 1)], zero included. *)
Theorem C80_trailing_zeros_count : forall (c : Cfg) sg x, Valid -> wf x ->
  (let* p := wrapping_sub sg x (ofZ 1) in let* n := not_const x in let* m := bitand_const n p in count_ones m) = trailing_zeros x.
Proof.
  intros c sg x HV Hx. pose proof (BITS_pos HV) as Hp.
  assert (G : forall t m, 0 <= t <= BITS -> wf m -> bits_of m (fun i => i <? t) -> count_ones m = Ok t).
  { intros t m Ht Wm B. rewrite (ones_pop HV m _ Wm B). unfold pop. f_equal.
    replace (Z.to_nat BITS) with (Z.to_nat t + Z.to_nat (BITS - t))%nat by lia. rewrite seq_app, filter_app, app_length.
    assert (forall n s, (s + n <= Z.to_nat t)%nat -> length (filter (fun i => Z.of_nat i <? t) (seq s n)) = n) as A1.
    { induction n as [|n IH]; intros s L; cbn [seq filter]; auto. destruct (Z.ltb_spec (Z.of_nat s) t); [|lia]. cbn [length]. rewrite IH by lia. auto. }
    assert (forall n s, (Z.to_nat t <= s)%nat -> length (filter (fun i => Z.of_nat i <? t) (seq s n)) = 0%nat) as A2.
    { induction n as [|n IH]; intros s L; cbn [seq filter]; auto. destruct (Z.ltb_spec (Z.of_nat s) t); [lia|]. apply IH. lia. }
    rewrite A1, A2 by lia. lia. }
  destruct (Z.eq_dec (uval x) 0) as [z|z].
  - destruct (C18_trailing_zeros c x HV Hx) as (t & E & R1 & R2 & R3). rewrite E.
    assert (t = BITS) as -> by (destruct (Z.eq_dec t BITS) as [|n]; auto; rewrite z, Z.bits_0 in R3; discriminate R3; lia).
    destruct (shows_not HV x Hx) as (n & En & Wn & Bn). rewrite (sub_u HV) by (auto; apply (wf_ofZ HV)).
    cbn [bind]. rewrite En. cbn [bind]. rewrite z, (uval_ofZ HV).
    assert (2 <= 2 ^ BITS) by (change 2 with (2 ^ 1) at 1; apply Z.pow_le_mono_r; lia). rewrite Z.mod_small by lia. change (0 - 1) with (-1).
    destruct (and_f HV n (ofZ (-1)) _ _ Wn (wf_ofZ HV (-1)) Bn (bits_const HV (-1))) as (m & Em & Wm & Bm). rewrite Em. cbn [bind].
    apply G; [lia|auto|]. intros i Hi. rewrite Bm by auto. rewrite z, Z.bits_0, Z.bits_m1 by lia. destruct (Z.ltb_spec i BITS); auto; lia.
  - destruct (C80_lowest_bit c sg x HV Hx z) as (t & E & Ht & _ & _ & _ & L). rewrite E.
    transitivity (let* m := (let* p := wrapping_sub sg x (ofZ 1) in let* n := not_const x in bitand_const n p) in count_ones m).
    + destruct (wrapping_sub sg x (ofZ 1)); auto. cbn [bind]. destruct (not_const x); auto.
    + rewrite L. cbn [bind]. apply G; [lia|apply (wf_ofZ HV)|]. intros i Hi. rewrite (bits_const HV) by auto.
      replace (2 ^ t - 1) with (Z.ones t) by (rewrite Z.ones_equiv; lia). apply Z.testbit_ones_nonneg; lia.
Qed.

(** ** Reversal *)

(** [m] is the stored form of [x] on a machine of byte order [be]. *)
Theorem C80_reversal : forall (c : Cfg) be x, Valid -> wf x -> exists r s,
  mem_reverse_bits (ord be x) = Ok (ord be r) /\ mem_swap_bytes (ord be x) = Ok (ord be s) /\ wf r /\ wf s /\
  leading_zeros r = trailing_zeros x /\ trailing_zeros r = leading_zeros x /\
  leading_ones r = trailing_ones x /\ trailing_ones r = leading_ones x /\
  count_ones r = count_ones x /\ count_ones s = count_ones x.
Proof.
  intros c be x HV Hx. pose proof (BITS_pos HV) as Hp.
  assert (Hm : wf (ord be (ord be x))) by (rewrite ord_ord; auto).
  destruct (C20_reverse_bits c be (ord be x) HV Hm) as (r & Er & Wr & Br). destruct (C20_swap_bytes c be (ord be x) HV Hm) as (s & Es & Ws & Bs).
  rewrite ord_ord in Br, Bs. exists (ord be r), (ord be s). rewrite !ord_ord. split; auto. split; auto. split; auto. split; auto.
  set (r' := ord be r) in *. set (s' := ord be s) in *.
  assert (Br' : bits_of r' (fun i => Z.testbit (uval x) (BITS - 1 - i))) by exact Br.
  destruct (C18_leading_zeros c x HV Hx) as (a & Ea & Ra). destruct (C18_leading_ones c x HV Hx) as (b & Eb & Rb).
  destruct (C18_trailing_zeros c x HV Hx) as (d & Ed & Rd). destruct (C18_trailing_ones c x HV Hx) as (e & Ee & Re).
  destruct (C18_leading_zeros c r' HV Wr) as (a' & Ea' & Ra'). destruct (C18_leading_ones c r' HV Wr) as (b' & Eb' & Rb').
  destruct (C18_trailing_zeros c r' HV Wr) as (d' & Ed' & Rd'). destruct (C18_trailing_ones c r' HV Wr) as (e' & Ee' & Re').
  rewrite Ea, Eb, Ed, Ee, Ea', Eb', Ed', Ee'.
  apply (run_rev _ _ _ _ Br') in Ra, Rb, Rd, Re.
  do 4 (split; [f_equal; solve [eapply run_top_unique; eauto | eapply run_bot_unique; eauto]|]).
  split.
  - rewrite (ones_pop HV r' _ Wr Br'), (ones_pop HV x _ Hx (bits_self x)). unfold pop. do 2 f_equal.
    apply count_perm with (g := fun i => (Z.to_nat BITS - 1 - i)%nat); intros; try lia. f_equal. lia.
  - assert (E8 : BITS = 8 * (BITS / 8)) by (pose proof (B8 HV) as K8; apply Z_div_exact_2; [lia|]; rewrite <- K8, Z.mul_comm; apply Z.mod_mul; lia).
    set (n := BITS / 8) in *.
    assert (T : forall v k, 0 <= k -> Z.testbit v k = Z.testbit (byte v (k / 8)) (k mod 8)).
    { intros v k Hk. unfold byte. change 256 with (2 ^ 8). pose proof (Z.mod_pos_bound k 8 ltac:(lia)). pose proof (Z.div_mod k 8 ltac:(lia)).
      assert (0 <= k / 8) by (apply Z.div_pos; lia). rewrite Z.testbit_mod_pow2 by lia. destruct (Z.ltb_spec (k mod 8) 8); [|lia]. cbn [andb].
      rewrite <- Z.shiftr_div_pow2, Z.shiftr_spec by lia. f_equal. lia. }
    rewrite (ones_pop HV s' _ Ws (bits_self s')), (ones_pop HV x _ Hx (bits_self x)). unfold pop. do 2 f_equal.
    apply count_perm with (g := fun i => Z.to_nat (8 * (n - 1 - Z.of_nat i / 8) + Z.of_nat i mod 8)).
    + intros i Hi. assert (Hi' : Z.of_nat i < 8 * n) by lia. revert Hi'. generalize (Z.of_nat i) (Nat2Z.is_nonneg i). intros k Hk Hk'. Z.div_mod_to_equations. lia.
    + intros i j Hi Hj Eq. assert (Hi' : Z.of_nat i < 8 * n) by lia. assert (Hj' : Z.of_nat j < 8 * n) by lia.
      apply Nat2Z.inj. revert Eq Hi' Hj'. generalize (Z.of_nat i) (Nat2Z.is_nonneg i) (Z.of_nat j) (Nat2Z.is_nonneg j). intros k Hk k' Hk'.
      Z.div_mod_to_equations. lia.
    + intros i Hi. assert (Hi' : Z.of_nat i < 8 * n) by lia. revert Hi'. generalize (Z.of_nat i) (Nat2Z.is_nonneg i). intros k Hk Hk'.
      assert (Dk : 0 <= k / 8 < n) by (Z.div_mod_to_equations; lia). pose proof (Z.mod_pos_bound k 8 ltac:(lia)).
      rewrite Z2Nat.id by lia. rewrite T by lia.
      replace ((8 * (n - 1 - k / 8) + k mod 8) / 8) with (n - 1 - k / 8) by (Z.div_mod_to_equations; lia).
      replace ((8 * (n - 1 - k / 8) + k mod 8) mod 8) with (k mod 8) by (Z.div_mod_to_equations; lia).
      rewrite Bs by lia. rewrite (T (uval x)) by lia. f_equal. f_equal. lia.
Qed.

Example C80_ex1 :
  let x := E64 (2 ^ 200 + 96) in let y := E64 (2 ^ 200 + 32 + 5) in
  @wrapping_add c256_64 false x y = Ok (E64 (2 ^ 201 + 133)) /\
  (let* n := @u_wrapping_neg c256_64 x in @bitand_const c256_64 x n) = Ok (E64 32) /\
  (let* p := @wrapping_sub c256_64 false x (E64 1) in @bitand_const c256_64 x p) = Ok (E64 (2 ^ 200 + 64)) /\
  (let* a := @wrapping_shl c256_64 x 100 in let* b := @wrapping_shr c256_64 false x 156 in @bitor_const c256_64 a b) = @rotate_left c256_64 x 100 /\
  @rotate_left c256_64 x 100 = Ok (E64 (96 * 2 ^ 100 + 2 ^ 44)).
Proof. vm_compute. auto. Qed.
Example C80_ex2 : let x := E32 (2 ^ 200 + 96) in
  @count_ones c256_32 x = Ok 3 /\ @is_power_of_two c256_32 x = Ok false /\ @is_power_of_two c256_32 (E32 (2 ^ 77)) = Ok true /\
  (let* p := @wrapping_shr c256_32 true (E32 (-5)) 1 in @wrapping_shl c256_32 p 1) = Ok (E32 (-6)) /\
  (let* r := @mem_reverse_bits c256_32 x in @leading_zeros c256_32 r) = Ok 5.
Proof. vm_compute. auto. Qed.

(** ** Assumptions (each must print "Closed under the global context") *)

Print Assumptions C80_boolean_algebra.
Print Assumptions C80_complement.
Print Assumptions C80_shl_shl.
Print Assumptions C80_shr_shr.
Print Assumptions C80_shift_back.
Print Assumptions C80_shift_bitwise.
Print Assumptions C80_rotations.
Print Assumptions C80_rotation_amount.
Print Assumptions C80_rotation_shifts.
Print Assumptions C80_rotation_bitwise.
Print Assumptions C80_add_bits.
Print Assumptions C80_neg_bits.
Print Assumptions C80_lowest_bit.
Print Assumptions C80_counts.
Print Assumptions C80_counts_moved.
Print Assumptions C80_power_of_two_count.
Print Assumptions C80_runs.
Print Assumptions C80_trailing_zeros_count.
Print Assumptions C80_reversal.
