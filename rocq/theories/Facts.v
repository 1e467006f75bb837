(** * General lemmas about lists of limbs, loops and primitives (proofs only) *)

Require Import ZArith List Bool Lia.
From Verif Require Import Prim Spec.
Import ListNotations.
Local Open Scope Z_scope.

Lemma dassert_true : forall {c : Cfg}, dassert true = Ok tt.
Proof. intros c. unfold dassert. destruct dbg; reflexivity. Qed.

(** ** Powers *)

Lemma pow2_pos : forall w, 0 <= w -> 0 < 2 ^ w.
Proof. intros; apply Z.pow_pos_nonneg; lia. Qed.

Lemma pow2_pos' : forall w, 0 <= 2 ^ w.
Proof. intros; apply Z.pow_nonneg; lia. Qed.

Lemma pow2_half : forall w, 1 <= w -> 2 ^ w = 2 * 2 ^ (w - 1).
Proof.
  intros w H. rewrite <- (Z.pow_succ_r 2 (w - 1)) by lia. f_equal; lia.
Qed.

Lemma pow2_S : forall w k, 0 <= w -> 2 ^ (w * Z.of_nat (S k)) = 2 ^ w * 2 ^ (w * Z.of_nat k).
Proof.
  intros w k H. rewrite <- Z.pow_add_r by lia. f_equal; lia.
Qed.

Lemma pow2_add_nat : forall w a b, 0 <= w ->
  2 ^ (w * Z.of_nat (a + b)) = 2 ^ (w * Z.of_nat a) * 2 ^ (w * Z.of_nat b).
Proof. intros w a b H. rewrite <- Z.pow_add_r by lia. f_equal; lia. Qed.

Lemma pow2_le_mono : forall a b, 0 <= a <= b -> 2 ^ a <= 2 ^ b.
Proof. intros; apply Z.pow_le_mono_r; lia. Qed.

Lemma pow2_lt_mono : forall a b, 0 <= a < b -> 2 ^ a < 2 ^ b.
Proof. intros; apply Z.pow_lt_mono_r; lia. Qed.

Lemma pow2_ge2 : forall w, 1 <= w -> 2 <= 2 ^ w.
Proof. intros. change 2 with (2 ^ 1) at 1. apply Z.pow_le_mono_r; lia. Qed.

(** ** Monad, arrays *)

Lemma bind_ok : forall A B (a : A) (k : A -> res B), bind (Ok a) k = k a.
Proof. reflexivity. Qed.

Lemma get_ok : forall (l : list Z) i, (i < length l)%nat -> get l i = Ok (nth i l 0).
Proof.
  intros l i H. unfold get. rewrite (nth_error_nth' l 0 H). reflexivity.
Qed.

Lemma get_panic : forall A (l : list A) i, (length l <= i)%nat -> get l i = Panic.
Proof.
  intros A l i H. unfold get. apply nth_error_None in H. rewrite H. reflexivity.
Qed.

Lemma set_ok : forall A (l : list A) i v, (i < length l)%nat -> set l i v = Ok (upd l i v).
Proof.
  intros A l i v H. unfold set. apply Nat.ltb_lt in H. rewrite H. reflexivity.
Qed.

Lemma length_upd : forall A (l : list A) i v, length (upd l i v) = length l.
Proof. induction l; intros [|i] v; simpl; auto. Qed.

Lemma nth_upd_same : forall A (l : list A) i v d, (i < length l)%nat -> nth i (upd l i v) d = v.
Proof. induction l; intros [|i] v d H; simpl in *; try lia; auto. apply IHl. lia. Qed.

Lemma nth_upd_other : forall A (l : list A) i j v d, i <> j -> nth j (upd l i v) d = nth j l d.
Proof. induction l; intros [|i] [|j] v d H; simpl in *; auto; try lia. Qed.

Lemma nth_upd : forall A (l : list A) i j v d, (i < length l)%nat ->
  nth j (upd l i v) d = if Nat.eqb i j then v else nth j l d.
Proof.
  intros. destruct (Nat.eqb_spec i j).
  - subst. apply nth_upd_same; auto.
  - apply nth_upd_other; auto.
Qed.

Lemma firstn_upd_ge : forall A (l : list A) i k v, (k <= i)%nat -> firstn k (upd l i v) = firstn k l.
Proof.
  induction l; intros [|i] [|k] v H; simpl; auto; try lia.
  f_equal. apply IHl. lia.
Qed.

Lemma skipn_upd_lt : forall A (l : list A) i k v, (i < k)%nat -> skipn k (upd l i v) = skipn k l.
Proof.
  induction l; intros [|i] [|k] v H; simpl; auto; try lia.
  apply IHl. lia.
Qed.

Lemma nth_repeat_0 : forall n i, nth i (repeat 0 n) 0 = 0.
Proof. induction n; intros [|i]; simpl; auto. Qed.

(** ** Loops *)

Lemma for_m_inv : forall St (Inv : nat -> St -> Prop) body k i s,
  (forall j s, (i <= j < i + k)%nat -> Inv j s -> exists s', body j s = Ok s' /\ Inv (S j) s') ->
  Inv i s ->
  exists s', for_m k i body s = Ok s' /\ Inv (i + k)%nat s'.
Proof.
  intros St Inv body k. induction k; intros i s Hb Hi; simpl.
  - exists s. split; auto. rewrite Nat.add_0_r; auto.
  - destruct (Hb i s) as (s' & E & Hi'); [lia | auto |].
    rewrite E. simpl.
    destruct (IHk (S i) s') as (s'' & E' & Hi''); auto.
    + intros; apply Hb; auto; lia.
    + exists s''. split; auto. replace (i + S k)%nat with (S i + k)%nat by lia. auto.
Qed.

Lemma for_range_inv : forall St (Inv : nat -> St -> Prop) body lo hi s,
  (lo <= hi)%nat ->
  (forall j s, (lo <= j < hi)%nat -> Inv j s -> exists s', body j s = Ok s' /\ Inv (S j) s') ->
  Inv lo s ->
  exists s', for_range lo hi body s = Ok s' /\ Inv hi s'.
Proof.
  intros St Inv body lo hi s Hle Hb Hi. unfold for_range.
  destruct (for_m_inv St Inv body (hi - lo) lo s) as (s' & E & H); auto.
  - intros; apply Hb; auto; lia.
  - exists s'. split; auto. replace hi with (lo + (hi - lo))%nat by lia. auto.
Qed.

Lemma for_m_app : forall St (body : nat -> St -> res St) k1 k2 i s,
  for_m (k1 + k2) i body s = bind (for_m k1 i body s) (for_m k2 (i + k1) body).
Proof.
  induction k1; intros k2 i s; simpl.
  - rewrite Nat.add_0_r. reflexivity.
  - destruct (body i s); simpl; auto. rewrite IHk1.
    replace (S i + k1)%nat with (i + S k1)%nat by lia. reflexivity.
Qed.

(** A loop with a decreasing measure never runs out of fuel. *)
Lemma while_m_inv : forall St (Inv : St -> Prop) (m : St -> nat) cond body fuel s,
  (forall s, Inv s -> cond s = true ->
     exists s', body s = Ok s' /\ Inv s' /\ (m s' < m s)%nat) ->
  Inv s -> (m s <= fuel)%nat ->
  exists s', while_m fuel cond body s = Ok s' /\ Inv s' /\ cond s' = false.
Proof.
  intros St Inv m cond body fuel. induction fuel; intros s Hb Hi Hm; simpl;
    destruct (cond s) eqn:E.
  - destruct (Hb s Hi E) as (s' & _ & _ & L). lia.
  - exists s; auto.
  - destruct (Hb s Hi E) as (s' & Eb & Hi' & L). rewrite Eb. simpl.
    apply IHfuel; auto. lia.
  - exists s; auto.
Qed.

(** ** Digit lists *)

Lemma digits_nil : forall w, digits w [].
Proof. constructor. Qed.

Lemma digits_cons : forall w x l, 0 <= x < 2 ^ w -> digits w l -> digits w (x :: l).
Proof. intros; constructor; auto. Qed.

Lemma digits_inv : forall w x l, digits w (x :: l) -> 0 <= x < 2 ^ w /\ digits w l.
Proof. intros w x l H; inversion H; auto. Qed.

Lemma digits_nth : forall w l i, 0 <= w -> digits w l -> 0 <= nth i l 0 < 2 ^ w.
Proof.
  intros w l i Hw H. destruct (Nat.lt_ge_cases i (length l)) as [L|L].
  - unfold digits in H. rewrite Forall_nth in H. apply (H i 0 L).
  - rewrite nth_overflow by auto. pose proof (pow2_pos w Hw). lia.
Qed.

Lemma digits_upd : forall w l i v, digits w l -> 0 <= v < 2 ^ w -> digits w (upd l i v).
Proof.
  intros w l. induction l; intros [|i] v H Hv; simpl; auto; apply digits_inv in H;
    apply digits_cons; try tauto. apply IHl; tauto.
Qed.

Lemma digits_repeat : forall w n v, 0 <= v < 2 ^ w -> digits w (repeat v n).
Proof. induction n; intros; simpl; constructor; auto. apply IHn; auto. Qed.

Lemma digits_repeat0 : forall w n, 0 <= w -> digits w (repeat 0 n).
Proof. intros. apply digits_repeat. pose proof (pow2_pos w H). lia. Qed.

Lemma digits_app : forall w l1 l2, digits w (l1 ++ l2) <-> digits w l1 /\ digits w l2.
Proof. intros. unfold digits. apply Forall_app. Qed.

Lemma digits_firstn : forall w k l, digits w l -> digits w (firstn k l).
Proof.
  intros w k l H. rewrite <- (firstn_skipn k l) in H. apply digits_app in H. tauto.
Qed.

Lemma digits_skipn : forall w k l, digits w l -> digits w (skipn k l).
Proof.
  intros w k l H. rewrite <- (firstn_skipn k l) in H. apply digits_app in H. tauto.
Qed.

Lemma lval_app : forall w l1 l2, 0 <= w ->
  lval w (l1 ++ l2) = lval w l1 + 2 ^ (w * Z.of_nat (length l1)) * lval w l2.
Proof.
  induction l1; intros l2 H; cbn [lval app length].
  - rewrite Z.mul_0_r. lia.
  - rewrite IHl1 by auto. rewrite pow2_S by auto. ring.
Qed.

Lemma lval_range : forall w l, 0 <= w -> digits w l ->
  0 <= lval w l < 2 ^ (w * Z.of_nat (length l)).
Proof.
  intros w l Hw. induction l; intros H; cbn [lval length].
  - rewrite Z.mul_0_r. lia.
  - apply digits_inv in H. destruct H as [Ha Hl]. specialize (IHl Hl).
    rewrite pow2_S by auto. pose proof (pow2_pos w Hw). nia.
Qed.

Lemma lval_repeat0 : forall w n, lval w (repeat 0 n) = 0.
Proof. induction n; cbn [lval repeat]; auto. rewrite IHn. lia. Qed.

Lemma lval_repeat_max : forall w n, 0 <= w ->
  lval w (repeat (2 ^ w - 1) n) = 2 ^ (w * Z.of_nat n) - 1.
Proof.
  induction n; intros H; cbn [lval repeat].
  - rewrite Z.mul_0_r. reflexivity.
  - rewrite IHn by auto. rewrite pow2_S by auto. ring.
Qed.

(** Value of the [k] low digits. *)
Definition pv (w : Z) (l : list Z) (k : nat) : Z := lval w (firstn k l).

Lemma pv_0 : forall w l, pv w l 0 = 0.
Proof. reflexivity. Qed.

Lemma pv_full : forall w l, pv w l (length l) = lval w l.
Proof. intros. unfold pv. rewrite firstn_all. reflexivity. Qed.

Lemma pv_all : forall w l n, length l = n -> pv w l n = lval w l.
Proof. intros; subst; apply pv_full. Qed.

Lemma firstn_S_nth : forall A (l : list A) k d, (k < length l)%nat ->
  firstn (S k) l = firstn k l ++ [nth k l d].
Proof.
  induction l; intros k d H; simpl in *; try lia.
  destruct k; auto. simpl. f_equal. apply IHl. lia.
Qed.

Lemma pv_S : forall w l k, 0 <= w -> (k < length l)%nat ->
  pv w l (S k) = pv w l k + nth k l 0 * 2 ^ (w * Z.of_nat k).
Proof.
  intros w l k Hw H. unfold pv. rewrite (firstn_S_nth _ l k 0 H).
  rewrite lval_app by auto. rewrite firstn_length_le by lia. cbn [lval]. ring.
Qed.

Lemma pv_upd_ge : forall w l i k v, (k <= i)%nat -> pv w (upd l i v) k = pv w l k.
Proof. intros. unfold pv. rewrite firstn_upd_ge; auto. Qed.

Lemma pv_upd_S : forall w l k v, 0 <= w -> (k < length l)%nat ->
  pv w (upd l k v) (S k) = pv w l k + v * 2 ^ (w * Z.of_nat k).
Proof.
  intros. rewrite pv_S by (rewrite ?length_upd; auto).
  rewrite pv_upd_ge by auto. rewrite nth_upd_same by auto. reflexivity.
Qed.

Lemma pv_range : forall w l k, 0 <= w -> digits w l -> (k <= length l)%nat ->
  0 <= pv w l k < 2 ^ (w * Z.of_nat k).
Proof.
  intros w l k Hw Hd Hk. unfold pv.
  pose proof (lval_range w (firstn k l) Hw (digits_firstn w k l Hd)) as H.
  rewrite firstn_length_le in H by auto. auto.
Qed.

Lemma lval_split : forall w l k, 0 <= w -> (k <= length l)%nat ->
  lval w l = pv w l k + 2 ^ (w * Z.of_nat k) * lval w (skipn k l).
Proof.
  intros w l k Hw Hk. unfold pv. rewrite <- (firstn_skipn k l) at 1.
  rewrite lval_app by auto. rewrite firstn_length_le by auto. reflexivity.
Qed.

Lemma lval_upd : forall w l i v, 0 <= w -> (i < length l)%nat ->
  lval w (upd l i v) = lval w l + (v - nth i l 0) * 2 ^ (w * Z.of_nat i).
Proof.
  intros w l. induction l; intros [|i] v Hw H; cbn [lval upd length nth] in *; try lia.
  - rewrite Z.mul_0_r. cbn. lia.
  - rewrite IHl by (auto; lia). rewrite pow2_S by auto. ring.
Qed.

Lemma lval_last : forall w l n, 0 <= w -> length l = S n ->
  lval w l = pv w l n + nth n l 0 * 2 ^ (w * Z.of_nat n).
Proof.
  intros w l n Hw H. rewrite <- pv_full, H. apply pv_S; auto. lia.
Qed.

(** ** Encoding of integers as digit lists *)

Fixpoint lenc (w : Z) (n : nat) (v : Z) : list Z :=
  match n with
  | O => []
  | S n' => v mod 2 ^ w :: lenc w n' (v / 2 ^ w)
  end.

Lemma length_lenc : forall w n v, length (lenc w n v) = n.
Proof. induction n; intros; simpl; auto. Qed.

Lemma digits_lenc : forall w n v, 0 <= w -> digits w (lenc w n v).
Proof.
  induction n; intros v H; simpl; constructor.
  - apply Z.mod_pos_bound. apply pow2_pos; auto.
  - apply IHn; auto.
Qed.

Lemma lval_lenc : forall w n v, 0 <= w -> lval w (lenc w n v) = v mod 2 ^ (w * Z.of_nat n).
Proof.
  induction n; intros v H; cbn [lval lenc].
  - rewrite Z.mul_0_r. rewrite Z.mod_1_r. reflexivity.
  - rewrite IHn by auto. rewrite pow2_S by auto.
    pose proof (pow2_pos w H). pose proof (pow2_pos (w * Z.of_nat n) ltac:(lia)).
    rewrite Z.rem_mul_r by lia. ring.
Qed.

Lemma lval_inj : forall w l1 l2, 0 <= w -> length l1 = length l2 ->
  digits w l1 -> digits w l2 -> lval w l1 = lval w l2 -> l1 = l2.
Proof.
  intros w l1. induction l1; intros [|b l2] Hw HL H1 H2 E; simpl in HL; try discriminate; auto.
  apply digits_inv in H1. apply digits_inv in H2. cbn [lval] in E.
  pose proof (pow2_pos w Hw).
  assert (a = b /\ lval w l1 = lval w l2).
  { assert (a mod 2 ^ w = b mod 2 ^ w).
    { rewrite <- (Z.mod_add a (lval w l1) (2 ^ w)), <- (Z.mod_add b (lval w l2) (2 ^ w)) by lia.
      f_equal. lia. }
    rewrite !Z.mod_small in H0 by tauto. split; [lia|]. subst. nia. }
  destruct H0; subst. f_equal. apply IHl1; auto; tauto.
Qed.

Lemma lenc_lval : forall w l, 0 <= w -> digits w l -> lenc w (length l) (lval w l) = l.
Proof.
  intros w l Hw Hd. apply (lval_inj w); auto using length_lenc, digits_lenc.
  rewrite lval_lenc by auto. apply Z.mod_small. apply lval_range; auto.
Qed.

Lemma lenc_unique : forall w n l v, 0 <= w -> digits w l -> length l = n ->
  lval w l mod 2 ^ (w * Z.of_nat n) = v mod 2 ^ (w * Z.of_nat n) -> l = lenc w n v.
Proof.
  intros w n l v Hw Hd HL E. apply (lval_inj w); auto using digits_lenc.
  - rewrite length_lenc; auto.
  - rewrite lval_lenc by auto. rewrite <- E. symmetry. apply Z.mod_small.
    subst n. apply lval_range; auto.
Qed.

Lemma lenc_eq_mod : forall w n v v', 0 <= w ->
  v mod 2 ^ (w * Z.of_nat n) = v' mod 2 ^ (w * Z.of_nat n) -> lenc w n v = lenc w n v'.
Proof.
  intros. apply lenc_unique; auto using digits_lenc, length_lenc.
  rewrite lval_lenc by auto. rewrite Z.mod_mod; auto.
  pose proof (pow2_pos (w * Z.of_nat n) ltac:(lia)). lia.
Qed.

Lemma lenc_mod : forall w n v, 0 <= w -> lenc w n (v mod 2 ^ (w * Z.of_nat n)) = lenc w n v.
Proof.
  intros. apply lenc_eq_mod; auto. apply Z.mod_mod.
  pose proof (pow2_pos (w * Z.of_nat n) ltac:(lia)). lia.
Qed.

Lemma mod_eq_intro : forall a b m k, m <> 0 -> a = b + k * m -> a mod m = b mod m.
Proof. intros; subst. apply Z.mod_add; auto. Qed.

Lemma mod_eq_elim : forall a b m, m <> 0 -> a mod m = b mod m -> exists k, a = b + k * m.
Proof.
  intros a b m Hm H. exists (a / m - b / m).
  rewrite (Z.div_mod a m Hm) at 1. rewrite (Z.div_mod b m Hm) at 1. rewrite H. ring.
Qed.

(** ** Signed wrap-around *)

Lemma swrap_range : forall b v, 1 <= b -> - 2 ^ (b - 1) <= swrap b v < 2 ^ (b - 1).
Proof.
  intros b v H. unfold swrap.
  pose proof (Z.mod_pos_bound (v + 2 ^ (b - 1)) (2 ^ b) (pow2_pos b ltac:(lia))).
  pose proof (pow2_half b H). lia.
Qed.

Lemma swrap_cong : forall b v, 1 <= b -> exists k, swrap b v = v + k * 2 ^ b.
Proof.
  intros b v H. unfold swrap. exists (- ((v + 2 ^ (b - 1)) / 2 ^ b)).
  pose proof (pow2_pos b ltac:(lia)).
  rewrite Z.mod_eq by lia. ring.
Qed.

Lemma swrap_unique : forall b v r k, 1 <= b -> - 2 ^ (b - 1) <= r < 2 ^ (b - 1) ->
  v = r + k * 2 ^ b -> swrap b v = r.
Proof.
  intros b v r k Hb Hr E. unfold swrap. subst v.
  replace (r + k * 2 ^ b + 2 ^ (b - 1)) with (r + 2 ^ (b - 1) + k * 2 ^ b) by ring.
  pose proof (pow2_pos b ltac:(lia)). pose proof (pow2_half b Hb).
  rewrite Z.mod_add by lia. rewrite Z.mod_small by lia. lia.
Qed.

Lemma swrap_small : forall b v, 1 <= b -> fits_s b v -> swrap b v = v.
Proof. intros. apply swrap_unique with (k := 0); auto. lia. Qed.

Lemma swrap_eq_mod : forall b v v', 1 <= b -> v mod 2 ^ b = v' mod 2 ^ b -> swrap b v = swrap b v'.
Proof.
  intros b v v' Hb E. pose proof (pow2_pos b ltac:(lia)).
  apply mod_eq_elim in E; [|lia]. destruct E as (k & ->).
  destruct (swrap_cong b v' Hb) as (k' & E').
  apply swrap_unique with (k := k - k'); auto using swrap_range. lia.
Qed.

Lemma swrap_mod : forall b v, 1 <= b -> swrap b v mod 2 ^ b = v mod 2 ^ b.
Proof.
  intros b v H. destruct (swrap_cong b v H) as (k & ->).
  pose proof (pow2_pos b ltac:(lia)). apply Z.mod_add. lia.
Qed.

Lemma swrap_of_mod : forall b v, 1 <= b -> swrap b (v mod 2 ^ b) = swrap b v.
Proof.
  intros. apply swrap_eq_mod; auto. apply Z.mod_mod.
  pose proof (pow2_pos b ltac:(lia)). lia.
Qed.

Lemma scast_swrap : forall w v, 1 <= w -> scast w v = swrap w v.
Proof.
  intros w v H. unfold scast. pose proof (pow2_pos w ltac:(lia)). pose proof (pow2_half w H).
  pose proof (Z.mod_pos_bound v (2 ^ w) ltac:(lia)).
  pose proof (Z.div_mod v (2 ^ w) ltac:(lia)). cbv zeta.
  destruct (Z.ltb_spec (v mod 2 ^ w) (2 ^ (w - 1))); symmetry.
  - apply swrap_unique with (k := v / 2 ^ w); auto; lia.
  - apply swrap_unique with (k := v / 2 ^ w + 1); auto; lia.
Qed.

(** ** Primitive operations *)

Lemma ucast_range : forall w v, 0 <= w -> 0 <= ucast w v < 2 ^ w.
Proof. intros. apply Z.mod_pos_bound. apply pow2_pos; auto. Qed.

Lemma ucast_small : forall w v, 0 <= v < 2 ^ w -> ucast w v = v.
Proof. intros. apply Z.mod_small; auto. Qed.

Lemma in_u_true : forall w v, 0 <= v < 2 ^ w -> in_u w v = true.
Proof.
  intros. unfold in_u. apply andb_true_iff. split; [apply Z.leb_le|apply Z.ltb_lt]; lia.
Qed.

Lemma in_u_spec : forall w v, in_u w v = true <-> fits_u w v.
Proof.
  intros. unfold in_u, fits_u. rewrite andb_true_iff, Z.leb_le, Z.ltb_lt. tauto.
Qed.

Lemma in_s_spec : forall w v, in_s w v = true <-> fits_s w v.
Proof.
  intros. unfold in_s, fits_s. rewrite andb_true_iff, Z.leb_le, Z.ltb_lt. tauto.
Qed.

Lemma in_u_reflect : forall w v, reflect (fits_u w v) (in_u w v).
Proof. intros. apply iff_reflect. symmetry. apply in_u_spec. Qed.

Lemma in_s_reflect : forall w v, reflect (fits_s w v) (in_s w v).
Proof. intros. apply iff_reflect. symmetry. apply in_s_spec. Qed.

Lemma b2z_range : forall b, 0 <= b2z b <= 1.
Proof. destruct b; simpl; lia. Qed.

Section C.
Context {c : Cfg}.

Lemma uchk_ok : forall w v, 0 <= v < 2 ^ w -> uchk w v = Ok v.
Proof. intros. unfold uchk. rewrite in_u_true by auto. reflexivity. Qed.

Lemma ushr_ok : forall w x s, 0 <= s < w -> w <= 2 ^ 32 -> ushr w x s = Ok (x / 2 ^ s).
Proof.
  intros. unfold ushr. rewrite in_u_true by lia.
  replace (s <? w) with true by (symmetry; apply Z.ltb_lt; lia). reflexivity.
Qed.

Lemma sshr_ok : forall w x s, 0 <= s < w -> w <= 2 ^ 32 -> sshr w x s = Ok (x / 2 ^ s).
Proof.
  intros. unfold sshr. rewrite in_u_true by lia.
  replace (s <? w) with true by (symmetry; apply Z.ltb_lt; lia). reflexivity.
Qed.

Lemma ushl_ok : forall w x s, 0 <= s < w -> w <= 2 ^ 32 -> ushl w x s = Ok (ucast w (x * 2 ^ s)).
Proof.
  intros. unfold ushl. rewrite in_u_true by lia.
  replace (s <? w) with true by (symmetry; apply Z.ltb_lt; lia). reflexivity.
Qed.

(** The encoding of an integer as a value of the type. *)
Definition ofZ (v : Z) : list Z := lenc W N v.

Section V.
Hypothesis HV : Valid.

Lemma W_cases : W = 32 \/ W = 64.
Proof. apply HV. Qed.
Lemma W_pos : 32 <= W <= 64.
Proof. destruct W_cases; lia. Qed.
Lemma W_nonneg : 0 <= W.
Proof. pose proof W_pos; lia. Qed.
Lemma BITS_ge : 256 <= BITS.
Proof. destruct HV as (_ & (k & Hk & E) & _). lia. Qed.
Lemma BITS_pos : 1 <= BITS.
Proof. pose proof BITS_ge; lia. Qed.
Lemma BITS_lt31 : BITS < 2 ^ 31.
Proof. destruct HV as (_ & _ & H). exact H. Qed.
Lemma BITS_lt : BITS < 2 ^ 32.
Proof. pose proof BITS_lt31. lia. Qed.
Lemma N_ge4 : (4 <= N)%nat.
Proof.
  pose proof BITS_ge as HB. pose proof W_pos. unfold BITS in HB. nia.
Qed.
Lemma N_lt : Z.of_nat N < 2 ^ 27.
Proof.
  pose proof BITS_lt as HB. pose proof W_pos. unfold BITS in HB. change (2^32) with (32 * 2^27) in HB. nia.
Qed.
Lemma N_even : exists k, (2 <= k)%nat /\ N = (2 * k)%nat.
Proof.
  destruct HV as (HW & (k & Hk & E) & _). unfold BITS in E.
  destruct HW as [HW|HW]; rewrite HW in E.
  - exists (2 * Z.to_nat k)%nat. lia.
  - exists (Z.to_nat k). lia.
Qed.
Lemma BITS_alt : W * Z.of_nat N = BITS.
Proof. unfold BITS. ring. Qed.

Lemma wf_ofZ : forall v, wf (ofZ v).
Proof. intros. split; [apply length_lenc | apply digits_lenc; apply W_nonneg]. Qed.

Lemma uval_ofZ : forall v, uval (ofZ v) = v mod 2 ^ BITS.
Proof. intros. unfold uval, ofZ. rewrite lval_lenc by apply W_nonneg. rewrite BITS_alt. reflexivity. Qed.

Lemma uval_range : forall x, wf x -> 0 <= uval x < 2 ^ BITS.
Proof.
  intros x (HL & Hd). unfold uval. rewrite <- BITS_alt, <- HL. apply lval_range; auto. apply W_nonneg.
Qed.

Lemma ofZ_uval : forall x, wf x -> ofZ (uval x) = x.
Proof.
  intros x (HL & Hd). unfold ofZ, uval. rewrite <- HL. apply lenc_lval; auto. apply W_nonneg.
Qed.

Lemma sval_swrap : forall x, wf x -> sval x = swrap BITS (uval x).
Proof.
  intros x Hx. unfold sval. pose proof (uval_range x Hx). pose proof BITS_pos.
  pose proof (pow2_half BITS BITS_pos). symmetry.
  destruct (Z.ltb_spec (uval x) (2 ^ (BITS - 1))).
  - apply swrap_unique with (k := 0); auto; lia.
  - apply swrap_unique with (k := 1); auto; lia.
Qed.

Lemma sval_ofZ : forall v, sval (ofZ v) = swrap BITS v.
Proof.
  intros. rewrite sval_swrap by apply wf_ofZ. rewrite uval_ofZ. apply swrap_of_mod. apply BITS_pos.
Qed.

Lemma sval_range : forall x, wf x -> - 2 ^ (BITS - 1) <= sval x < 2 ^ (BITS - 1).
Proof. intros. rewrite sval_swrap by auto. apply swrap_range. apply BITS_pos. Qed.

Lemma ofZ_eq_mod : forall v v', v mod 2 ^ BITS = v' mod 2 ^ BITS -> ofZ v = ofZ v'.
Proof. intros. unfold ofZ. apply lenc_eq_mod. apply W_nonneg. rewrite BITS_alt; auto. Qed.

Lemma ofZ_mod : forall v, ofZ (v mod 2 ^ BITS) = ofZ v.
Proof.
  intros. apply ofZ_eq_mod. apply Z.mod_mod. pose proof (pow2_pos BITS). pose proof BITS_pos. lia.
Qed.

Lemma ofZ_sval : forall x, wf x -> ofZ (sval x) = x.
Proof.
  intros. rewrite <- (ofZ_uval x) at 2 by auto. apply ofZ_eq_mod.
  rewrite sval_swrap by auto. apply swrap_mod. apply BITS_pos.
Qed.

Lemma sval_mod : forall x, wf x -> sval x mod 2 ^ BITS = uval x.
Proof.
  intros. rewrite sval_swrap by auto. rewrite swrap_mod by apply BITS_pos.
  apply Z.mod_small. apply uval_range; auto.
Qed.

Lemma sval_cong : forall x, wf x -> exists k, sval x = uval x + k * 2 ^ BITS.
Proof. intros. rewrite sval_swrap by auto. apply swrap_cong. apply BITS_pos. Qed.

Lemma uval_inj : forall x y, wf x -> wf y -> uval x = uval y -> x = y.
Proof. intros. rewrite <- (ofZ_uval x), <- (ofZ_uval y) by auto. congruence. Qed.

Lemma sval_inj : forall x y, wf x -> wf y -> sval x = sval y -> x = y.
Proof. intros. rewrite <- (ofZ_sval x), <- (ofZ_sval y) by auto. congruence. Qed.

Lemma ofZ_intro : forall l v, wf l -> (exists k, uval l = v + k * 2 ^ BITS) -> l = ofZ v.
Proof.
  intros l v Hl (k & E). rewrite <- (ofZ_uval l) by auto. apply ofZ_eq_mod. rewrite E.
  apply Z.mod_add. pose proof (pow2_pos BITS). pose proof BITS_pos. lia.
Qed.

Lemma ofZ_cong : forall v v' k, v = v' + k * 2 ^ BITS -> ofZ v = ofZ v'.
Proof.
  intros. subst. apply ofZ_eq_mod. apply Z.mod_add. pose proof (pow2_pos BITS). pose proof BITS_pos. lia.
Qed.
End V.
End C.
