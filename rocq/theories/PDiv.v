(** * Proofs about MDiv.v, part 1: building blocks and division by one limb *)

Require Import ZArith List Bool Lia.
From Verif Require Import Prim Spec Facts MAdd PAdd PMul MShift PShift MCore PCore MDiv.
Import ListNotations.
Local Open Scope Z_scope.

Lemma skipn_upd_ge : forall (l : list Z) i k v, (k <= i)%nat ->
  skipn k (upd l i v) = upd (skipn k l) (i - k) v.
Proof.
  induction l; intros [|i] [|k] v H; cbn; auto; try lia.
  apply IHl. lia.
Qed.

Lemma upd_app_r : forall (l1 l2 : list Z) i v,
  upd (l1 ++ l2) (length l1 + i) v = l1 ++ upd l2 i v.
Proof. induction l1; intros; cbn; auto. f_equal. auto. Qed.

Lemma upd_app_l : forall (l1 l2 : list Z) i v, (i < length l1)%nat ->
  upd (l1 ++ l2) i v = upd l1 i v ++ l2.
Proof. induction l1; intros l2 [|i] v H; cbn in *; auto; try lia. f_equal. apply IHl1. lia. Qed.

Lemma upd_same_len0 : forall n v, (1 <= n)%nat -> upd (repeat 0 n) 0 v = v :: repeat 0 (n - 1).
Proof. intros [|n] v H; [lia|]. cbn. rewrite Nat.sub_0_r. reflexivity. Qed.

(** [for_range_inv] with the initial state first *)
Lemma for_range_ind : forall St (Inv : nat -> St -> Prop) body lo hi s,
  (lo <= hi)%nat -> Inv lo s ->
  (forall j s, (lo <= j < hi)%nat -> Inv j s -> exists s', body j s = Ok s' /\ Inv (S j) s') ->
  exists s', for_range lo hi body s = Ok s' /\ Inv hi s'.
Proof. intros. apply for_range_inv; auto. Qed.

Section P.
Context {c : Cfg}.
Hypothesis HW : 2 <= W <= 64.
Let HW' : 1 <= W <= 64 := conj (Z.le_trans 1 2 W ltac:(discriminate) (proj1 HW)) (proj2 HW).

Local Notation B := (2 ^ W).
Local Notation pw n := (2 ^ (W * Z.of_nat n)).

Lemma Bnz : B <> 0.
Proof. pose proof (pow2_pos W). lia. Qed.
Lemma Wn : 0 <= W.
Proof. lia. Qed.
Lemma Bp2 : 4 <= B.
Proof. change 4 with (2 ^ 2). apply pow2_le_mono. lia. Qed.
Lemma pwpos : forall n, 0 < pw n.
Proof. intros. apply pow2_pos. lia. Qed.
Lemma pow_2W' : 2 ^ (2 * W) = B * B.
Proof. rewrite <- Z.pow_add_r by lia. f_equal. lia. Qed.
Lemma W32 : 2 * W <= 2 ^ 32.
Proof. change (2 ^ 32) with 4294967296. lia. Qed.
Lemma Winv : forall s, 0 <= s < W -> usub 32 W s = Ok (W - s).
Proof. intros. unfold usub. apply uchk_ok. change (2 ^ 32) with 4294967296. lia. Qed.
Lemma pw_S : forall n, pw (S n) = B * pw n.
Proof. intros. apply pow2_S. lia. Qed.
Lemma pw_add : forall a b, pw (a + b) = pw a * pw b.
Proof. intros. apply pow2_add_nat. lia. Qed.
Lemma pw_1 : pw 1 = B.
Proof. f_equal. lia. Qed.
Lemma pw_0 : pw 0 = 1.
Proof. rewrite Z.mul_0_r. reflexivity. Qed.
Lemma pw_mono : forall a b, (a <= b)%nat -> pw a <= pw b.
Proof. intros. apply pow2_le_mono. nia. Qed.

(** ** Values of sub-lists *)

Lemma pv_mod : forall l k, digits W l -> (k <= length l)%nat -> pv W l k = lval W l mod pw k.
Proof.
  intros l k Hd Hk. rewrite (lval_split W l k) by lia.
  rewrite Z.mul_comm, Z.mod_add by (pose proof (pwpos k); lia).
  symmetry. apply Z.mod_small. apply pv_range; auto; lia.
Qed.

Lemma skipn_div : forall l k, digits W l -> (k <= length l)%nat ->
  lval W (skipn k l) = lval W l / pw k.
Proof.
  intros l k Hd Hk. rewrite (lval_split W l k) at 1 by lia.
  pose proof (pwpos k). rewrite Z.mul_comm, Z.div_add by lia.
  rewrite Z.div_small; [lia|]. apply pv_range; auto; lia.
Qed.

Lemma lval_one : forall v, lval W [v] = v.
Proof. intros. cbn. lia. Qed.

Lemma lval_lt_pw : forall l, digits W l -> 0 <= lval W l < pw (length l).
Proof. intros. apply lval_range; auto; lia. Qed.

Lemma lval_app_c : forall a b, lval W (a ++ b) = lval W a + pw (length a) * lval W b.
Proof. intros. apply lval_app. lia. Qed.

Lemma app_snoc_lval : forall a v, lval W (a ++ [v]) = lval W a + v * pw (length a).
Proof. intros. rewrite lval_app by lia. rewrite lval_one. ring. Qed.

Lemma digits_one : forall v, 0 <= v < B -> digits W [v].
Proof. intros. constructor; auto. Qed.

(** ** Constructors *)

Lemma set0_repeat : forall n v, (1 <= n)%nat -> 0 <= v < B -> upd (repeat 0 n) 0 v = lenc W n v.
Proof.
  intros n v Hn Hv. rewrite upd_same_len0 by auto. apply lenc_unique.
  - lia.
  - apply digits_cons; auto. apply digits_repeat0. lia.
  - cbn. rewrite repeat_length. lia.
  - cbn [lval]. rewrite lval_repeat0. f_equal. lia.
Qed.

Lemma scalar1_ok : forall n v, (1 <= n)%nat -> 0 <= v < B -> scalar1 n v = Ok (lenc W n v).
Proof.
  intros n v Hn Hv. unfold scalar1.
  replace (0 <? n)%nat with true by (symmetry; apply Nat.ltb_lt; lia). cbn [assert_ bind].
  rewrite set_ok by (rewrite repeat_length; lia). f_equal. apply set0_repeat; auto.
Qed.

Lemma scalar2_ok : forall n v, (2 <= n)%nat -> 0 <= v < B * B -> scalar2 n v = Ok (lenc W n v).
Proof.
  intros n v Hn Hv. unfold scalar2.
  replace (0 <? n)%nat with true by (symmetry; apply Nat.ltb_lt; lia). cbn [assert_ bind].
  mstep. rewrite ushr_ok by (pose proof W32; lia). mstep. f_equal. pose proof Bp2.
  assert (0 <= v / B < B).
  { split; [apply Z.div_pos; lia | apply Z.div_lt_upper_bound; lia]. }
  rewrite (ucast_small W (v / B)) by auto.
  pose proof (ucast_range W v Wn).
  apply lenc_unique.
  - lia.
  - repeat apply digits_upd; auto. apply digits_repeat0. lia.
  - len.
  - rewrite !lval_upd by len. rewrite lval_repeat0, nth_upd_other, !nth_repeat_0 by lia.
    rewrite pw_0, pw_1. f_equal. unfold ucast. pose proof (Z.div_mod v B Bnz). lia.
Qed.

Lemma join_ok : forall lo hi, 0 <= lo < B -> 0 <= hi < B -> join_limbs lo hi = Ok (lo + B * hi).
Proof.
  intros lo hi H0 H1. unfold join_limbs. rewrite ushl_ok by (pose proof W32; lia). cbn [bind].
  pose proof pow_2W'. rewrite ucast_small by nia. rewrite lor_add' by lia. f_equal. lia.
Qed.

(** ** Scans *)

Lemma lval_0_iff : forall l, digits W l -> (lval W l = 0 <-> forall v, In v l -> v = 0).
Proof.
  induction l; intros Hd; cbn [lval In]; [split; auto; tauto|].
  apply digits_inv in Hd. destruct Hd as [Ha Hl]. specialize (IHl Hl).
  pose proof (lval_lt_pw l Hl). pose proof Bp2. split.
  - intros E v [<-|Hv]; [nia|]. apply IHl; auto. nia.
  - intros Hz. rewrite (Hz a) by auto. rewrite (proj2 IHl) by auto. lia.
Qed.

Lemma is_zero_ok : forall x i, digits W x -> (i <= length x)%nat ->
  is_zero x i = Ok (lval W (skipn i x) =? 0).
Proof.
  intros x i Hd Hi. unfold is_zero.
  match goal with |- context [for_range ?lo ?hi ?b ?s] =>
    destruct (for_range_ind _ (fun k z => (z : bool) = (lval W (firstn (k - i) (skipn i x)) =? 0)) b lo hi s)
      as (z & E & HI) end; auto.
  - rewrite Nat.sub_diag. reflexivity.
  - intros k z Hk ->. rewrite get_ok by lia. cbn [bind]. eexists. split; [reflexivity|].
    replace (S k - i)%nat with (S (k - i)) by lia.
    assert (Hl : (k - i < length (skipn i x))%nat) by (rewrite skipn_length; lia).
    rewrite (firstn_S_nth _ _ _ 0 Hl), app_snoc_lval.
    replace (nth (k - i) (skipn i x) 0) with (nth k x 0).
    2:{ rewrite <- (firstn_skipn i x) at 1. rewrite app_nth2; rewrite firstn_length_le; auto; lia. }
    pose proof (digits_nth W x k Wn Hd).
    pose proof (lval_lt_pw (firstn (k - i) (skipn i x)) (digits_firstn _ _ _ (digits_skipn _ _ _ Hd))).
    pose proof (pwpos (length (firstn (k - i) (skipn i x)))).
    destruct (Z.eqb_spec (lval W (firstn (k - i) (skipn i x))) 0); destruct (Z.eqb_spec (nth k x 0) 0);
      cbn [andb]; symmetry; first [apply Z.eqb_eq | apply Z.eqb_neq]; nia.
  - rewrite E, HI. do 2 f_equal. rewrite <- (skipn_length i x). rewrite firstn_all. reflexivity.
Qed.

Lemma last_index_ok : forall x, digits W x -> (1 <= length x)%nat ->
  exists i, last_index x = Ok i /\ (i < length x)%nat /\ lval W x < pw (S i) /\
    (i <> 0%nat -> pw i <= lval W x).
Proof.
  intros x Hd HL. unfold last_index.
  assert (G : forall k, (k <= length x)%nat -> lval W x < pw k \/ k = 0%nat ->
    exists i, last_index_loop x k = Ok i /\ (i < length x)%nat /\ (lval W x < pw (S i) \/ k = 0%nat) /\
      (i <> 0%nat -> pw i <= lval W x)).
  { induction k; intros Hk Hlt.
    - exists 0%nat. cbn. repeat split; auto; try lia.
    - destruct Hlt as [Hlt|?]; [|discriminate].
      cbn [last_index_loop]. rewrite get_ok by lia. cbn [bind].
      pose proof (digits_nth W x k Wn Hd) as Hn.
      assert (Ev : lval W x = pv W x k + nth k x 0 * pw k).
      { rewrite <- pv_S by lia. rewrite pv_mod by (auto; lia). symmetry. apply Z.mod_small.
        pose proof (lval_lt_pw x Hd). lia. }
      pose proof (pv_range W x k Wn Hd ltac:(lia)). pose proof (pwpos k).
      destruct (Z.eqb_spec (nth k x 0) 0); cbn [negb].
      + destruct (Nat.eq_dec k 0) as [->|Hk0].
        * exists 0%nat. cbn. repeat split; auto. lia.
        * destruct IHk as (i & E & Hi & Hlt' & Hge); [lia | left; nia |].
          exists i. repeat split; auto. tauto.
      + exists k. repeat split; auto; try lia. intros. nia. }
  destruct (G (length x)) as (i & E & Hi & Hlt & Hge); auto.
  - left. apply lval_lt_pw; auto.
  - exists i. repeat split; auto. destruct Hlt; [auto|lia].
Qed.

Lemma compare_trans_top : forall h1 h2 l1 l2 p, 0 <= l1 < p -> 0 <= l2 < p ->
  (h1 < h2 -> l1 + p * h1 < l2 + p * h2).
Proof. intros. nia. Qed.

Lemma cmp_low_ok : forall k lhs rhs, digits W lhs -> digits W rhs ->
  (k <= length lhs)%nat -> (k <= length rhs)%nat ->
  cmp_low lhs rhs k = Ok (pv W lhs k ?= pv W rhs k).
Proof.
  induction k; intros lhs rhs Hl Hr Kl Kr; cbn [cmp_low].
  - rewrite !pv_0. reflexivity.
  - rewrite !get_ok by lia. cbn [bind]. rewrite !pv_S by lia. rewrite IHk by (auto; lia).
    pose proof (pv_range W lhs k Wn Hl ltac:(lia)).
    pose proof (pv_range W rhs k Wn Hr ltac:(lia)).
    set (a := nth k lhs 0) in *. set (b := nth k rhs 0) in *.
    destruct (Z.ltb_spec b a); [|destruct (Z.ltb_spec a b)]; f_equal; symmetry.
    + apply Z.compare_gt_iff. nia.
    + apply Z.compare_lt_iff. nia.
    + replace a with b by lia. rewrite Z.compare_sub. symmetry. rewrite Z.compare_sub. f_equal. lia.
Qed.

Lemma cmp_high_ok : forall k lhs rhs, digits W lhs -> digits W rhs ->
  (length rhs + k <= length lhs)%nat ->
  cmp_high lhs rhs k = Ok (pv W lhs (length rhs + k) ?= lval W rhs).
Proof.
  induction k; intros lhs rhs Hl Hr Kl; cbn [cmp_high].
  - rewrite cmp_low_ok by (auto; lia). rewrite Nat.add_0_r, pv_full. reflexivity.
  - rewrite get_ok by lia. cbn [bind]. rewrite IHk by (auto; lia).
    replace (length rhs + S k)%nat with (S (length rhs + k)) by lia. rewrite pv_S by lia.
    pose proof (pv_range W lhs (length rhs + k) Wn Hl ltac:(lia)).
    pose proof (lval_lt_pw rhs Hr). pose proof (pw_mono (length rhs) (length rhs + k) ltac:(lia)).
    pose proof (digits_nth W lhs (length rhs + k) Wn Hl).
    set (a := nth (length rhs + k) lhs 0) in *.
    destruct (Z.ltb_spec 0 a); f_equal.
    + symmetry. apply Z.compare_gt_iff. nia.
    + replace a with 0 by lia. f_equal. lia.
Qed.

Lemma div_cmp_ok : forall lhs rhs, digits W lhs -> digits W rhs ->
  div_cmp lhs rhs = Ok (lval W lhs ?= lval W rhs).
Proof.
  intros lhs rhs Hl Hr. unfold div_cmp. destruct (Nat.ltb_spec (length lhs) (length rhs)).
  - rewrite cmp_high_ok by (auto; lia). cbn [bind]. f_equal.
    replace (length lhs + (length rhs - length lhs))%nat with (length rhs) by lia.
    rewrite pv_full. symmetry. apply Z.compare_antisym.
  - rewrite cmp_high_ok by (auto; lia). f_equal.
    replace (length rhs + (length lhs - length rhs))%nat with (length lhs) by lia.
    rewrite pv_full. reflexivity.
Qed.

Lemma truncate_ok : forall n v, digits W v -> (n <= length v)%nat ->
  truncate n v = Ok (lenc W n (lval W v)).
Proof.
  intros n v Hd Hn. unfold truncate.
  replace (n <=? length v)%nat with true by (symmetry; apply Nat.leb_le; lia). cbn [assert_ bind].
  match goal with |- context [for_range ?lo ?hi ?b ?s] =>
    destruct (for_range_ind _ (fun k r => length r = n /\ digits W r /\ pv W r k = pv W v k) b lo hi s)
      as (z & E & HL & HD & HI) end.
  - lia.
  - rewrite repeat_length. split; auto. split; [apply digits_repeat0; lia|]. reflexivity.
  - intros i r Hi (HL & HD & HI). rewrite get_ok by lia. cbn [bind]. rewrite set_ok by lia.
    eexists. split; [reflexivity|]. rewrite length_upd. split; auto. split.
    + apply digits_upd; auto. apply digits_nth; auto; lia.
    + rewrite pv_upd_S, pv_S by lia. rewrite HI. reflexivity.
  - rewrite E. f_equal. apply lenc_unique; auto; [lia|].
    rewrite <- (pv_all W z n HL), HI, pv_mod by auto. rewrite Z.mod_mod; auto.
    pose proof (pwpos n); lia.
Qed.

(** ** Division by one limb *)

Lemma div_rem_word_ok : forall hi lo d, 0 <= hi < d -> d < B -> 0 <= lo < B ->
  div_rem_word hi lo d = Ok ((hi * B + lo) / d, (hi * B + lo) mod d).
Proof.
  intros hi lo d Hh Hd Hlo. unfold div_rem_word.
  replace (hi <? d) with true by (symmetry; apply Z.ltb_lt; lia).
  replace (d =? 0) with false by (symmetry; apply Z.eqb_neq; lia). cbn [negb]. rewrite !dassert_true. cbn [bind].
  rewrite ushl_ok by (pose proof W32; lia). cbn [bind]. pose proof pow_2W'.
  rewrite ucast_small by nia. unfold uadd. rewrite uchk_ok by nia. cbn [bind].
  unfold udiv, urem. replace (d =? 0) with false by (symmetry; apply Z.eqb_neq; lia). cbn [bind].
  assert (0 <= (hi * B + lo) / d < B).
  { split; [apply Z.div_pos; nia | apply Z.div_lt_upper_bound; nia]. }
  pose proof (Z.mod_pos_bound (hi * B + lo) d ltac:(lia)).
  rewrite !ucast_small by lia. reflexivity.
Qed.

Lemma div_rem_word_0 : forall hi lo, 0 <= hi -> div_rem_word hi lo 0 = Panic.
Proof.
  intros. unfold div_rem_word. replace (hi <? 0) with false by (symmetry; apply Z.ltb_ge; lia).
  unfold dassert. destruct dbg; [reflexivity|]. cbn [bind].
  rewrite ushl_ok by (pose proof W32; lia). cbn [bind].
  unfold uadd, uchk. repeat (match goal with |- context [if ?b then _ else _] => destruct b end); reflexivity.
Qed.

Definition dlimb_inv (x : list Z) (d : Z) (k : nat) (s : list Z * Z) : Prop :=
  let m := length x in
  length (fst s) = m /\ digits W (fst s) /\ 0 <= snd s < d /\
  pv W (fst s) (m - k) = pv W x (m - k) /\
  lval W (skipn (m - k) (fst s)) * d + snd s = lval W (skipn (m - k) x).

Lemma skipn_S_lval : forall l k, (k < length l)%nat ->
  lval W (skipn k l) = nth k l 0 + B * lval W (skipn (S k) l).
Proof. intros. rewrite skipn_S_nth by auto. reflexivity. Qed.

Lemma firstn_eq_nth : forall (l l' : list Z) k i, firstn k l = firstn k l' -> (i < k)%nat ->
  nth i l 0 = nth i l' 0.
Proof.
  induction l; destruct l' as [|b l']; intros [|k] i E H; cbn in *; try lia; try discriminate; auto.
  inversion E; subst. destruct i; auto. apply (IHl l' k); auto. lia.
Qed.

Lemma pv_eq_nth : forall l l' k i, digits W l -> digits W l' -> length l = length l' ->
  (k <= length l)%nat -> pv W l k = pv W l' k -> (i < k)%nat -> nth i l 0 = nth i l' 0.
Proof.
  intros l l' k i H1 H2 HL Hk E Hi. apply (firstn_eq_nth l l' k); auto.
  apply (lval_inj W); auto using digits_firstn; [lia|]. rewrite !firstn_length_le; lia.
Qed.

Lemma div_limb_ok : forall x d, digits W x -> (1 <= length x)%nat -> 0 < d < B ->
  div_limb x d = Ok (lenc W (length x) (lval W x / d), lval W x mod d).
Proof.
  intros x d Hx HL Hd. unfold div_limb. pose proof (lval_lt_pw x Hx) as Hr.
  assert (Hloop : for_range 0 (length x) (fun k s => let '(num, r) := s in
      let i := (length x - 1 - k)%nat in
      let* d0 := get num i in
      let* (q, ri) := div_rem_word r d0 d in
      let* num := set num i q in
      Ok (num, ri)) (x, 0) = Ok (lenc W (length x) (lval W x / d), lval W x mod d)).
  { match goal with |- context [for_range ?lo ?hi ?b ?s] =>
      destruct (for_range_ind _ (dlimb_inv x d) b lo hi s) as ((q & r) & E & L & D & Hr' & _ & Ev) end.
    - lia.
    - unfold dlimb_inv. cbn [fst snd]. rewrite !Nat.sub_0_r.
      rewrite !skipn_all2 by lia. cbn [lval]. repeat split; auto; lia.
    - intros k (num & r) Hk (L & D & Hr' & Ep & Ev). cbn [fst snd] in *.
      rewrite get_ok by lia. cbn [bind].
      pose proof (digits_nth W num (length x - 1 - k) Wn D) as Hn.
      rewrite div_rem_word_ok by lia. cbn [bind]. rewrite set_ok by lia. cbn [bind].
      eexists. split; [reflexivity|]. unfold dlimb_inv. cbn [fst snd].
      set (i := (length x - 1 - k)%nat) in *.
      replace (length x - S k)%nat with i by lia. replace (length x - k)%nat with (S i) in * by lia.
      set (v := nth i num 0) in *. set (t := r * B + v) in *.
      assert (Hq : 0 <= t / d < B).
      { unfold t. split; [apply Z.div_pos; nia | apply Z.div_lt_upper_bound; nia]. }
      pose proof (Z.mod_pos_bound t d ltac:(lia)).
      rewrite length_upd. split; auto. split; [apply digits_upd; auto|]. split; auto. split.
      + rewrite pv_upd_ge by lia. rewrite !pv_S in Ep by lia.
        assert (En : nth i num 0 = nth i x 0).
        { apply (pv_eq_nth num x (S i)); auto; try lia. rewrite !pv_S by lia. auto. }
        rewrite En in Ep. lia.
      + assert (En : v = nth i x 0).
        { apply (pv_eq_nth num x (S i)); auto; try lia. }
        rewrite (skipn_S_lval (upd _ _ _) i), (skipn_S_lval x i) by len. rewrite skipn_upd_lt by lia. rewrite nth_upd_same by lia.
        rewrite <- Ev, <- En. rewrite (Z.mul_add_distr_r), <- Z.mul_assoc.
        pose proof (Z.div_mod t d ltac:(lia)). unfold t in *. nia.
    - rewrite E. cbn [fst snd] in *. rewrite Nat.sub_diag in Ev. cbn [skipn] in Ev.
      f_equal. f_equal.
      + rewrite <- L. apply lenc_unique; auto; [lia|]. f_equal.
        apply Z.div_unique with (r := r); lia.
      + apply Z.mod_unique with (q := lval W q); lia. }
  destruct (Nat.leb_spec 2 (length x)) as [H2|H2]; [|cbn [bind]; exact Hloop].
  rewrite is_zero_ok by auto. cbn [bind].
  destruct (Z.eqb_spec (lval W (skipn 2 x)) 0) as [Ez|Ez]; [|exact Hloop].
  clear Hloop. rewrite !get_ok by lia. cbn [bind].
  rewrite join_ok by (apply digits_nth; auto; lia). cbn [bind].
  assert (Ex : nth 0 x 0 + B * nth 1 x 0 = lval W x).
  { rewrite (lval_split W x 2) by lia. rewrite Ez. rewrite !pv_S, pv_0 by lia. rewrite pw_0, pw_1. lia. }
  rewrite Ex. unfold udiv, urem. replace (d =? 0) with false by (symmetry; apply Z.eqb_neq; lia). cbn [bind].
  pose proof (digits_nth W x 0 Wn Hx). pose proof (digits_nth W x 1 Wn Hx).
  rewrite scalar2_ok; auto.
  - cbn [bind]. pose proof (Z.mod_pos_bound (lval W x) d ltac:(lia)). rewrite ucast_small by lia. reflexivity.
  - split; [apply Z.div_pos; lia|]. apply Z.div_lt_upper_bound; nia.
Qed.

Lemma div_limb_0 : forall x, digits W x -> (1 <= length x)%nat -> div_limb x 0 = Panic.
Proof.
  intros x Hx HL. unfold div_limb.
  assert (Hloop : for_range 0 (length x) (fun k s => let '(num, r) := s in
      let i := (length x - 1 - k)%nat in
      let* d0 := get num i in
      let* (q, ri) := div_rem_word r d0 0 in
      let* num := set num i q in
      Ok (num, ri)) (x, 0) = Panic).
  { unfold for_range. destruct (length x) as [|m] eqn:E; [lia|]. cbn [Nat.sub for_m].
    rewrite get_ok by lia. cbn [bind]. rewrite div_rem_word_0 by lia. reflexivity. }
  destruct (Nat.leb_spec 2 (length x)) as [H2|H2]; [|cbn [bind]; exact Hloop].
  rewrite is_zero_ok by auto. cbn [bind].
  destruct (Z.eqb_spec (lval W (skipn 2 x)) 0) as [Ez|Ez]; [|exact Hloop].
  rewrite !get_ok by lia. cbn [bind].
  rewrite join_ok by (apply digits_nth; auto; lia). reflexivity.
Qed.

Lemma limb_padded_ok : forall x n d, digits W x -> (1 <= length x)%nat -> (1 <= n)%nat -> 0 < d < B ->
  limb_padded x n d = Ok (lenc W (length x) (lval W x / d), lenc W n (lval W x mod d)).
Proof.
  intros x n d Hx HL Hn Hd. unfold limb_padded. rewrite div_limb_ok by auto. cbn [bind].
  pose proof (Z.mod_pos_bound (lval W x) d ltac:(lia)). rewrite scalar1_ok by (auto; lia). reflexivity.
Qed.

(** ** [ArrayPlusOne] *)

Definition flat (a : list Z * Z) : list Z := fst a ++ [snd a].

Lemma length_flat : forall a, length (flat a) = S (length (fst a)).
Proof. intros. unfold flat. rewrite app_length. cbn. lia. Qed.

Lemma apo_get_ok : forall a i, (i <= length (fst a))%nat -> apo_get a i = Ok (nth i (flat a) 0).
Proof.
  intros a i Hi. unfold apo_get, flat. destruct (Nat.eqb_spec i (length (fst a))).
  - subst. rewrite app_nth2, Nat.sub_diag by lia. reflexivity.
  - rewrite get_ok by lia. rewrite app_nth1 by lia. reflexivity.
Qed.

Lemma apo_set_ok : forall a i v, (i <= length (fst a))%nat ->
  exists a', apo_set a i v = Ok a' /\ length (fst a') = length (fst a) /\ flat a' = upd (flat a) i v.
Proof.
  intros a i v Hi. unfold apo_set, flat. destruct (Nat.eqb_spec i (length (fst a))).
  - eexists. split; [reflexivity|]. cbn [fst snd]. split; auto. subst.
    rewrite <- (Nat.add_0_r (length (fst a))) at 1. rewrite upd_app_r. reflexivity.
  - rewrite set_ok by lia. cbn [bind]. eexists. split; [reflexivity|]. cbn [fst snd].
    rewrite length_upd. split; auto. rewrite upd_app_l by lia. reflexivity.
Qed.

(** ** Word multiplication and shifts *)

Lemma full_mul_u64_ok : forall a b, digits W a -> 0 <= b < B ->
  exists r, full_mul_u64 a b = Ok r /\ length (fst r) = length a /\ digits W (flat r) /\
    lval W (flat r) = lval W a * b.
Proof.
  intros a b Ha Hb. unfold full_mul_u64.
  match goal with |- context [for_range ?lo ?hi ?f ?s0] =>
    destruct (for_range_ind _ (fun i (s : list Z * Z) => length (fst s) = length a /\ digits W (fst s) /\
      0 <= snd s < B /\ pv W (fst s) i + snd s * pw i = pv W a i * b) f lo hi s0)
      as ((out & cy) & E & HL & HD & Hc & Ev) end.
  - lia.
  - cbn [fst snd]. rewrite repeat_length. pose proof Bp2. repeat split; auto; try lia.
    apply digits_repeat0; lia.
  - intros i (out & cy) Hi (HL & HD & Hc & Ev). cbn [fst snd] in *.
    rewrite get_ok by lia. cbn [bind]. unfold umul, uadd.
    pose proof (digits_nth W a i Wn Ha) as Hv. set (v := nth i a 0) in *. pose proof pow_2W'.
    rewrite uchk_ok by nia. cbn [bind]. rewrite uchk_ok by nia. cbn [bind].
    rewrite set_ok by lia. cbn [bind]. rewrite ushr_ok by (pose proof W32; lia). cbn [bind].
    eexists. split; [reflexivity|]. cbn [fst snd]. rewrite length_upd.
    set (t := v * b + cy) in *. assert (Ht : 0 <= t < B * B) by (unfold t; nia). pose proof Bp2.
    assert (0 <= t / B < B).
    { split; [apply Z.div_pos; lia | apply Z.div_lt_upper_bound; lia]. }
    rewrite (ucast_small W (t / B)) by auto. pose proof (ucast_range W t Wn).
    repeat split; auto; try lia.
    + apply digits_upd; auto.
    + rewrite pv_upd_S, pv_S, pw_S by lia. fold v. unfold ucast.
      pose proof (Z.div_mod t B Bnz) as Et.
      replace (t mod B) with (t - B * (t / B)) by lia. unfold t at 1. nia.
  - exists (out, cy). cbn [fst snd flat] in *. split; auto. split; auto. split.
    + apply digits_app. split; auto. apply digits_one; auto.
    + unfold flat. cbn [fst snd]. rewrite app_snoc_lval. rewrite HL.
      rewrite <- HL in Ev at 1. rewrite pv_full in Ev. rewrite pv_full in Ev. lia.
Qed.

Lemma full_shl_ok : forall v s, digits W v -> (1 <= length v)%nat -> 0 <= s < W ->
  exists r, full_shl v s = Ok r /\ length (fst r) = length v /\ digits W (flat r) /\
    lval W (flat r) = lval W v * 2 ^ s.
Proof.
  intros v s Hv HL Hs. unfold full_shl.
  replace (s <? W) with true by (symmetry; apply Z.ltb_lt; lia). rewrite dassert_true. cbn [bind]. pose proof Bp2.
  destruct (Z.eqb_spec s 0) as [->|Hs0].
  - exists (v, 0). split; auto. split; auto. unfold flat. cbn [fst snd]. split.
    + apply digits_app; split; auto. apply digits_one. lia.
    + rewrite app_snoc_lval. change (2 ^ 0) with 1. lia.
  - mstep. pose proof W32.
    assert (EB : B = 2 ^ (W - s) * 2 ^ s) by (rewrite <- Z.pow_add_r by lia; f_equal; lia).
    assert (Hws : 0 <= W - s) by lia. pose proof (pow2_pos s (proj1 Hs)). pose proof (pow2_pos (W - s) Hws).
    assert (EL : forall x, 0 <= x < B -> let lo := ucast W (x * 2 ^ s) in let cy := x / 2 ^ (W - s) in
      0 <= cy < 2 ^ s /\ lo = x * 2 ^ s - B * cy /\ exists a, lo = a * 2 ^ s /\ 0 <= lo < B).
    { intros x Hx lo cy. assert (Ecy : (x * 2 ^ s) / B = cy).
      { rewrite EB. unfold cy. apply Z.div_mul_cancel_r; lia. }
      split; [|split].
      - unfold cy. split; [apply Z.div_pos; lia|]. apply Z.div_lt_upper_bound; lia.
      - unfold lo, ucast. rewrite <- Ecy. rewrite Z.mod_eq by lia. lia.
      - exists (x mod 2 ^ (W - s)). split; [|apply ucast_range; lia].
        unfold lo, ucast. rewrite EB. rewrite Z.mul_mod_distr_r by lia. reflexivity. }
    rewrite (ushl_ok _ _ s) by lia. mstep.
    match goal with |- context [for_range ?lo ?hi ?f ?s0] =>
      destruct (for_range_ind _ (fun i (r : list Z) => (1 <= i)%nat /\ length r = length v /\ digits W r /\
        pv W r i + (nth (i - 1) v 0 / 2 ^ (W - s)) * pw i = pv W v i * 2 ^ s) f lo hi s0)
        as (out & E & _ & HLo & HDo & Ev) end.
    + lia.
    + pose proof (digits_nth W v 0 Wn Hv) as Hn0. destruct (EL _ Hn0) as (Hc & El & _ & _ & Hlo).
      cbn in El, Hc. split; auto. rewrite length_upd, repeat_length. split; auto. split.
      * apply digits_upd; auto. apply digits_repeat0; lia.
      * rewrite pv_upd_S, pv_S, !pv_0, pw_0, pw_1 by len. cbn [Nat.sub]. rewrite El. lia.
    + intros i r Hi (_ & HLr & HDr & Ev). mstep. rewrite Winv by lia. mstep. rewrite ushr_ok, ushl_ok by lia. mstep.
      eexists. split; [reflexivity|]. split; [lia|]. rewrite length_upd.
      pose proof (digits_nth W v i Wn Hv) as Hn0. destruct (EL _ Hn0) as (Hc & El & a & Ea & Hlo).
      pose proof (digits_nth W v (i - 1) Wn Hv) as Hn3. destruct (EL _ Hn3) as (Hc' & El' & _).
      cbv zeta in *. set (lo := ucast W (nth i v 0 * 2 ^ s)) in *.
      set (p := nth (i - 1) v 0 / 2 ^ (W - s)) in *.
      assert (Ed : Z.lor p lo = p + lo) by (rewrite Ea; apply lor_add'; lia).
      rewrite Ed. assert (p + lo < B).
      { assert (a < 2 ^ (W - s)) by nia. nia. }
      split; [lia|]. split; [apply digits_upd; auto; lia|].
      replace (S i - 1)%nat with i by lia.
      rewrite pv_upd_S, pv_S, pw_S by lia. rewrite El. nia.
    + rewrite E. cbn [bind]. rewrite Winv by lia. cbn [bind]. rewrite ushr_ok by lia. cbn [bind].
      pose proof (digits_nth W v (length v - 1) Wn Hv) as Hn0.
      destruct (EL _ Hn0) as (Hc & _). cbv zeta in Hc.
      eexists. split; [reflexivity|]. cbn [fst snd]. split; auto. unfold flat. cbn [fst snd].
      assert (2 ^ s <= B) by (apply pow2_le_mono; lia).
      split; [apply digits_app; split; auto; apply digits_one; lia|].
      rewrite app_snoc_lval, HLo. rewrite <- HLo in Ev at 1. rewrite pv_full in Ev.
      rewrite pv_full in Ev. exact Ev.
Qed.

Lemma full_shr_ok : forall a s, digits W (fst a) -> (1 <= length (fst a))%nat -> 0 <= s < W ->
  full_shr a s = Ok (lenc W (length (fst a)) (lval W (fst a) / 2 ^ s)).
Proof.
  intros a s Hv HL Hs. unfold full_shr. destruct a as [l t]. cbn [fst] in *. clear t.
  replace (s <? W) with true by (symmetry; apply Z.ltb_lt; lia). rewrite dassert_true. cbn [bind]. pose proof Bp2.
  destruct (Z.eqb_spec s 0) as [->|Hs0].
  - change (2 ^ 0) with 1. rewrite Z.div_1_r. rewrite lenc_lval by (auto; lia). reflexivity.
  - pose proof W32.
    assert (EB : B = 2 ^ (W - s) * 2 ^ s) by (rewrite <- Z.pow_add_r by lia; f_equal; lia).
    assert (Hws : 0 <= W - s) by lia. pose proof (pow2_pos s (proj1 Hs)) as Hp. pose proof (pow2_pos (W - s) Hws) as Hp'.
    match goal with |- context [for_range ?lo ?hi ?f ?s0] =>
      destruct (for_range_ind _ (fun i (r : list Z) => length r = length l /\ digits W r /\
        (pv W l i + (nth i l 0 mod 2 ^ s) * pw i) / 2 ^ s = pv W r i) f lo hi s0)
        as (out & E & HLo & HDo & Ev) end.
    + lia.
    + rewrite repeat_length. split; auto. split; [apply digits_repeat0; lia|].
      rewrite !pv_0, pw_0. rewrite Z.mul_1_r. apply Z.div_small.
      apply Z.mod_pos_bound. lia.
    + intros i r Hi (HLr & HDr & Ev). mstep. rewrite Winv by lia. mstep. rewrite ushr_ok, ushl_ok by lia. mstep.
      eexists. split; [reflexivity|]. rewrite length_upd.
      pose proof (digits_nth W l i Wn Hv) as Hn0.
      pose proof (digits_nth W l (i + 1) Wn Hv) as Hn1.
      set (x := nth i l 0) in *. replace (S i) with (i + 1)%nat by lia. set (y := nth (i + 1) l 0) in *.
      assert (Ey : ucast W (y * 2 ^ (W - s)) = (y mod 2 ^ s) * 2 ^ (W - s)).
      { unfold ucast. rewrite EB, (Z.mul_comm (2 ^ (W - s))). rewrite Z.mul_mod_distr_r by lia. reflexivity. }
      rewrite Ey.
      assert (Hx : 0 <= x / 2 ^ s < 2 ^ (W - s)).
      { split; [apply Z.div_pos; lia | apply Z.div_lt_upper_bound; lia]. }
      pose proof (Z.mod_pos_bound y (2 ^ s) Hp) as Hy.
      rewrite lor_add' by lia.
      split; auto. split; [apply digits_upd; auto; nia|].
      replace (i + 1)%nat with (S i) by lia. rewrite pv_upd_S, pv_S, pw_S by lia. fold x.
      rewrite <- Ev. pose proof (Z.div_mod x (2 ^ s) ltac:(lia)) as Ex.
      replace (pv W l i + x * pw i + y mod 2 ^ s * (B * pw i))
        with ((pv W l i + x mod 2 ^ s * pw i) + (x / 2 ^ s + y mod 2 ^ s * 2 ^ (W - s)) * pw i * 2 ^ s).
      2:{ rewrite EB. rewrite Ex at 3. ring. }
      rewrite Z.div_add by lia. reflexivity.
    + rewrite E. cbn [bind]. mstep. rewrite ushr_ok by lia. mstep. f_equal.
      set (n := (length l - 1)%nat) in *.
      pose proof (digits_nth W l n Wn Hv) as Hn0. set (x := nth n l 0) in *.
      assert (Hx : 0 <= x / 2 ^ s < B).
      { split; [apply Z.div_pos; lia | apply Z.div_lt_upper_bound; nia]. }
      apply lenc_unique; [lia | apply digits_upd; auto | len |]. f_equal.
      rewrite (lval_last W _ n) by len. rewrite (lval_last W l n) by lia.
      rewrite pv_upd_ge, nth_upd_same by lia. fold x.
      rewrite <- Ev. pose proof (Z.div_mod x (2 ^ s) ltac:(lia)) as Ex.
      replace (pv W l n + x * pw n) with ((pv W l n + x mod 2 ^ s * pw n) + (x / 2 ^ s) * pw n * 2 ^ s).
      2:{ rewrite Ex at 3. ring. }
      rewrite Z.div_add by lia. reflexivity.
Qed.

End P.
