(** * Proofs about MMul.v *)

Require Import ZArith List Bool Lia.
From Verif Require Import Prim Spec Facts MAdd PAdd PAddS MMul.
Import ListNotations.
Local Open Scope Z_scope.

Section P.
Context {c : Cfg}.
Hypothesis HW : 1 <= W <= 64.

Local Notation B := (2 ^ W).
Local Notation pw n := (2 ^ (W * Z.of_nat n)).
Local Notation W0 := (W0 HW).
Local Notation W1 := (W1 HW).

Lemma mac_ok : forall a b d cy, 0 <= a < B -> 0 <= b < B -> 0 <= d < B -> 0 <= cy < B ->
  exists lo hi, mac a b d cy = Ok (lo, hi) /\ 0 <= lo < B /\ 0 <= hi < B /\
    lo + B * hi = a + b * d + cy.
Proof.
  intros a b d cy Ha Hb Hd Hc. unfold mac, umul, uadd.
  assert (E2 : 2 ^ (2 * W) = B * B) by (rewrite <- Z.pow_add_r by lia; f_equal; lia).
  rewrite uchk_ok by nia. cbn [bind]. rewrite uchk_ok by nia. cbn [bind].
  rewrite uchk_ok by nia. cbn [bind]. rewrite ushr_ok by lia. cbn [bind].
  set (v := a + b * d + cy). pose proof (Bpos HW).
  assert (0 <= v < B * B) by nia.
  assert (0 <= v / B < B).
  { split; [apply Z.div_pos; lia | apply Z.div_lt_upper_bound; lia]. }
  exists (ucast W v), (ucast W (v / B)). split; [reflexivity|].
  rewrite (ucast_small W (v / B)) by auto.
  pose proof (ucast_range W v W0). repeat split; try lia.
  unfold ucast. rewrite (Z.div_mod v B) at 3 by lia. lia.
Qed.

Lemma pv_mono : forall l j k, digits W l -> (j <= k)%nat -> (k <= length l)%nat -> pv W l j <= pv W l k.
Proof.
  intros l j k Hd H. induction H; intros; [lia|].
  rewrite pv_S by lia. pose proof (digits_nth W l m W0 Hd).
  pose proof (pow2_pos _ (pw0 HW m)). specialize (IHle ltac:(lia)). nia.
Qed.

(** Inner row loop: accumulate [xi * y] at offset [i]. *)
Definition row_inv (m : nat) (r0 : list Z) (xi : Z) (y : list Z) (i : nat) (J : nat)
    (j : nat) (r : list Z) (carry : Z) : Prop :=
  length r = m /\ digits W r /\ 0 <= carry < B /\
  (forall k, (i + J <= k)%nat -> nth k r 0 = nth k r0 0) /\
  lval W r + carry * pw (i + j) = lval W r0 + xi * pv W y j * pw i.

Lemma row_init : forall m r0 xi y i J, length r0 = m -> digits W r0 ->
  row_inv m r0 xi y i J 0 r0 0.
Proof.
  intros. pose proof (Bpos HW). unfold row_inv. rewrite pv_0. repeat split; auto; lia.
Qed.

Lemma row_step : forall m r0 xi y i J j r carry, row_inv m r0 xi y i J j r carry ->
  (j < J)%nat -> (j < length y)%nat -> (i + j < m)%nat -> digits W y -> 0 <= xi < B ->
  exists v cy, mac (nth (i + j) r 0) xi (nth j y 0) carry = Ok (v, cy) /\
    row_inv m r0 xi y i J (S j) (upd r (i + j) v) cy.
Proof.
  intros m r0 xi y i J j r carry (HL & Hd & Hc & Hz & E) Hj Hjy Hij Hy Hxi.
  destruct (mac_ok (nth (i + j) r 0) xi (nth j y 0) carry) as (v & cy & Em & Hv & Hcy & Ev);
    auto using (digits_nth W), W0.
  exists v, cy. split; auto. unfold row_inv. rewrite length_upd. repeat split; auto; try tauto.
  - apply digits_upd; auto.
  - intros k Hk. rewrite nth_upd_other by lia. auto.
  - rewrite lval_upd by lia. rewrite pv_S by lia.
    replace (i + S j)%nat with (S (i + j)) by lia. rewrite pow2_S by lia.
    replace (pw (i + j)) with (pw i * pw j) in * by (rewrite <- pow2_add_nat by lia; auto).
    replace (xi * (pv W y j + nth j y 0 * pw j) * pw i)
      with (xi * pv W y j * pw i + (xi * nth j y 0) * (pw i * pw j)) by ring.
    replace (xi * nth j y 0) with (v + B * cy - nth (i + j) r 0 - carry) by lia.
    replace (xi * pv W y j * pw i) with (lval W r + carry * (pw i * pw j) - lval W r0) by lia. ring.
Qed.

(** After the row, with the carry stored or dropped: [d] counts how much was
    dropped, in units of [2^(W*m)]. *)
Definition mul_inv (m : nat) (x y : list Z) (i : nat) (r : list Z) (Q : Z) : Prop :=
  length r = m /\ digits W r /\ 0 <= Q /\
  (forall k, (i + length y <= k)%nat -> nth k r 0 = 0) /\
  lval W r + Q * pw m = pv W x i * lval W y.

Definition dropped (m n : nat) (xi : Z) (y : list Z) (i : nat) (carry : Z) : Z :=
  (if (i + n <? m)%nat then 0 else carry) +
  xi * lval W (skipn (Nat.min n (m - i)) y).

Lemma row_done : forall m x y i r0 Q r carry,
  mul_inv m x y i r0 Q -> (i < length x)%nat -> (length y <= m)%nat -> (1 <= length y)%nat -> (i < m)%nat ->
  digits W x -> digits W y ->
  row_inv m r0 (nth i x 0) y i (Nat.min (length y) (m - i)) (Nat.min (length y) (m - i)) r carry ->
  mul_inv m x y (S i) (if (i + length y <? m)%nat then upd r (i + length y) carry else r)
    (Q + dropped m (length y) (nth i x 0) y i carry) /\
  0 <= dropped m (length y) (nth i x 0) y i carry.
Proof.
  intros m x y i r0 Q r carry (HL0 & Hd0 & HQ & Hz0 & E0) Hm Hn Hn1 Hi Hx Hy (HL & Hd & Hc & Hz & E).
  set (n := length y) in *. set (J := Nat.min n (m - i)) in *.
  assert (HJ : (J <= length y)%nat) by (fold n; lia).
  pose proof (digits_nth W x i W0 Hx) as Hxi.
  pose proof (lval_range W (skipn J y) W0 (digits_skipn W J y Hy)) as Hs.
  assert (HD : 0 <= dropped m n (nth i x 0) y i carry).
  { unfold dropped. fold J. destruct (i + n <? m)%nat; nia. }
  split; [|exact HD].
  assert (Exy : pv W x (S i) * lval W y = pv W x i * lval W y + nth i x 0 * lval W y * pw i).
  { rewrite pv_S by lia. ring. }
  assert (Ey : lval W y = pv W y J + pw J * lval W (skipn J y)) by (apply lval_split; auto; lia).
  unfold mul_inv. rewrite Exy, <- E0. fold n.
  destruct (Nat.ltb_spec (i + n) m) as [L|L].
  - assert (J = n) by lia.
    assert (Hnr : nth (i + n) r 0 = 0).
    { rewrite Hz by lia. apply Hz0. fold n; lia. }
    assert (Es : lval W (skipn J y) = 0).
    { rewrite H. unfold n. rewrite skipn_all. reflexivity. }
    rewrite length_upd. repeat split; auto; try lia.
    + apply digits_upd; auto.
    + intros k Hk. rewrite nth_upd_other by lia. rewrite Hz by lia. apply Hz0. fold n; lia.
    + rewrite lval_upd by lia. rewrite Hnr. unfold dropped. fold J.
      rewrite Es. destruct (Nat.ltb_spec (i + n) m); [|lia].
      rewrite Es in Ey. rewrite Ey.
      replace (i + J)%nat with (i + n)%nat in E by lia. lia.
  - assert (J = m - i)%nat by lia. repeat split; auto; try lia.
    + intros k Hk. apply nth_overflow. lia.
    + unfold dropped. fold J. destruct (Nat.ltb_spec (i + n) m); [lia|].
      replace (i + J)%nat with m in E by lia.
      replace (pw m) with (pw i * pw J) in * by (rewrite <- pow2_add_nat by lia; do 3 f_equal; lia).
      rewrite Ey.
      replace (nth i x 0 * (pv W y J + pw J * lval W (skipn J y)) * pw i)
        with (nth i x 0 * pv W y J * pw i + nth i x 0 * lval W (skipn J y) * (pw i * pw J)) by ring.
      replace (nth i x 0 * pv W y J * pw i) with (lval W r + carry * (pw i * pw J) - lval W r0) by lia.
      ring.
Qed.

Lemma mul_inv_init : forall m x y, mul_inv m x y 0 (repeat 0 m) 0.
Proof.
  intros. repeat split.
  - apply repeat_length.
  - apply digits_repeat0; lia.
  - lia.
  - intros; apply nth_repeat_0.
  - rewrite lval_repeat0, pv_0. lia.
Qed.

Lemma mul_wrapping_full_ok : forall x y, (1 <= length y <= length x)%nat ->
  digits W x -> digits W y ->
  mul_wrapping_full x y = Ok (lenc W (length x) (lval W x * lval W y)).
Proof.
  intros x y Hn Hx Hy. unfold mul_wrapping_full.
  remember (length x) as m eqn:Em.
  replace (length y <=? m)%nat with true by (symmetry; apply Nat.leb_le; lia). cbn [assert_ bind].
  match goal with |- for_range ?lo ?hi ?b ?s = _ =>
    destruct (for_range_inv _ (fun i r => exists Q, mul_inv m x y i r Q) b lo hi s) as (r & E & Q & HI) end.
  - lia.
  - intros i r0 Hi (Q & I). pose proof I as (HL & Hd & _). mstep.
    match goal with |- context [for_range ?lo ?hi ?b ?s] =>
      destruct (for_range_inv _
        (fun j st => row_inv m r0 (nth i x 0) y i (Nat.min (length y) (m - i)) j (fst st) (snd st))
        b lo hi s) as ((r1 & cy1) & E1 & HR) end.
    + lia.
    + intros j (r1 & cy1) Hj IR. cbn [fst snd] in IR. pose proof IR as (HL1 & _). mstep.
      destruct (row_step _ _ _ _ _ _ _ _ _ IR) as (v & cy & Em' & IR'); try lia; auto.
      { apply digits_nth; auto using W0. }
      rewrite Em'. mstep. eexists; split; [reflexivity|]. exact IR'.
    + apply row_init; auto.
    + cbn [fst snd] in HR. rewrite E1. cbn [bind]. pose proof HR as (HL1 & _).
      destruct (row_done m x y i r0 Q r1 cy1) as (ID & _); auto; try lia.
      destruct (Nat.ltb_spec (i + length y) m) as [L|L].
      * replace (length y <? m)%nat with true by (symmetry; apply Nat.ltb_lt; lia). cbn [andb].
        mstep. eexists; split; [reflexivity|]. eexists; exact ID.
      * rewrite andb_false_r. eexists; split; [reflexivity|]. eexists; exact ID.
  - exists 0. apply mul_inv_init.
  - rewrite E. f_equal. destruct HI as (HL & Hd & HQ & _ & EQ).
    apply lenc_unique; auto; [lia|]. rewrite pv_all in EQ by auto.
    apply mod_eq_intro with (k := - Q); [|lia]. pose proof (pw_pos HW m). lia.
Qed.

Lemma skipn_S_nth : forall (l : list Z) k, (k < length l)%nat -> skipn k l = nth k l 0 :: skipn (S k) l.
Proof.
  induction l; intros k H; cbn [length] in H; [lia|].
  destruct k; auto. cbn [skipn nth]. rewrite IHl by lia. reflexivity.
Qed.

Lemma lval_nonneg : forall l, digits W l -> 0 <= lval W l.
Proof. intros. apply lval_range; auto. apply W0. Qed.

Lemma lval_pos_skipn : forall l j k, digits W l -> (j <= k)%nat -> (k < length l)%nat ->
  0 < nth k l 0 -> 0 < lval W (skipn j l).
Proof.
  intros l j k Hd H. revert l Hd. induction H; intros l Hd HL Hp.
  - rewrite (skipn_S_nth l j) by auto. cbn [lval].
    pose proof (lval_nonneg (skipn (S j) l) (digits_skipn _ _ _ Hd)). pose proof (Bpos HW). nia.
  - destruct l as [|a l]; cbn [length] in HL; [lia|]. cbn [nth] in Hp. apply digits_inv in Hd.
    destruct j as [|j]; cbn [skipn].
    + cbn [lval]. specialize (IHle l (proj2 Hd) ltac:(lia) Hp). cbn [skipn] in IHle.
      pose proof (Bpos HW). nia.
    + assert (0 < lval W (skipn (S j) l)) by (apply IHle; [tauto|lia|auto]).
      destruct (Nat.lt_ge_cases j (length l)).
      * rewrite (skipn_S_nth l j) by auto. cbn [lval].
        pose proof (digits_nth W l j W0 (proj2 Hd)). pose proof (Bpos HW). nia.
      * rewrite skipn_all2 in H0 by lia. cbn in H0. lia.
Qed.

(** Second phase of the overflow-checking row: digits beyond the array. *)
Lemma mul_overflowing_full_ok : forall x y, (1 <= length y <= length x)%nat ->
  digits W x -> digits W y ->
  exists f, mul_overflowing_full x y = Ok (lenc W (length x) (lval W x * lval W y), f) /\
  (f = true <-> pw (length x) <= lval W x * lval W y).
Proof.
  intros x y Hn Hx Hy. unfold mul_overflowing_full.
  remember (length x) as m eqn:Em.
  replace (length y <=? m)%nat with true by (symmetry; apply Nat.leb_le; lia). cbn [assert_ bind].
  match goal with |- context [for_range ?lo ?hi ?b ?s] =>
    destruct (for_range_inv _ (fun i st => exists Q, mul_inv m x y i (fst st) Q /\ (snd st = true <-> 0 < Q)) b lo hi s)
      as ((r & ov) & E & Q & HI & HF) end.
  - lia.
  - intros i (r0 & ov0) Hi (Q & I & F). cbn [fst snd] in *. pose proof I as (HL & Hd & HQ & _). mstep.
    set (J := Nat.min (length y) (m - i)).
    match goal with |- context [for_range ?lo ?hi ?b ?s] =>
      assert (IL : exists r1 cy1 ov1 bk1,
        for_range lo hi b s = Ok (r1, cy1, ov1, bk1) /\
        row_inv m r0 (nth i x 0) y i J J r1 cy1 /\
        (ov1 = true <-> ov0 = true \/ 0 < nth i x 0 * lval W (skipn J y))) end.
    { unfold for_range. rewrite Nat.sub_0_r.
      match goal with |- context [for_m (length y) ?lo ?b ?s] =>
        replace (for_m (length y) lo b s) with (for_m (J + (length y - J)) lo b s) by (f_equal; lia) end.
      rewrite for_m_app.
      match goal with |- context [for_m J ?lo ?b ?s] =>
        destruct (for_m_inv _
          (fun j st => let '(r1, cy1, ov1, bk1) := st in
             row_inv m r0 (nth i x 0) y i J j r1 cy1 /\ ov1 = ov0 /\ bk1 = false)
          b J lo s) as ((((r1 & cy1) & ov1) & bk1) & E1 & HR & Hov & Hbk) end.
      - intros j (((r1 & cy1) & ov1) & bk1) Hj (IR & -> & ->). pose proof IR as (HL1 & _). mstep.
        replace (i + j <? m)%nat with true by (symmetry; apply Nat.ltb_lt; lia). mstep.
        destruct (row_step _ _ _ _ _ _ _ _ _ IR) as (v & cy & Em' & IR'); try lia; auto.
        { apply digits_nth; auto using W0. }
        rewrite Em'. mstep. eexists; split; [reflexivity|]. cbv beta iota. auto.
      - split; auto. apply row_init; auto.
      - rewrite E1. cbn [bind]. cbn [plus] in *. subst ov1 bk1.
        match goal with |- context [for_m (length y - J) ?lo ?b ?s] =>
          destruct (for_m_inv _
            (fun j st => let '(r2, cy2, ov2, bk2) := st in
               r2 = r1 /\ cy2 = cy1 /\
               (bk2 = true -> ov2 = true /\ 0 < nth i x 0 * lval W (skipn J y)) /\
               (bk2 = false -> ov2 = ov0 /\ nth i x 0 * (pv W y j - pv W y J) = 0))
            b (length y - J)%nat lo s) as ((((r2 & cy2) & ov2) & bk2) & E2 & -> & -> & Ht & Hf) end.
        + intros j (((r2 & cy2) & ov2) & bk2) Hj (-> & -> & Ht & Hf). destruct bk2.
          { eexists; split; [reflexivity|]. cbv beta iota. repeat split; auto; try (apply Ht; auto); discriminate. }
          mstep. destruct (Hf eq_refl) as (-> & Hp).
          replace (i + j <? m)%nat with false by (symmetry; apply Nat.ltb_ge; lia).
          pose proof (digits_nth W x i W0 Hx). pose proof (digits_nth W y j W0 Hy).
          destruct (Z.eqb_spec (nth i x 0) 0) as [Zx|Zx]; cbn [negb andb].
          * eexists; split; [reflexivity|]. cbv beta iota. repeat split; auto; try discriminate.
            rewrite Zx. lia.
          * destruct (Z.eqb_spec (nth j y 0) 0) as [Zy|Zy]; cbn [negb].
            -- eexists; split; [reflexivity|]. cbv beta iota. repeat split; auto; try discriminate.
               rewrite pv_S by lia. rewrite Zy. lia.
            -- eexists; split; [reflexivity|]. cbv beta iota. repeat split; auto; try discriminate.
               assert (0 < lval W (skipn J y)) by (apply (lval_pos_skipn y J j); auto; lia). nia.
        + repeat split; try discriminate. rewrite Z.sub_diag. lia.
        + exists r1, cy1, ov2, bk2. split; auto. split; auto. destruct bk2.
          * destruct (Ht eq_refl) as (-> & Hp). split; auto.
          * destruct (Hf eq_refl) as (-> & Hp). split; auto. intros [?|Hg]; auto. exfalso.
            replace (J + (length y - J))%nat with (length y) in Hp by lia.
            rewrite pv_full, (lval_split W y J W0) in Hp by lia.
            pose proof (pw_pos HW J). assert (nth i x 0 * (pw J * lval W (skipn J y)) = 0) by lia.
            nia. }
    destruct IL as (r1 & cy1 & ov1 & bk1 & E1 & HR & Hov). rewrite E1. cbn [bind].
    pose proof HR as (HL1 & Hd1 & Hc1 & _).
    destruct (row_done m x y i r0 Q r1 cy1) as (ID & HD); auto; try lia.
    pose proof (digits_nth W x i W0 Hx).
    pose proof (lval_nonneg _ (digits_skipn W J y Hy)).
    destruct (Nat.ltb_spec (i + length y) m) as [L|L].
    + replace (length y <? m)%nat with true by (symmetry; apply Nat.ltb_lt; lia). cbn [andb].
      mstep. eexists; split; [reflexivity|]. eexists; split; [exact ID|]. cbn [snd].
      unfold dropped in *. fold J in ID, HD |- *.
      destruct (Nat.ltb_spec (i + length y) m); [|lia]. rewrite Hov, F. lia.
    + rewrite andb_false_r.
      unfold dropped in *. fold J in ID, HD |- *.
      destruct (Nat.ltb_spec (i + length y) m); [lia|].
      destruct (Z.eqb_spec cy1 0) as [Zc|Zc]; cbn [negb];
        (eexists; split; [reflexivity|]; eexists; split; [exact ID|]; cbn [snd]).
      * rewrite Hov, F. nia.
      * split; auto. intros _. nia.
  - exists 0. split; [apply mul_inv_init|]. cbn. split; [discriminate|lia].
  - rewrite E. cbn [fst snd] in *. exists ov. destruct HI as (HL & Hd & HQ & _ & EQ).
    rewrite pv_all in EQ by auto. split.
    + do 2 f_equal. apply lenc_unique; auto; [lia|].
      apply mod_eq_intro with (k := - Q); [|lia]. pose proof (pw_pos HW m). lia.
    + rewrite HF, <- EQ. pose proof (lval_range W r W0 Hd) as R. rewrite HL in R.
      set (p := pw m) in *. nia.
Qed.

End P.
