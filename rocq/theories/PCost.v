(** * Proofs about counted runs (MCost.v) *)

Require Import ZArith List Bool Lia.
From Verif Require Import Prim Spec MAdd MMul MCore MArith MScalar MDiv MApi MCost Facts PCore PArith PPow PBits2.
Import ListNotations.
Local Open Scope Z_scope.

(** ** Leaving the list out *)

Lemma snd_cbind : forall A B (m : co A) (k : A -> co B), snd (cbind m k) = bind (snd m) (fun a => snd (k a)).
Proof. intros A B (t & [a| |]) k; cbn; try reflexivity. destruct (k a); reflexivity. Qed.
Lemma cbind_free : forall A B (a : A) (k : A -> co B), cbind (free (Ok a)) k = k a.
Proof. intros. cbn. destruct (k a); reflexivity. Qed.
Lemma bind_ext : forall A B (m m' : res A) (k k' : A -> res B), m = m' -> (forall a, k a = k' a) -> bind m k = bind m' k'.
Proof. intros A B m m' k k' -> H. destruct m'; cbn; auto. Qed.
Lemma snd_for_c : forall St (body : nat -> St -> co St) body' k i s,
  (forall i s, snd (body i s) = body' i s) -> snd (for_c k i body s) = for_m k i body' s.
Proof.
  intros St body body' k. induction k as [|k IH]; intros i s H; cbn; [reflexivity|].
  rewrite snd_cbind. rewrite H. apply bind_ext; auto.
Qed.
Lemma snd_for_rangec : forall St (body : nat -> St -> co St) body' lo hi s,
  (forall i s, snd (body i s) = body' i s) -> snd (for_rangec lo hi body s) = for_range lo hi body' s.
Proof. intros. unfold for_rangec, for_range. apply snd_for_c; auto. Qed.

Ltac er1 :=
  match goal with
  | |- snd (free _) = _ => cbn [free snd]
  | |- snd (paid _ _) = _ => cbn [paid snd]
  | |- snd (cbind _ _) = _ => rewrite snd_cbind; apply bind_ext; [|intro]
  | |- snd (for_rangec _ _ _ _) = _ => apply snd_for_rangec; intros ? ?
  | |- snd (if ?b then _ else _) = _ => destruct b
  | |- snd (match ?x with pair _ _ => _ end) = _ => destruct x
  | |- snd (match ?x with Some _ => _ | None => _ end) = _ => destruct x
  | |- snd (match ?x with Lt => _ | Eq => _ | Gt => _ end) = _ => destruct x
  | |- ?a = ?a => reflexivity
  end.
Ltac er := repeat er1.

Section Erase.
Context {c : Cfg}.
Lemma er_mul_wrapping_full : forall x y, snd (c_mul_wrapping_full x y) = mul_wrapping_full x y.
Proof. intros. unfold c_mul_wrapping_full, mul_wrapping_full. er. Qed.
Lemma er_mul_overflowing_full : forall x y, snd (c_mul_overflowing_full x y) = mul_overflowing_full x y.
Proof. intros. unfold c_mul_overflowing_full, mul_overflowing_full. er. Qed.
Lemma er_smul_overflowing_full : forall x y, snd (c_smul_overflowing_full x y) = smul_overflowing_full x y.
Proof. intros. unfold c_smul_overflowing_full, smul_overflowing_full. repeat (er; try apply er_mul_overflowing_full). Qed.
Lemma er_mul_widening : forall x y, snd (c_mul_widening x y) = mul_widening x y.
Proof. intros. unfold c_mul_widening, mul_widening. er. Qed.
Lemma er_wrapping_mul : forall sg x y, snd (c_wrapping_mul x y) = wrapping_mul sg x y.
Proof.
  intros. unfold c_wrapping_mul, wrapping_mul, smul_wrapping_full. er. rewrite er_mul_wrapping_full. destruct sg; reflexivity.
Qed.
Lemma er_overflowing_mul : forall sg x y, snd (c_overflowing_mul sg x y) = overflowing_mul sg x y.
Proof.
  intros. unfold c_overflowing_mul, overflowing_mul, c_mk_flag, mk_flag. er.
  - apply er_smul_overflowing_full.
  - apply er_mul_overflowing_full.
Qed.
Lemma er_opt : forall m m', snd m = m' -> snd (c_opt m) = opt m'.
Proof. intros m m' <-. unfold c_opt, opt. er. destruct b; reflexivity. Qed.
Lemma er_checked_mul : forall sg x y, snd (c_checked_mul sg x y) = checked_mul sg x y.
Proof.
  intros. unfold c_checked_mul, checked_mul. destruct (negb sg); repeat er1; try (apply er_opt, er_overflowing_mul).
Qed.
Lemma er_scalar_w : forall sg x y,
  snd (c_wrapping_mul_ulimb x y) = wrapping_ulimb SMul sg x y /\ snd (c_wrapping_mul_uwide x y) = wrapping_uwide SMul sg x y /\
  snd (c_wrapping_mul_ilimb x y) = wrapping_ilimb SMul x y /\ snd (c_wrapping_mul_iwide x y) = wrapping_iwide SMul x y.
Proof.
  intros. unfold c_wrapping_mul_ulimb, c_wrapping_mul_uwide, c_wrapping_mul_ilimb, c_wrapping_mul_iwide,
    wrapping_ulimb, wrapping_uwide, wrapping_ilimb, wrapping_iwide, smul_wrapping_ulimb, mul_wrapping_limb,
    smul_wrapping_uwide, mul_wrapping_wide, smul_wrapping_ilimb, smul_wrapping_iwide, lay.
  repeat split; rewrite snd_cbind; cbn [free snd bind].
  - rewrite (er_wrapping_mul sg). unfold wrapping_mul, smul_wrapping_full. destruct sg; reflexivity.
  - destruct sg; destruct (wide_limbs y); cbn [bind]; try reflexivity; apply (er_wrapping_mul false).
  - destruct (ilimb_limbs (length x) y); cbn [bind]; try reflexivity; apply (er_wrapping_mul false).
  - destruct (iwide_limbs (length x) y); cbn [bind]; try reflexivity; apply (er_wrapping_mul false).
Qed.
Lemma er_scalar_o : forall sg x y,
  snd (c_overflowing_mul_ulimb sg x y) = overflowing_ulimb SMul sg x y /\
  snd (c_overflowing_mul_uwide sg x y) = overflowing_uwide SMul sg x y /\
  snd (c_overflowing_mul_ilimb x y) = overflowing_ilimb SMul x y /\ snd (c_overflowing_mul_iwide x y) = overflowing_iwide SMul x y.
Proof.
  intros. unfold c_overflowing_mul_ulimb, c_overflowing_mul_uwide, c_overflowing_mul_ilimb, c_overflowing_mul_iwide,
    overflowing_ulimb, overflowing_uwide, overflowing_ilimb, overflowing_iwide, smul_overflowing_ulimb, mul_overflowing_limb,
    smul_overflowing_uwide, mul_overflowing_wide, smul_overflowing_ilimb, smul_overflowing_iwide.
  repeat split; rewrite snd_cbind; cbn [free snd].
  - destruct sg; cbn [lay bind].
    + destruct (set (repeat 0 (length x)) 0 y); cbn [bind]; try reflexivity. apply (er_overflowing_mul true).
    + apply (er_overflowing_mul false).
  - destruct sg; cbn [lay].
    + destruct (uwide_limbs (length x) y); cbn [bind]; try reflexivity. apply (er_overflowing_mul true).
    + destruct (wide_limbs y); cbn [bind]; try reflexivity. apply (er_overflowing_mul false).
  - cbn [lay]. destruct (ilimb_limbs (length x) y); cbn [bind]; try reflexivity; apply (er_overflowing_mul true).
  - cbn [lay]. destruct (iwide_limbs (length x) y); cbn [bind]; try reflexivity; apply (er_overflowing_mul true).
Qed.
Lemma er_pow_loop : forall sg fuel e base acc, snd (c_pow_loop fuel e base acc) = wrapping_pow_loop sg fuel e base acc.
Proof.
  intros sg fuel. induction fuel as [|fuel IH]; intros e base acc; cbn [c_pow_loop wrapping_pow_loop]; [reflexivity|].
  repeat (er1 || apply (er_wrapping_mul sg) || apply IH).
Qed.
Lemma er_wrapping_pow : forall sg x e, snd (c_wrapping_pow x e) = wrapping_pow sg x e.
Proof. intros. unfold c_wrapping_pow, wrapping_pow. repeat (er1 || apply er_pow_loop). Qed.

Lemma er_div_limb : forall x d, snd (c_div_limb x d) = div_limb x d.
Proof. intros. unfold c_div_limb, div_limb. er. Qed.
Lemma er_limb_padded : forall x n d, snd (c_limb_padded x n d) = limb_padded x n d.
Proof. intros. unfold c_limb_padded, limb_padded. repeat (er1 || apply er_div_limb). Qed.
Lemma er_full_mul_u64 : forall a b, snd (c_full_mul_u64 a b) = full_mul_u64 a b.
Proof. intros. unfold c_full_mul_u64, full_mul_u64. er. Qed.
Lemma er_estimate : forall a0 a1 a2 b0 b1, snd (c_estimate a0 a1 a2 b0 b1) = estimate a0 a1 a2 b0 b1.
Proof. intros. unfold c_estimate, estimate. er. Qed.
Lemma er_knuth_step : forall d n b0 b1 j s, snd (c_knuth_step d n b0 b1 j s) = knuth_step d n b0 b1 j s.
Proof. intros. unfold c_knuth_step, knuth_step. repeat (er1 || apply er_estimate || apply er_full_mul_u64). Qed.
Lemma er_div_rem_knuth : forall x d n m, snd (c_div_rem_knuth x d n m) = div_rem_knuth x d n m.
Proof. intros. unfold c_div_rem_knuth, div_rem_knuth. cbv zeta. repeat (er1 || apply er_knuth_step). Qed.
Lemma er_full_gt : forall x d, snd (c_full_gt x d) = full_gt x d.
Proof. intros. unfold c_full_gt, full_gt. repeat (er1 || apply er_limb_padded || apply er_div_rem_knuth). Qed.
Lemma er_div_full : forall x d, snd (c_div_full x d) = div_full x d.
Proof. intros. unfold c_div_full, div_full. repeat (er1 || apply er_limb_padded || apply er_full_gt). Qed.
Lemma er_wrapping_div_rem : forall sg x n, snd (c_wrapping_div_rem sg x n) = wrapping_div_rem sg x n.
Proof.
  intros. unfold c_wrapping_div_rem, wrapping_div_rem, s_wrapping_div_rem, u_wrapping_div_rem.
  destruct sg; repeat (er1 || apply er_div_full).
Qed.
End Erase.

(** ** What a completed run has performed *)

Definition runs {A} (m : co A) (t : list cop) : Prop := forall a, snd m = Ok a -> fst m = t.

Lemma runs_free : forall A (r : res A), runs (free r) [].
Proof. intros A r a _. reflexivity. Qed.
Lemma runs_paid : forall A o (r : res A), runs (paid o r) [o].
Proof. intros A o r a _. reflexivity. Qed.
Lemma runs_bind : forall A B (m : co A) (k : A -> co B) t u,
  runs m t -> (forall a, snd m = Ok a -> runs (k a) u) -> runs (cbind m k) (t ++ u).
Proof.
  intros A B (tm & [a| |]) k t u Hm Hk b; cbn; try discriminate. specialize (Hk a eq_refl b). destruct (k a) as (u' & r).
  cbn [fst snd] in *. intro E. rewrite (Hk E). f_equal. exact (Hm a eq_refl).
Qed.
(** the form for a part that costs nothing *)
Lemma runs_skip : forall A B (r : res A) (k : A -> co B) u,
  (forall a, r = Ok a -> runs (k a) u) -> runs (cbind (free r) k) u.
Proof. intros A B r k u H. apply (runs_bind A B (free r) k [] u); [apply runs_free|exact H]. Qed.
Lemma runs_pay : forall A B o (r : res A) (k : A -> co B) u,
  (forall a, r = Ok a -> runs (k a) u) -> runs (cbind (paid o r) k) (o :: u).
Proof. intros A B o r k u H. apply (runs_bind A B (paid o r) k [o] u); [apply runs_paid|exact H]. Qed.
Lemma runs_last : forall A B (m : co A) (k : A -> res B) t, runs m t -> runs (cbind m (fun a => free (k a))) t.
Proof. intros A B m k t H. rewrite <- (app_nil_r t). apply runs_bind; [exact H|intros; apply runs_free]. Qed.

(** A loop whose iterations keep an invariant. *)
Lemma runs_for : forall St (I : nat -> St -> Prop) (t : nat -> list cop) body k i s,
  I i s -> (forall j s, (i <= j < i + k)%nat -> I j s -> runs (body j s) (t j)) ->
  (forall j s s', (i <= j < i + k)%nat -> I j s -> snd (body j s) = Ok s' -> I (S j) s') ->
  runs (for_c k i body s) (concat (map t (seq i k))).
Proof.
  intros St I t body k. induction k as [|k IH]; intros i s H0 Hb Hi; cbn [for_c seq map concat].
  - apply runs_free.
  - apply runs_bind.
    + apply Hb; [lia|exact H0].
    + intros a E. apply IH.
      * apply (Hi i s a); [lia|exact H0|exact E].
      * intros j s' Hj. apply Hb. lia.
      * intros j s' s'' Hj. apply Hi. lia.
Qed.
Lemma runs_rng : forall St (t : nat -> list cop) u body hi (s : St),
  u = concat (map t (seq 0 hi)) -> (forall j s, (j < hi)%nat -> runs (body j s) (t j)) -> runs (for_rangec 0 hi body s) u.
Proof.
  intros St t u body hi s -> H. unfold for_rangec. rewrite Nat.sub_0_r. apply (runs_for St (fun _ _ => True)); auto.
  intros j s' Hj _. apply H. lia.
Qed.
Lemma runs_then : forall A B (m : co A) (k : A -> co B) t, runs m t -> (forall a, snd m = Ok a -> runs (k a) []) -> runs (cbind m k) t.
Proof. intros A B m k t H K. rewrite <- (app_nil_r t). apply runs_bind; auto. Qed.

Lemma concat_singles : forall (t : nat -> list cop) o k i, (forall j, (i <= j < i + k)%nat -> t j = [o]) ->
  concat (map t (seq i k)) = repeat o k.
Proof.
  intros t o k. induction k as [|k IH]; intros i H; cbn; [reflexivity|].
  rewrite (H i) by lia. cbn. f_equal. apply IH. intros. apply H. lia.
Qed.
Lemma concat_repeats : forall (f : nat -> nat) (o : cop) k i,
  concat (map (fun j => repeat o (f j)) (seq i k)) = repeat o (list_sum (map f (seq i k))).
Proof.
  intros f o k. induction k as [|k IH]; intros i; cbn; [reflexivity|]. rewrite IH, repeat_app. reflexivity.
Qed.
Lemma concat_const : forall (t : list cop) k i, concat (map (fun _ => t) (seq i k)) = concat (repeat t k).
Proof. intros t k. induction k as [|k IH]; intros i; cbn; [reflexivity|]. f_equal. apply IH. Qed.
Lemma repeat_concat : forall o a k, concat (repeat (repeat (o : cop) a) k) = repeat o (k * a).
Proof. intros o a k. induction k as [|k IH]; cbn; [reflexivity|]. rewrite IH, repeat_app. reflexivity. Qed.

(** rows of a product: row [i] has [min n (m - i)] limb products *)
Definition rows (m n : nat) : nat := list_sum (map (fun i => Nat.min n (m - i)) (seq 0 m)).
Lemma list_sum_ge : forall m n k i, (i + k = m)%nat -> (k <= n)%nat ->
  (2 * list_sum (map (fun i => Nat.min n (m - i)) (seq i k)) = k * (k + 1))%nat.
Proof.
  intros m n k. induction k as [|k IH]; intros i E L; cbn [seq map list_sum fold_right]; [reflexivity|].
  change (fold_right plus 0%nat ?l) with (list_sum l). assert (Nat.min n (m - i) = S k) as -> by lia.
  specialize (IH (S i)). nia.
Qed.
Lemma list_sum_lt : forall m n k i, (i + k + n <= S m)%nat ->
  (list_sum (map (fun i => Nat.min n (m - i)) (seq i k)) = k * n)%nat.
Proof.
  intros m n k. induction k as [|k IH]; intros i L; cbn [seq map list_sum fold_right]; [reflexivity|].
  change (fold_right plus 0%nat ?l) with (list_sum l). rewrite IH by lia. assert (Nat.min n (m - i) = n) as -> by lia. lia.
Qed.
Lemma rows_eq : forall m n, (1 <= n <= m)%nat -> (2 * rows m n = 2 * (m - n) * n + n * (n + 1))%nat.
Proof.
  intros m n H. unfold rows. replace (seq 0 m) with (seq 0 (m - n + n)) by (f_equal; lia). rewrite seq_app, map_app, list_sum_app. cbn [plus].
  pose proof (list_sum_lt m n (m - n) 0 ltac:(lia)) as A. pose proof (list_sum_ge m n n (m - n) ltac:(lia) ltac:(lia)) as B.
  rewrite A. lia.
Qed.

Section Runs.
Context {c : Cfg}.

Lemma runs_mul_wrapping_full : forall x y, runs (c_mul_wrapping_full x y) (repeat Mul (rows (length x) (length y))).
Proof.
  intros x y. unfold c_mul_wrapping_full. apply runs_skip. intros _ _.
  eapply runs_rng; [unfold rows; symmetry; apply concat_repeats|].
  intros i r _. apply runs_skip. intros xi _. apply runs_then.
  - apply (runs_rng _ (fun _ => [Mul])); [symmetry; apply concat_singles; reflexivity|].
    intros j (r' & cy) _. apply runs_skip. intros yj _. apply runs_skip. intros rij _.
    apply runs_pay. intros (v & cy') _. apply runs_skip. intros r'' _. apply runs_free.
  - intros (r' & cy) _. apply runs_free.
Qed.

Lemma sum_cut : forall m i n, concat (map (fun j => if (i + j <? m)%nat then [Mul] else []) (seq 0 n)) = repeat Mul (Nat.min n (m - i)).
Proof.
  intros m i n. replace (seq 0 n) with (seq 0 (Nat.min n (m - i) + (n - Nat.min n (m - i)))) by (f_equal; lia).
  rewrite seq_app, map_app, concat_app. rewrite (concat_singles _ Mul).
  2:{ intros j Hj. destruct (Nat.ltb_spec (i + j) m); [reflexivity|lia]. }
  rewrite <- (app_nil_r (repeat Mul _)) at 2. f_equal. cbn [plus].
  assert (H : forall k a, (m <= i + a)%nat -> concat (map (fun j => if (i + j <? m)%nat then [Mul] else []) (seq a k)) = []).
  { induction k as [|k IH]; intros a Ha; cbn [seq map concat]; [reflexivity|]. destruct (Nat.ltb_spec (i + a) m); [lia|]. cbn [app]. apply IH. lia. }
  destruct (Nat.min_spec n (m - i)) as [[L ->]|[L ->]]; [rewrite Nat.sub_diag; reflexivity|apply H; lia].
Qed.

Lemma runs_mul_overflowing_full : forall x y, runs (c_mul_overflowing_full x y) (repeat Mul (rows (length x) (length y))).
Proof.
  intros x y. unfold c_mul_overflowing_full. apply runs_skip. intros _ _.
  eapply runs_rng; [unfold rows; symmetry; apply concat_repeats|].
  intros i (r & o) _. apply runs_skip. intros xi _.
  rewrite <- sum_cut. apply runs_then.
  - unfold for_rangec. rewrite Nat.sub_0_r.
    apply (runs_for _ (fun j s => snd s = true -> (length x <= i + j)%nat)).
    + discriminate.
    + intros j (((r' & cy) & o') & brk) _ HI. cbn [snd] in HI. destruct brk.
      * destruct (Nat.ltb_spec (i + j) (length x)); [specialize (HI eq_refl); lia|apply runs_free].
      * apply runs_skip. intros yj _. destruct (Nat.ltb_spec (i + j) (length x)).
        { apply runs_skip. intros rij _. apply runs_pay. intros (v & cy') _. apply runs_skip. intros r'' _. apply runs_free. }
        { destruct (negb (xi =? 0) && negb (yj =? 0)); apply runs_free. }
    + intros j (((r' & cy) & o') & brk) s' _ HI E. cbn [snd] in HI. destruct brk.
      * cbn in E. injection E as <-. cbn. intros _. specialize (HI eq_refl). lia.
      * revert E. rewrite snd_cbind. cbn [free snd]. destruct (get y j) as [yj| |]; cbn [bind]; try discriminate.
        destruct (Nat.ltb_spec (i + j) (length x)).
        { rewrite snd_cbind. cbn [free snd]. destruct (get r' (i + j)) as [rij| |]; cbn [bind]; try discriminate.
          rewrite snd_cbind. cbn [paid snd]. destruct (mac rij xi yj cy) as [(v & cy')| |]; cbn [bind]; try discriminate.
          rewrite snd_cbind. cbn [free snd]. destruct (set r' (i + j) v) as [r''| |]; cbn [bind]; try discriminate.
          intro E. injection E as <-. discriminate. }
        { destruct (negb (xi =? 0) && negb (yj =? 0)); cbn; intro E; injection E as <-; cbn; intros; lia. }
  - intros (((r' & cy) & o') & brk) _. apply runs_free.
Qed.

Lemma length_for : forall St (L : St -> nat) (body : nat -> St -> res St) k i s s',
  (forall j s s', body j s = Ok s' -> L s' = L s) -> for_m k i body s = Ok s' -> L s' = L s.
Proof.
  intros St L body k. induction k as [|k IH]; intros i s s' H; cbn; [intros [=]; congruence|].
  destruct (body i s) as [s1| |] eqn:E; cbn [bind]; try discriminate. intro E'. rewrite (IH _ _ _ H E'). exact (H _ _ _ E).
Qed.
Lemma length_set : forall A (l : list A) i v l', set l i v = Ok l' -> length l' = length l.
Proof.
  intros A l i v l'. unfold set. destruct (i <? length l)%nat; try discriminate. intros [= <-].
  revert i. induction l as [|h t IH]; intros [|i]; cbn; auto.
Qed.
Lemma length_negate : forall x x', negate x = Ok x' -> length x' = length x.
Proof.
  intros x x'. unfold negate. destruct (get x 0) as [x0| |]; cbn [bind]; try discriminate.
  destruct (p_overflowing_add W (p_not W x0) 1) as (v & cy).
  destruct (set (repeat 0 (length x)) 0 v) as [r| |] eqn:E0; cbn [bind]; try discriminate.
  apply length_set in E0. rewrite repeat_length in E0.
  match goal with |- bind ?m _ = _ -> _ => destruct m as [(r1 & cy1)| |] eqn:E1 end; cbn [bind]; try discriminate.
  unfold for_range in E1. apply (length_for _ (fun s => length (fst s))) in E1.
  2:{ intros j (s1 & f1) (s2 & f2). destruct (get x j) as [xj| |]; cbn [bind]; try discriminate.
      destruct (p_overflowing_add W (p_not W xj) (b2z f1)) as (v1 & f3).
      destruct (set s1 j v1) as [s3| |] eqn:E; cbn [bind]; try discriminate. intros [= <- <-]. cbn. eapply length_set; eauto. }
  cbn [fst] in E1. destruct (1 <? length x)%nat.
  - destruct (get x (length x - 1)) as [xn| |]; cbn [bind]; try discriminate. intro E. apply length_set in E. congruence.
  - intros [= <-]. congruence.
Qed.

Lemma runs_smul_overflowing_full : forall x y, runs (c_smul_overflowing_full x y) (repeat Mul (rows (length x) (length y))).
Proof.
  intros x y. unfold c_smul_overflowing_full. apply runs_skip. intros nx _. apply runs_skip. intros ny _.
  apply runs_skip. intros x' Ex. apply runs_skip. intros y' Ey.
  assert (length x' = length x) by (destruct nx; [eapply length_negate; eauto|congruence]).
  assert (length y' = length y) by (destruct ny; [eapply length_negate; eauto|congruence]).
  rewrite <- H, <- H0. apply runs_then; [apply runs_mul_overflowing_full|].
  intros (r & o) _. apply runs_skip. intros top _. destruct (negb (xorb nx ny)); [apply runs_free|].
  apply runs_skip. intros r' _. apply runs_free.
Qed.

Lemma runs_mul_widening : forall x y, runs (c_mul_widening x y) (repeat Mul (length x * length x)).
Proof.
  intros x y. unfold c_mul_widening.
  eapply runs_rng; [rewrite <- repeat_concat, <- (concat_const _ _ 0); reflexivity|].
  intros i (lo & hi) _. apply runs_skip. intros xi _. apply runs_then.
  - apply (runs_rng _ (fun _ => [Mul])); [symmetry; apply concat_singles; reflexivity|]. intros j ((lo' & hi') & cy) _.
    apply runs_skip. intros yj _. destruct (i + j <? length x)%nat;
      apply runs_skip; intros a _; apply runs_pay; intros (v & cy') _; apply runs_skip; intros r'' _; apply runs_free.
  - intros ((lo' & hi') & cy) _. apply runs_free.
Qed.

Lemma runs_wrapping_mul : forall x y, runs (c_wrapping_mul x y) (repeat Mul (rows (length x) (length y))).
Proof. intros. unfold c_wrapping_mul. apply runs_last, runs_mul_wrapping_full. Qed.
Lemma runs_overflowing_mul : forall sg x y, runs (c_overflowing_mul sg x y) (repeat Mul (rows (length x) (length y))).
Proof.
  intros. unfold c_overflowing_mul, c_mk_flag. apply runs_then.
  - destruct sg; [apply runs_smul_overflowing_full|apply runs_mul_overflowing_full].
  - intros (l & f) _. apply runs_free.
Qed.
Lemma runs_opt : forall m t, runs m t -> runs (c_opt m) t.
Proof. intros m t H. unfold c_opt. apply runs_then; [exact H|]. intros (v & f) _. apply runs_free. Qed.

Definition spread (f : mform) (n : nat) : nat := match f with FLimb => 1%nat | FWide => 2%nat | _ => n end.
Lemma lay_length : forall f n y l, lay f n y = Ok l -> length l = spread f n.
Proof.
  intros f n y l. destruct f; cbn [lay spread]; unfold wide_limbs, uwide_limbs, ilimb_limbs, iwide_limbs; intro H.
  all: try (injection H as <-; reflexivity).
  all: repeat match type of H with
       | bind ?m _ = _ => destruct m eqn:?; cbn [bind] in H; try discriminate
       end.
  all: repeat match goal with E : set _ _ _ = Ok _ |- _ => apply length_set in E end.
  all: rewrite ?repeat_length in *; cbn [repeat length] in *; congruence.
Qed.

Hypothesis HV : Valid.
(** one power: the set bits and the halvings of the exponent *)
Fixpoint pow_products (fuel : nat) (e : Z) : nat :=
  match fuel with
  | O => 0
  | S fuel => (if Z.land e 1 =? 1 then 1 else 0) + (if e =? 1 then 0 else S (pow_products fuel (e / 2)))
  end.
Lemma c_mul_wf : forall x y z, wf x -> wf y -> snd (c_wrapping_mul x y) = Ok z -> wf z.
Proof. intros x y z Hx Hy. rewrite (er_wrapping_mul false), (wrapping_mul_ok HV) by auto. intros [= <-]. apply (wf_ofZ HV). Qed.
Lemma runs_pow_loop : forall fuel e base acc, wf base -> wf acc -> 1 <= e ->
  runs (c_pow_loop fuel e base acc) (repeat Mul (pow_products fuel e * rows N N)).
Proof.
  induction fuel as [|fuel IH]; intros e base acc Hb Ha He; cbn [c_pow_loop pow_products]; [apply runs_free|].
  assert (NX : forall acc', wf acc' -> e <> 1 -> runs
    (let$ base := c_wrapping_mul base base in
     let$ _ := free (dassert (negb (e / 2 =? 0))) in c_pow_loop fuel (e / 2) base acc')
    (repeat Mul (S (pow_products fuel (e / 2)) * rows N N))).
  { intros acc' Ha' H1. cbn [Nat.mul]. rewrite repeat_app. pose proof (runs_wrapping_mul base base) as R.
    rewrite (proj1 Hb) in R. apply runs_bind; [exact R|]. intros b2 E2. apply runs_skip. intros _ _.
    apply IH; [exact (c_mul_wf _ _ _ Hb Hb E2)|exact Ha'|]. pose proof (Z.div_le_lower_bound e 2 1). lia. }
  destruct (Z.eqb_spec (Z.land e 1) 1) as [L|L].
  - cbn [Nat.add Nat.mul]. rewrite repeat_app. pose proof (runs_wrapping_mul acc base) as R.
    rewrite (proj1 Hb), (proj1 Ha) in R. apply runs_bind; [exact R|]. intros a' E'.
    destruct (Z.eqb_spec e 1); [apply runs_free|]. apply NX; [exact (c_mul_wf _ _ _ Ha Hb E')|exact n].
  - destruct (Z.eqb_spec e 1) as [->|H]; [exfalso; apply L; reflexivity|]. apply NX; auto.
Qed.
Lemma count_half : forall n e, 0 <= e ->
  length (filter (fun i => eqb (Z.testbit e (Z.of_nat i)) true) (seq 0 (S n))) =
  Nat.add (if Z.land e 1 =? 1 then 1%nat else 0%nat) (length (filter (fun i => eqb (Z.testbit (e / 2) (Z.of_nat i)) true) (seq 0 n))).
Proof.
  intros n e He. cbn [seq filter]. rewrite <- seq_shift.
  assert (K : forall l, length (filter (fun i => eqb (Z.testbit e (Z.of_nat i)) true) (map S l)) =
                        length (filter (fun i => eqb (Z.testbit (e / 2) (Z.of_nat i)) true) l)).
  { induction l as [|i l IH]; cbn [map filter]; [reflexivity|].
    replace (Z.testbit (e / 2) (Z.of_nat i)) with (Z.testbit e (Z.of_nat (S i))).
    - destruct (eqb _ _); cbn [length]; rewrite IH; reflexivity.
    - rewrite <- Z.div2_div, Z.div2_spec, Z.shiftr_spec by lia. f_equal. lia. }
  change (Z.of_nat 0) with 0. replace (Z.land e 1 =? 1) with (Z.testbit e 0).
  - destruct (Z.testbit e 0); cbn [eqb length]; rewrite K; reflexivity.
  - rewrite Z.bit0_odd. change 1 with (Z.ones 1) at 1. rewrite Z.land_ones by lia. change (2 ^ 1) with 2. rewrite Zmod_odd.
    destruct (Z.odd e); reflexivity.
Qed.
Lemma pow_products_eq : forall fuel e, 1 <= e < 2 ^ Z.of_nat fuel ->
  Z.of_nat (pow_products fuel e) = bit_count (Z.of_nat fuel) e true + Z.log2 e.
Proof.
  intros fuel. unfold bit_count. induction fuel as [|fuel IH]; intros e He; [cbn in He; lia|].
  rewrite Nat2Z.id in *. rewrite count_half by lia. cbn [pow_products].
  destruct (Z.eqb_spec e 1) as [->|H1].
  - change (Z.land 1 1 =? 1) with true. change (1 / 2) with 0. change (Z.log2 1) with 0.
    assert (K : forall l, filter (fun i => eqb (Z.testbit 0 (Z.of_nat i)) true) l = []).
    { induction l as [|i l IHl]; cbn [filter]; [reflexivity|]. rewrite Z.testbit_0_l. exact IHl. }
    rewrite K. reflexivity.
  - assert (Hh : 1 <= e / 2 < 2 ^ Z.of_nat fuel).
    { split; [apply Z.div_le_lower_bound; lia|]. apply Z.div_lt_upper_bound; [lia|].
      replace (Z.of_nat (S fuel)) with (1 + Z.of_nat fuel) in He by lia. rewrite Z.pow_add_r in He by lia. lia. }
    specialize (IH (e / 2) Hh).
    assert (EL : Z.log2 e = Z.log2 (e / 2) + 1).
    { rewrite <- Z.div2_div, Z.div2_spec, Z.log2_shiftr by lia.
      assert (1 <= Z.log2 e) by (apply Z.log2_le_pow2; lia). lia. }
    destruct (Z.land e 1 =? 1); lia.
Qed.

(** ** Bounds that also hold for runs that stop early *)

Definition muls (t : list cop) : nat := length (filter (fun o => match o with Mul => true | Div => false end) t).
Definition divs (t : list cop) : nat := length (filter (fun o => match o with Mul => false | Div => true end) t).
Lemma muls_app : forall t u, muls (t ++ u) = (muls t + muls u)%nat.
Proof. intros. unfold muls. rewrite filter_app, app_length. reflexivity. Qed.
Lemma divs_app : forall t u, divs (t ++ u) = (divs t + divs u)%nat.
Proof. intros. unfold divs. rewrite filter_app, app_length. reflexivity. Qed.
Lemma muls_repeat : forall k, muls (repeat Mul k) = k.
Proof. induction k as [|k IH]; [reflexivity|]. cbn. f_equal. exact IH. Qed.
Lemma divs_repeat : forall k, divs (repeat Div k) = k.
Proof. induction k as [|k IH]; [reflexivity|]. cbn. f_equal. exact IH. Qed.
Lemma divs_repeat_mul : forall k, divs (repeat Mul k) = 0%nat.
Proof. induction k as [|k IH]; [reflexivity|]. exact IH. Qed.
Lemma muls_repeat_div : forall k, muls (repeat Div k) = 0%nat.
Proof. induction k as [|k IH]; [reflexivity|]. exact IH. Qed.

(** at least [l] products if it completes; at most [h] products and [d]
    divisions in any case *)
Definition cost {A} (m : co A) (l h d : nat) : Prop :=
  (forall a, snd m = Ok a -> (l <= muls (fst m))%nat) /\ (muls (fst m) <= h)%nat /\ (divs (fst m) <= d)%nat.
Lemma cost_free : forall A (r : res A), cost (free r) 0 0 0.
Proof. intros. repeat split; cbn; intros; lia. Qed.
Lemma cost_bind : forall A B (m : co A) (k : A -> co B) l h d l' h' d',
  cost m l h d -> (forall a, snd m = Ok a -> cost (k a) l' h' d') -> cost (cbind m k) (l + l') (h + h') (d + d').
Proof.
  intros A B (t & [a| |]) k l h d l' h' d' (L & H & D) K; cbn [snd fst] in *.
  - destruct (K a eq_refl) as (L' & H' & D'). specialize (L a eq_refl). unfold cost. cbn [cbind]. destruct (k a) as (u & r).
    cbn [fst snd] in *. rewrite muls_app, divs_app. split; [intros b Eb; specialize (L' b Eb); lia|lia].
  - unfold cost. cbn [cbind fst snd]. split; [discriminate|lia].
  - unfold cost. cbn [cbind fst snd]. split; [discriminate|lia].
Qed.
Lemma cost_skip : forall A B (r : res A) (k : A -> co B) l h d, (forall a, r = Ok a -> cost (k a) l h d) -> cost (cbind (free r) k) l h d.
Proof. intros A B r k l h d H. apply (cost_bind A B (free r) k 0 0 0 l h d); [apply cost_free|exact H]. Qed.
Lemma cost_mul : forall A B (r : res A) (k : A -> co B) l h d,
  (forall a, r = Ok a -> cost (k a) l h d) -> cost (cbind (paid Mul r) k) (S l) (S h) d.
Proof.
  intros A B r k l h d H. apply (cost_bind A B (paid Mul r) k 1 1 0 l h d); [|exact H]. repeat split; cbn; intros; lia.
Qed.
Lemma cost_div : forall A B (r : res A) (k : A -> co B) l h d,
  (forall a, r = Ok a -> cost (k a) l h d) -> cost (cbind (paid Div r) k) l h (S d).
Proof.
  intros A B r k l h d H. apply (cost_bind A B (paid Div r) k 0 0 1 l h d); [|exact H]. repeat split; cbn; intros; lia.
Qed.
Lemma cost_weak : forall A (m : co A) l h d l' h' d', cost m l h d -> (l' <= l)%nat -> (h <= h')%nat -> (d <= d')%nat -> cost m l' h' d'.
Proof. intros A m l h d l' h' d' (L & H & D) ? ? ?. split; [intros a Ea; specialize (L a Ea); lia|lia]. Qed.
Lemma cost_then : forall A B (m : co A) (k : A -> co B) l h d,
  cost m l h d -> (forall a, snd m = Ok a -> cost (k a) 0 0 0) -> cost (cbind m k) l h d.
Proof. intros A B m k l h d H K. pose proof (cost_bind A B m k l h d 0 0 0 H K) as G. rewrite !Nat.add_0_r in G. exact G. Qed.
Lemma cost_for : forall St (body : nat -> St -> co St) l h d k i s, (forall j s, cost (body j s) l h d) ->
  cost (for_c k i body s) (k * l) (k * h) (k * d).
Proof.
  intros St body l h d k. induction k as [|k IH]; intros i s H; cbn [for_c Nat.mul]; [apply cost_free|].
  apply cost_bind; [apply H|]. intros a _. apply IH; exact H.
Qed.

Lemma cost_full_mul : forall a b, cost (c_full_mul_u64 a b) (length a) (length a) 0.
Proof.
  intros a b. unfold c_full_mul_u64, for_rangec. rewrite Nat.sub_0_r.
  apply (cost_weak _ _ (length a * 1) (length a * 1) (length a * 0)); try lia.
  apply cost_for. intros j (out & cy). apply cost_skip. intros v _. apply cost_mul. intros p _.
  apply cost_skip. intros r _. apply cost_skip. intros out' _. apply cost_skip. intros h _. apply cost_free.
Qed.
Lemma cost_estimate : forall a0 a1 a2 b0 b1, cost (c_estimate a0 a1 a2 b0 b1) 0 2 1.
Proof.
  intros. unfold c_estimate. destruct (a0 <? b0).
  - apply cost_div. intros (q & r) _. apply cost_skip. intros a2' _.
    apply (cost_weak _ _ 1 2 0); try lia. apply cost_mul. intros p _. apply cost_skip. intros gt _. destruct gt.
    + apply cost_skip. intros q' _. destruct (p_overflowing_add W r b0) as (r' & ov). destruct (negb ov).
      * apply (cost_weak _ _ 1 1 0); try lia. apply cost_mul. intros p' _. apply cost_skip. intros gt' _. destruct gt'; apply cost_free.
      * apply (cost_weak _ _ 0 0 0); try lia. apply cost_free.
    + apply (cost_weak _ _ 0 0 0); try lia. apply cost_free.
  - apply (cost_weak _ _ 0 0 0); try lia. apply cost_free.
Qed.
Lemma cost_knuth_step : forall d n b0 b1 j s, cost (c_knuth_step d n b0 b1 j s) (length d) (length d + 2) 1.
Proof.
  intros d n b0 b1 j (num & q). unfold c_knuth_step. apply cost_skip. intros a0 _. apply cost_skip. intros a1 _.
  apply (cost_weak _ _ (0 + (length d + 0)) (2 + (length d + 0)) (1 + (0 + 0))); try lia.
  apply cost_bind; [apply cost_estimate|]. intros qh _. apply cost_bind; [apply cost_full_mul|]. intros qv _.
  apply cost_skip. intros (num' & cy) _. apply cost_skip. intros (num'' & qh') _. apply cost_skip. intros q' _. apply cost_free.
Qed.
Lemma length_full_shl : forall v s r, full_shl v s = Ok r -> length (fst r) = length v.
Proof.
  intros v s r. unfold full_shl. destruct (dassert (s <? W)); cbn [bind]; try discriminate.
  destruct (s =? 0); [intros [= <-]; reflexivity|].
  destruct (get v 0) as [v0| |]; cbn [bind]; try discriminate. destruct (ushl W v0 s) as [o0| |]; cbn [bind]; try discriminate.
  destruct (set (repeat 0 (length v)) 0 o0) as [out| |] eqn:E0; cbn [bind]; try discriminate.
  apply length_set in E0. rewrite repeat_length in E0.
  match goal with |- bind ?m _ = _ -> _ => destruct m as [out1| |] eqn:E1 end; cbn [bind]; try discriminate.
  unfold for_range in E1. apply (length_for _ (fun l => length l)) in E1.
  2:{ intros j s1 s2 E. repeat match type of E with bind ?m _ = _ => destruct m; cbn [bind] in E; try discriminate end.
      eapply length_set; eauto. }
  destruct (get v (length v - 1)); cbn [bind]; try discriminate. destruct (usub 32 W s); cbn [bind]; try discriminate.
  destruct (ushr W a0 a1); cbn [bind]; try discriminate. intros [= <-]. cbn [fst]. congruence.
Qed.
Lemma cost_knuth : forall x d n m, cost (c_div_rem_knuth x d n m) ((m + 1) * length d) ((m + 1) * (length d + 2)) (m + 1).
Proof.
  intros x d n m. unfold c_div_rem_knuth. apply cost_skip. intros _ _. apply cost_skip. intros top _. cbv zeta.
  apply cost_skip. intros d' Ed. apply cost_skip. intros num _. apply cost_skip. intros b0 _. apply cost_skip. intros b1 _.
  assert (HL : length d' = length d).
  { revert Ed. unfold shl_word. destruct (full_shl d (p_leading_zeros W top)) as [r| |] eqn:E; cbn [bind]; try discriminate.
    intros [= <-]. exact (length_full_shl _ _ _ E). }
  rewrite <- HL. apply cost_then.
  - unfold for_rangec. rewrite Nat.sub_0_r. apply (cost_weak _ _ ((m + 1) * length d') ((m + 1) * (length d' + 2)) ((m + 1) * 1)); try lia.
    apply cost_for. intros j s. apply cost_knuth_step.
  - intros (num' & q) _. apply cost_skip. intros r _. apply cost_skip. intros rem _. apply cost_free.
Qed.
Lemma runs_div_limb : forall x d z, (2 <= length x)%nat -> is_zero x 2 = Ok z ->
  runs (c_div_limb x d) (if z then [Div] else repeat Div (length x)).
Proof.
  intros x d z HL Hz. unfold c_div_limb. cbv zeta. assert ((2 <=? length x)%nat = true) as -> by (apply Nat.leb_le; lia).
  apply runs_skip. intros z' E. assert (z' = z) as -> by congruence. destruct z.
  - apply runs_skip. intros lo _. apply runs_skip. intros hi _. apply runs_skip. intros v _. apply runs_pay. intros q _.
    apply runs_skip. intros r _. apply runs_skip. intros q' _. apply runs_free.
  - eapply (runs_rng _ (fun _ => [Div])); [symmetry; apply concat_singles; reflexivity|].
    intros j (num & r) _. apply runs_skip. intros v _. apply runs_pay. intros (q & ri) _. apply runs_skip. intros num' _. apply runs_free.
Qed.
End Runs.
