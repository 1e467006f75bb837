(** * Proofs about recorded runs (MTrace.v) *)

Require Import ZArith List Bool Lia.
From Verif Require Import Prim Spec MAdd MMul MShift MCore MArith MTrace Facts PAdd PMul PCost.
Import ListNotations.
Local Open Scope Z_scope.

(** ** Leaving the steps out *)

Lemma snd_tbind : forall A B (m : tr A) (k : A -> tr B), snd (tbind m k) = bind (snd m) (fun a => snd (k a)).
Proof. intros A B (t & [a| |]) k; cbn; try reflexivity. destruct (k a); reflexivity. Qed.
Lemma fst_tbind : forall A B (m : tr A) (k : A -> tr B),
  fst (tbind m k) = fst m ++ match snd m with Ok a => fst (k a) | _ => [] end.
Proof. intros A B (t & [a| |]) k; cbn; rewrite ?app_nil_r; try reflexivity. destruct (k a); reflexivity. Qed.
Lemma snd_for_t : forall St (body : nat -> St -> tr St) body' k i s,
  (forall i s, snd (body i s) = body' i s) -> snd (for_t k i body s) = for_m k i body' s.
Proof.
  intros St body body' k. induction k as [|k IH]; intros i s H; cbn [for_t for_m]; [reflexivity|].
  rewrite snd_tbind. rewrite H. apply bind_ext; auto.
Qed.
Lemma snd_for_ranget : forall St (body : nat -> St -> tr St) body' lo hi s,
  (forall i s, snd (body i s) = body' i s) -> snd (for_ranget lo hi body s) = for_range lo hi body' s.
Proof. intros. unfold for_ranget, for_range. apply snd_for_t; auto. Qed.
Lemma snd_while_t : forall St (cond : St -> bool) (body : St -> tr St) body' fuel s,
  (forall s, snd (body s) = body' s) -> snd (while_t fuel cond body s) = while_m fuel cond body' s.
Proof.
  intros St cond body body' fuel. induction fuel as [|fuel IH]; intros s H; cbn [while_t while_m];
    rewrite snd_tbind; cbn [test snd bind]; destruct (cond s); try reflexivity.
  rewrite snd_tbind, H. apply bind_ext; auto.
Qed.

Ltac te1 :=
  match goal with
  | |- snd (quiet _) = _ => cbn [quiet snd]
  | |- snd (rd _ _) = _ => cbn [rd snd]
  | |- snd (wr _ _ _) = _ => cbn [wr snd]
  | |- snd (t_uadd _ _ _) = _ => cbn [t_uadd snd]
  | |- snd (t_usub _ _ _) = _ => cbn [t_usub snd]
  | |- snd (t_umul _ _ _) = _ => cbn [t_umul snd]
  | |- snd (t_ushl _ _ _) = _ => cbn [t_ushl snd]
  | |- snd (t_ushr _ _ _) = _ => cbn [t_ushr snd]
  | |- snd (t_sshr _ _ _) = _ => cbn [t_sshr snd]
  | |- snd (t_dassert _) = _ => cbn [t_dassert snd]
  | |- snd (tbind (test ?b) _) = _ => rewrite snd_tbind; cbn [test snd bind]
  | |- snd (tbind _ _) = _ => rewrite snd_tbind; apply bind_ext; [|intro]
  | |- snd (for_ranget _ _ _ _) = _ => apply snd_for_ranget; intros ? ?
  | |- snd (while_t _ _ _ _) = _ => apply snd_while_t; intros ?
  | |- snd (if ?b then _ else _) = _ => destruct b
  | |- snd (match ?x with pair _ _ => _ end) = _ => destruct x
  | |- ?a = ?a => reflexivity
  end.
Ltac te := repeat te1.

Section Erase.
Context {c : Cfg}.
Lemma te_add_wrapping_full : forall x y, snd (t_add_wrapping_full x y) = add_wrapping_full x y.
Proof. intros. unfold t_add_wrapping_full, add_wrapping_full. te. Qed.
Lemma te_add_overflowing_full : forall x y, snd (t_add_overflowing_full x y) = add_overflowing_full x y.
Proof. intros. unfold t_add_overflowing_full, add_overflowing_full. te. Qed.
Lemma te_sadd_wrapping_full : forall x y, snd (t_sadd_wrapping_full x y) = sadd_wrapping_full x y.
Proof. intros. unfold t_sadd_wrapping_full, sadd_wrapping_full. te. apply te_add_wrapping_full. Qed.
Lemma te_sadd_overflowing_full : forall x y, snd (t_sadd_overflowing_full x y) = sadd_overflowing_full x y.
Proof. intros. unfold t_sadd_overflowing_full, sadd_overflowing_full. te. Qed.
Lemma te_sub_wrapping_full : forall x y, snd (t_sub_wrapping_full x y) = sub_wrapping_full x y.
Proof. intros. unfold t_sub_wrapping_full, sub_wrapping_full. te. Qed.
Lemma te_sub_overflowing_full : forall x y, snd (t_sub_overflowing_full x y) = sub_overflowing_full x y.
Proof. intros. unfold t_sub_overflowing_full, sub_overflowing_full. te. Qed.
Lemma te_ssub_overflowing_full : forall x y, snd (t_ssub_overflowing_full x y) = ssub_overflowing_full x y.
Proof. intros. unfold t_ssub_overflowing_full, ssub_overflowing_full. te. Qed.
Lemma te_mac : forall a b d cy, snd (t_mac a b d cy) = mac a b d cy.
Proof. intros. unfold t_mac, mac. te. Qed.
Lemma te_mul_wrapping_full : forall x y, snd (t_mul_wrapping_full x y) = mul_wrapping_full x y.
Proof. intros. unfold t_mul_wrapping_full, mul_wrapping_full. repeat (te1 || apply te_mac). Qed.
Lemma te_mul_widening : forall x y, snd (t_mul_widening x y) = mul_widening x y.
Proof. intros. unfold t_mul_widening, mul_widening. repeat (te1 || apply te_mac). Qed.
Lemma te_mul_overflowing_full : forall x y, snd (t_mul_overflowing_full x y) = mul_overflowing_full x y.
Proof.
  intros. unfold t_mul_overflowing_full, mul_overflowing_full. te.
  - apply te_mac.
  - destruct (negb (a0 =? 0)), (negb (a1 =? 0)); reflexivity.
Qed.
Lemma te_shl_array : forall w x s, snd (t_shl_array w x s) = shl_array w x s.
Proof. intros. unfold t_shl_array, shl_array. te. Qed.
Lemma te_shr_array : forall w sg x s, snd (t_shr_array w sg x s) = shr_array w sg x s.
Proof.
  intros. unfold t_shr_array, shr_array. do 3 (rewrite snd_tbind; apply bind_ext; [te | intro]).
  rewrite snd_tbind. destruct sg; rewrite snd_tbind; cbn [rd quiet test snd];
    (destruct (get x (length x - 1)); cbn [bind andb snd]; [|reflexivity|reflexivity]).
  all: te.
Qed.
Lemma te_rotl_array : forall w x s, snd (t_rotl_array w x s) = rotl_array w x s.
Proof. intros. unfold t_rotl_array, rotl_array. te. Qed.
Lemma te_rotr_array : forall w x s, snd (t_rotr_array w x s) = rotr_array w x s.
Proof. intros. unfold t_rotr_array, rotr_array. te. apply te_rotl_array. Qed.

Lemma te_wrapping_add : forall sg x y, snd (t_wrapping_add sg x y) = wrapping_add sg x y.
Proof. intros. unfold t_wrapping_add, wrapping_add. te; [apply te_sadd_wrapping_full | apply te_add_wrapping_full]. Qed.
Lemma te_wrapping_sub : forall sg x y, snd (t_wrapping_sub sg x y) = wrapping_sub sg x y.
Proof.
  intros. unfold t_wrapping_sub, wrapping_sub, ssub_wrapping_full. te. rewrite te_sub_wrapping_full. destruct sg; reflexivity.
Qed.
Lemma te_wrapping_mul : forall sg x y, snd (t_wrapping_mul x y) = wrapping_mul sg x y.
Proof.
  intros. unfold t_wrapping_mul, wrapping_mul, smul_wrapping_full. te. rewrite te_mul_wrapping_full. destruct sg; reflexivity.
Qed.
Lemma te_overflowing_add : forall sg x y, snd (t_overflowing_add sg x y) = overflowing_add sg x y.
Proof.
  intros. unfold t_overflowing_add, overflowing_add, mk_flag. te; [apply te_sadd_overflowing_full | apply te_add_overflowing_full].
Qed.
Lemma te_overflowing_sub : forall sg x y, snd (t_overflowing_sub sg x y) = overflowing_sub sg x y.
Proof.
  intros. unfold t_overflowing_sub, overflowing_sub, mk_flag. te; [apply te_ssub_overflowing_full | apply te_sub_overflowing_full].
Qed.
Lemma te_u_overflowing_mul : forall x y, snd (t_u_overflowing_mul x y) = overflowing_mul false x y.
Proof. intros. unfold t_u_overflowing_mul, overflowing_mul, mk_flag. te. apply te_mul_overflowing_full. Qed.
Lemma te_opt : forall m m', snd m = m' -> snd (t_opt m) = opt m'.
Proof. intros m m' <-. unfold t_opt, opt. te. Qed.
Lemma te_checked_add : forall sg x y, snd (t_checked_add sg x y) = checked_add sg x y.
Proof. intros. apply te_opt, te_overflowing_add. Qed.
Lemma te_checked_sub : forall sg x y, snd (t_checked_sub sg x y) = checked_sub sg x y.
Proof. intros. apply te_opt, te_overflowing_sub. Qed.
Lemma te_not_const : forall x, snd (t_not_const x) = not_const x.
Proof. intros. unfold t_not_const, not_const. te. Qed.
Lemma te_bitwise : forall op x y, snd (t_bitwise op x y) = bitwise op x y.
Proof. intros. unfold t_bitwise, bitwise. te. Qed.
Lemma te_count_ones : forall x, snd (t_count_ones x) = count_ones x.
Proof. intros. unfold t_count_ones, count_ones. te. Qed.
Lemma te_count_zeros : forall x, snd (t_count_zeros x) = count_zeros x.
Proof. intros. unfold t_count_zeros, count_zeros. te; [apply te_not_const | apply te_count_ones]. Qed.
Lemma te_leading_zeros : forall x, snd (t_leading_zeros x) = leading_zeros x.
Proof. intros. unfold t_leading_zeros, leading_zeros, get_limb. te. Qed.
Lemma te_trailing_zeros : forall x, snd (t_trailing_zeros x) = trailing_zeros x.
Proof. intros. unfold t_trailing_zeros, trailing_zeros, get_limb. te. Qed.
Lemma te_rotate_left : forall x n, snd (t_rotate_left x n) = rotate_left x n.
Proof. intros. unfold t_rotate_left, rotate_left. te. apply te_rotl_array. Qed.
Lemma te_rotate_right : forall x n, snd (t_rotate_right x n) = rotate_right x n.
Proof. intros. unfold t_rotate_right, rotate_right. te. apply te_rotr_array. Qed.
Lemma te_wrapping_shl : forall x n, snd (t_wrapping_shl x n) = wrapping_shl x n.
Proof. intros. unfold t_wrapping_shl, wrapping_shl. te. apply te_shl_array. Qed.
Lemma te_wrapping_shr : forall sg x n, snd (t_wrapping_shr sg x n) = wrapping_shr sg x n.
Proof. intros. unfold t_wrapping_shr, wrapping_shr. te. apply te_shr_array. Qed.
Lemma te_eq_branchless : forall x y, snd (t_eq_branchless x y) = eq_branchless x y.
Proof. intros. unfold t_eq_branchless, eq_branchless. te. Qed.
Lemma te_eq_branched : forall x y, snd (t_eq_branched x y) = eq_branched x y.
Proof. intros. unfold t_eq_branched, eq_branched. te. Qed.
Lemma te_eq_const : forall x y, snd (t_eq_const x y) = eq_const x y.
Proof. intros. unfold t_eq_const, eq_const. te; [apply te_eq_branchless | apply te_eq_branched]. Qed.
Lemma te_ord_macro : forall sg op1 op2 x y, snd (t_ord_macro sg op1 op2 x y) = ord_macro sg op1 op2 x y.
Proof. intros. unfold t_ord_macro, ord_macro. te. Qed.
Lemma te_lt_const : forall sg x y, snd (t_lt_const sg x y) = lt_const sg x y.
Proof. intros. apply te_ord_macro. Qed.
Lemma te_le_const : forall sg x y, snd (t_le_const sg x y) = le_const sg x y.
Proof. intros. apply te_ord_macro. Qed.
Lemma te_gt_const : forall sg x y, snd (t_gt_const sg x y) = gt_const sg x y.
Proof. intros. unfold t_gt_const, gt_const. te. apply te_le_const. Qed.
Lemma te_ge_const : forall sg x y, snd (t_ge_const sg x y) = ge_const sg x y.
Proof. intros. unfold t_ge_const, ge_const. te. apply te_lt_const. Qed.
Lemma te_cmp_const : forall sg x y, snd (t_cmp_const sg x y) = cmp_const sg x y.
Proof. intros. unfold t_cmp_const, cmp_const. te. Qed.
Lemma te_is_negative : forall x, snd (t_is_negative x) = is_negative x.
Proof. intros. unfold t_is_negative, is_negative, get_limb. te. Qed.
Lemma te_is_positive : forall x, snd (t_is_positive x) = is_positive x.
Proof.
  intros. unfold t_is_positive, is_positive, most_significant_limb, get_limb. te. cbn [test snd]. reflexivity.
Qed.
End Erase.

(** ** Two runs side by side *)

(** outcomes of the same kind, with related values *)
Definition alike {A} (R : A -> A -> Prop) (r r' : res A) : Prop :=
  match r, r' with
  | Ok a, Ok a' => R a a'
  | Panic, Panic => True
  | OutOfFuel, OutOfFuel => True
  | _, _ => False
  end.
Definition same {A} (R : A -> A -> Prop) (m m' : tr A) : Prop := fst m = fst m' /\ alike R (snd m) (snd m').

Lemma same_bind : forall A B (R : A -> A -> Prop) (S : B -> B -> Prop) m m' k k',
  same R m m' -> (forall a a', R a a' -> same S (k a) (k' a')) -> same S (tbind m k) (tbind m' k').
Proof.
  intros A B R S (t & r) (t' & r') k k' (E & H) HK. unfold same. cbn [fst snd] in *. subst t'.
  rewrite !fst_tbind, !snd_tbind. cbn [fst snd].
  destruct r, r'; cbn [alike] in *; try contradiction; cbn [bind alike]; auto.
  destruct (HK _ _ H) as (E & H'). split; [congruence | exact H'].
Qed.
Lemma same_quiet : forall A (R : A -> A -> Prop) r r', alike R r r' -> same R (quiet r) (quiet r').
Proof. intros. split; auto. Qed.
Lemma same_ok : forall A (R : A -> A -> Prop) a a', R a a' -> same R (quiet (Ok a)) (quiet (Ok a')).
Proof. intros. split; auto. Qed.
Lemma same_assert : forall b, same (fun _ _ => True) (quiet (assert_ b)) (quiet (assert_ b)).
Proof. intros []; split; cbn; auto. Qed.
Lemma same_rd : forall a a' i, length a = length a' ->
  same (fun v v' => (i < length a)%nat /\ v = nth i a 0 /\ v' = nth i a' 0) (rd a i) (rd a' i).
Proof.
  intros a a' i HL. split; [reflexivity|]. cbn [rd snd].
  destruct (Nat.ltb_spec i (length a)).
  - rewrite !get_ok by lia. cbn. auto.
  - rewrite !get_panic by lia. exact I.
Qed.
Lemma same_wr : forall a a' i v v', length a = length a' ->
  same (fun r r' => (i < length a)%nat /\ r = upd a i v /\ r' = upd a' i v') (wr a i v) (wr a' i v').
Proof.
  intros a a' i v v' HL. split; [reflexivity|]. cbn [wr snd]. unfold set. rewrite <- HL.
  destruct (Nat.ltb_spec i (length a)); cbn; auto.
Qed.
Lemma same_test : forall b b', b = b' -> same (fun r r' => r = b /\ r' = b) (test b) (test b').
Proof. intros b b' <-. split; cbn; auto. Qed.
Lemma same_for : forall St (I : nat -> St -> St -> Prop) body body' k i s s',
  I i s s' -> (forall j s s', (i <= j < i + k)%nat -> I j s s' -> same (I (S j)) (body j s) (body' j s')) ->
  same (I (i + k)%nat) (for_t k i body s) (for_t k i body' s').
Proof.
  intros St I body body' k. induction k as [|k IH]; intros i s s' H0 HS; cbn [for_t].
  - apply same_ok. rewrite Nat.add_0_r. exact H0.
  - eapply same_bind; [apply HS; [lia | exact H0]|]. intros a a' Ha.
    replace (i + S k)%nat with (S i + k)%nat by lia. apply IH; auto. intros. apply HS; auto; lia.
Qed.
Lemma same_rng : forall St (R : St -> St -> Prop) body body' lo hi s s',
  R s s' -> (forall j s s', (lo <= j < hi)%nat -> R s s' -> same R (body j s) (body' j s')) ->
  same R (for_ranget lo hi body s) (for_ranget lo hi body' s').
Proof.
  intros St R body body' lo hi s s' H0 HS. unfold for_ranget.
  apply (same_for St (fun _ => R)); auto. intros j t t' Hj H. apply HS; auto; lia.
Qed.
Lemma same_weaken : forall A (R S : A -> A -> Prop) m m', same R m m' -> (forall a a', R a a' -> S a a') -> same S m m'.
Proof.
  intros A R S m m' (E & H) HK. split; auto. destruct (snd m), (snd m'); cbn in *; auto.
Qed.

(** arrays of one length *)
Definition eql (a a' : list Z) : Prop := length a = length a'.
Definition eqlf {A} (s s' : list Z * A) : Prop := eql (fst s) (fst s').
Lemma same_rd' : forall a a' i, eql a a' -> same (fun _ _ => True) (rd a i) (rd a' i).
Proof. intros. eapply same_weaken; [apply same_rd; auto|]. auto. Qed.
Lemma same_wr' : forall a a' i v v', eql a a' -> same eql (wr a i v) (wr a' i v').
Proof.
  intros. eapply same_weaken; [apply same_wr; auto|]. intros r r' (_ & -> & ->). unfold eql. rewrite !length_upd. auto.
Qed.
Lemma same_amount : forall {c : Cfg} w x x' s, same (fun _ _ => True) (t_ushl w x s) (t_ushl w x' s).
Proof. intros. split; [reflexivity|]. cbn [t_ushl snd]. unfold ushl. destruct (_ && _), chk; cbn; auto. Qed.
Lemma same_amountr : forall {c : Cfg} w x x' s, same (fun _ _ => True) (t_ushr w x s) (t_ushr w x' s).
Proof. intros. split; [reflexivity|]. cbn [t_ushr snd]. unfold ushr. destruct (_ && _), chk; cbn; auto. Qed.
Lemma same_amounts : forall {c : Cfg} w x x' s, same (fun _ _ => True) (t_sshr w x s) (t_sshr w x' s).
Proof. intros. split; [reflexivity|]. cbn [t_sshr snd]. unfold sshr. destruct (_ && _), chk; cbn; auto. Qed.
Lemma same_refl : forall A (m : tr A), same eq m m.
Proof. intros A (t & r). split; [reflexivity|]. cbn. destruct r; cbn; auto. Qed.
Lemma same_mk : forall {c : Cfg} a a', eql a a' -> same eql (quiet (mk a)) (quiet (mk a')).
Proof. intros. split; [reflexivity|]. cbn [quiet snd]. unfold mk. destruct (tbits mod 128 =? 0); cbn; auto. Qed.

(** One step.  [eql] and [eqlf] are the relations carried along. *)
Ltac sm1 :=
  match goal with
  | |- same _ (tbind (quiet (assert_ _)) _) _ => eapply same_bind; [apply same_assert | intros ? ? _]
  | |- same _ (tbind (rd _ _) _) _ => eapply same_bind; [apply same_rd'; assumption | intros ? ? _]
  | |- same _ (tbind (wr _ _ _) _) _ => eapply same_bind; [apply same_wr'; assumption | intros ? ? ?]
  | |- same _ (tbind (test ?b) _) _ => eapply same_bind; [apply same_test; reflexivity | intros ? ? (-> & ->)]
  | |- same _ (tbind (t_ushl _ _ _) _) _ => eapply same_bind; [apply same_amount | intros ? ? _]
  | |- same _ (tbind (t_ushr _ _ _) _) _ => eapply same_bind; [apply same_amountr | intros ? ? _]
  | |- same _ (tbind (t_sshr _ _ _) _) _ => eapply same_bind; [apply same_amounts | intros ? ? _]
  | |- same _ (tbind (t_usub _ ?a ?b) _) (tbind (t_usub _ ?a ?b) _) => eapply same_bind; [apply same_refl | intros ? ? ->]
  | |- same _ (tbind (t_dassert ?b) _) (tbind (t_dassert ?b) _) => eapply same_bind; [apply same_refl | intros ? ? _]
  | |- same _ (tbind (quiet (umul _ ?a ?b)) _) (tbind (quiet (umul _ ?a ?b)) _) => eapply same_bind; [apply same_refl | intros ? ? ->]
  | |- same _ (tbind (quiet (urem ?a ?b)) _) (tbind (quiet (urem ?a ?b)) _) => eapply same_bind; [apply same_refl | intros ? ? ->]
  | |- same _ (wr _ _ _) _ => apply same_wr'; assumption
  | |- same _ (for_ranget _ _ _ (_, _)) _ => apply same_rng; [unfold eqlf; cbn [fst]; assumption | intros ? (? & ?) (? & ?) ? ?]
  | |- same _ (for_ranget _ _ _ _) _ => apply same_rng; [assumption | intros ? ? ? ? ?]
  | |- same _ (if ?b then _ else _) (if ?b then _ else _) => destruct b
  | |- same eqlf (quiet (Ok (_, _))) _ => apply same_ok; assumption
  | |- same eql (quiet (Ok _)) _ => apply same_ok; assumption
  | H : eqlf (_, _) (_, _) |- _ => unfold eqlf in H; cbn [fst] in H
  end.
