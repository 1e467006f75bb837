(** * The limb products and divisions of reading and writing: lemmas (for C102) *)

Require Import ZArith List Bool Lia.
From Verif Require Import Prim Spec MAdd MMul MCore MArith MScalar MDiv MApi MParse MWrite MCost MCost2.
From Verif Require Import Facts PCore PWide PRet PArith PArith2 PPow PBits PBits2 PScalar PScalarDiv PDiv DivSpec TextSpec PApi PMulS PMisc PCost PropsCost
  PParse PParse2 PropsParse PWrite PWrite2 PropsWrite LangText PLangText.
Import ListNotations.
Local Open Scope Z_scope.

Section Erase.
Context {c : Cfg}.
Lemma er_div_rem_ulimb : forall sg x n, snd (c_div_rem_ulimb sg x n) = div_rem_us KLimb sg x n.
Proof.
  intros sg x n. unfold c_div_rem_ulimb, div_rem_us, checked_div_rem_us.
  assert (E : snd (c_wrapping_div_rem_ulimb sg x n) = wrapping_div_rem_us KLimb sg x n).
  { unfold c_wrapping_div_rem_ulimb, wrapping_div_rem_us, s_div_rem_u, u_div_rem. cbn [route dbits div_by kbits]. rewrite snd_cbind. cbn [free snd]. destruct sg.
    - destruct (unsigned_abs x) as [ux| |]; cbn [bind]; try reflexivity. rewrite snd_cbind, er_div_limb. destruct (div_limb ux (ucast W n)) as [(q & r)| |]; cbn [bind]; try reflexivity.
      rewrite snd_cbind. cbn [free snd]. destruct (mk q) as [q'| |]; cbn [bind]; try reflexivity.
      rewrite snd_cbind. cbn [free snd]. match goal with |- bind ?a _ = bind ?b _ => change b with a; destruct a as [(? & ?)| |] end; reflexivity.
    - cbn [bind]. rewrite snd_cbind, er_div_limb. destruct (div_limb x (ucast W n)) as [(q & r)| |]; cbn [bind]; try reflexivity.
      rewrite snd_cbind. cbn [free snd]. destruct (mk q) as [q'| |]; cbn [bind]; try reflexivity. }
  destruct (negb chk); [exact E|]. destruct (n =? 0); [reflexivity|]. rewrite E. unfold unwrap. destruct (wrapping_div_rem_us KLimb sg x n); reflexivity.
Qed.
Lemma er_write_loop : forall fuel sg limit start radix self index buffer,
  snd (c_write_loop fuel sg limit start radix self index buffer) = write_loop fuel sg limit start radix self index buffer.
Proof.
  induction fuel as [|fuel IH]; intros; cbn [c_write_loop write_loop]; repeat (er1 || apply er_div_rem_ulimb || apply IH).
Qed.
Lemma er_to_str_radix : forall sg x buffer radix, snd (c_to_str_radix sg x buffer radix) = to_str_radix sg x buffer radix.
Proof.
  intros. unfold c_to_str_radix, to_str_radix. destruct (_ || _); [reflexivity|]. destruct (_ <? _); [reflexivity|].
  rewrite snd_cbind. apply bind_ext; [reflexivity|]. intros n. cbv zeta. rewrite snd_cbind. apply bind_ext; [reflexivity|]. intros limit.
  rewrite snd_cbind. apply bind_ext; [apply er_write_loop|]. intros ((self & index) & b). reflexivity.
Qed.
Lemma er_u_display : forall x, snd (c_u_display x) = u_display x.
Proof. intros x. unfold c_u_display, u_display. rewrite snd_cbind. apply bind_ext; [apply er_to_str_radix|reflexivity]. Qed.
Lemma er_unchecked_loop : forall sg neg radix digits r, snd (c_unchecked_loop sg neg radix digits r) = unchecked_loop sg neg radix digits r.
Proof.
  intros sg neg radix digits. induction digits as [|ch t IH]; intros r; cbn [c_unchecked_loop unchecked_loop]; [reflexivity|].
  repeat (er1 || apply (er_scalar_w sg r) || apply IH).
Qed.
Lemma er_checked_loop : forall sg neg radix digits r, snd (c_checked_loop sg neg radix digits r) = checked_loop sg neg radix digits r.
Proof.
  intros sg neg radix digits. induction digits as [|ch t IH]; intros r; cbn [c_checked_loop checked_loop]; [reflexivity|].
  repeat (er1 || apply IH). apply er_opt. apply (er_scalar_o sg r).
Qed.
Lemma er_from_str_radix : forall sg src radix, snd (c_from_str_radix sg src radix) = from_str_radix sg src radix.
Proof.
  intros sg src radix. assert (P : forall neg d, snd (c_parse_digits sg neg radix d) = parse_digits sg neg radix d).
  { intros neg d. unfold c_parse_digits, parse_digits. repeat (er1 || apply er_unchecked_loop || apply er_checked_loop). }
  unfold c_from_str_radix, from_str_radix. destruct (_ || _); [reflexivity|]. destruct src as [|b t]; [reflexivity|]. repeat (er1 || apply P).
Qed.
Lemma er_from_str : forall small sg src, snd (c_from_str small sg src) = from_str small sg src.
Proof.
  intros small sg src. unfold c_from_str, from_str. cbv zeta. destruct (_ && _); [reflexivity|]. destruct (_ <? _); [reflexivity|]. apply er_from_str_radix.
Qed.
End Erase.

(** ** Places of a number *)

(** how many digits a number takes: none for 0 *)
Definition places (radix v : Z) : nat := if v <=? 0 then 0 else length (number_text radix v).
Lemma places_spec : forall radix v, 2 <= radix <= 36 -> 1 <= v ->
  (1 <= places radix v)%nat /\ radix ^ (Z.of_nat (places radix v) - 1) <= v < radix ^ Z.of_nat (places radix v).
Proof.
  intros radix v Hr Hv. unfold places. destruct (Z.leb_spec v 0); [lia|]. destruct (number_text_ok radix v Hr ltac:(lia)) as (C & U).
  pose proof (canonical_low radix v _ ltac:(lia) U C) as L. destruct C as (C1 & C2 & _). pose proof (numval_bound radix _ _ ltac:(lia) C2) as B.
  assert (1 <= length (number_text radix v))%nat by (destruct (number_text radix v); [contradiction|cbn [length]; lia]).
  split; auto. split; [|lia]. destruct L as [L|L]; [|exact L]. exfalso. rewrite L in C2. unfold numval, horner, digit_in in C2. cbn in C2.
  destruct (0 <? radix); inversion C2. lia.
Qed.
Lemma places_unique : forall radix v n, 2 <= radix <= 36 -> (1 <= n)%nat -> radix ^ (Z.of_nat n - 1) <= v < radix ^ Z.of_nat n -> places radix v = n.
Proof.
  intros radix v n Hr Hn H. assert (1 <= v) by (assert (0 < radix ^ (Z.of_nat n - 1)) by (apply Z.pow_pos_nonneg; lia); lia).
  destruct (places_spec radix v Hr H0) as (P1 & P2). set (p := places radix v) in *. destruct (Nat.lt_trichotomy p n) as [L|[L|L]]; auto; exfalso.
  - assert (radix ^ Z.of_nat p <= radix ^ (Z.of_nat n - 1)) by (apply Z.pow_le_mono_r; lia). lia.
  - assert (radix ^ Z.of_nat n <= radix ^ (Z.of_nat p - 1)) by (apply Z.pow_le_mono_r; lia). lia.
Qed.
Lemma places_small : forall radix v, 2 <= radix <= 36 -> 1 <= v < radix -> places radix v = 1%nat.
Proof. intros radix v Hr Hv. apply places_unique; auto. change (Z.of_nat 1 - 1) with 0. change (Z.of_nat 1) with 1. rewrite Z.pow_0_r, Z.pow_1_r. lia. Qed.
Lemma places_step : forall radix v, 2 <= radix <= 36 -> 1 <= v -> places radix v = S (places radix (v / radix)).
Proof.
  intros radix v Hr Hv. destruct (Z.lt_ge_cases v radix) as [L|L].
  - rewrite (places_small radix v), Z.div_small by lia. reflexivity.
  - assert (1 <= v / radix) by (apply Z.div_le_lower_bound; lia). destruct (places_spec radix (v / radix) Hr H) as (P1 & P2). set (p := places radix (v / radix)) in *.
    apply places_unique; [exact Hr|lia|]. pose proof (Z.div_mod v radix ltac:(lia)). pose proof (Z.mod_pos_bound v radix ltac:(lia)).
    replace (Z.of_nat (S p) - 1) with (Z.succ (Z.of_nat p - 1)) by lia. rewrite Z.pow_succ_r by lia.
    replace (Z.of_nat (S p)) with (Z.succ (Z.of_nat p)) by lia. rewrite Z.pow_succ_r by lia. nia.
Qed.
Lemma places_mono : forall radix u v, 2 <= radix <= 36 -> u <= v -> (places radix u <= places radix v)%nat.
Proof.
  intros radix u v Hr H. destruct (Z.lt_ge_cases u 1) as [L|L]; [unfold places; destruct (Z.leb_spec u 0); lia|].
  destruct (places_spec radix u Hr L) as (P1 & P2). destruct (places_spec radix v Hr ltac:(lia)) as (Q1 & Q2).
  destruct (Nat.le_gt_cases (places radix u) (places radix v)) as [|G]; auto. exfalso.
  assert (radix ^ Z.of_nat (places radix v) <= radix ^ (Z.of_nat (places radix u) - 1)) by (apply Z.pow_le_mono_r; lia). lia.
Qed.

Section P.
Context {c : Cfg}.
Hypothesis HV : Valid.

(** ** Writing *)
Lemma runs_div_rem_ulimb : forall sg x n, wf x -> 2 <= n <= 36 ->
  runs (c_div_rem_ulimb sg x n) (if Z.abs (val sg x) <? 2 ^ (2 * W) then [Div] else repeat Div N).
Proof.
  intros sg x n Hx Hn. assert (Ew : ucast W n = n) by (apply (ucast_limb HV); lia).
  assert (HW : 36 < 2 ^ W) by (destruct (W_cases HV) as [-> | ->]; reflexivity).
  assert (R : runs (c_wrapping_div_rem_ulimb sg x n) (if Z.abs (val sg x) <? 2 ^ (2 * W) then [Div] else repeat Div N)).
  { unfold c_wrapping_div_rem_ulimb. apply runs_skip. intros ux Eu.
    assert (Hu : wf ux /\ uval ux = Z.abs (val sg x)).
    { destruct sg; cbn [val].
      - rewrite (unsigned_abs_ok HV) in Eu by auto. inversion Eu; subst ux. split; [apply (wf_ofZ HV)|apply (abs_uval HV); auto].
      - inversion Eu; subst ux. split; auto. pose proof (uval_range HV x Hx) as R. unfold fits_u in R. lia. }
    destruct Hu as (Wu & Vu). rewrite <- Vu. rewrite <- (C95_limb_division c ux n HV Wu) by lia. rewrite Ew.
    apply runs_then; [intros a E; reflexivity|]. intros (q & rem) _. apply runs_skip. intros q' _. apply runs_skip. intros (q2 & r2) _. apply runs_free. }
  unfold c_div_rem_ulimb. destruct (negb chk); [exact R|]. destruct (Z.eqb_spec n 0); [lia|exact R].
Qed.
(** the divisions of the loop *)
Definition write_divs (radix v : Z) : nat := (places radix v - 1 + (N - 1) * places radix (v / 2 ^ (2 * W)))%nat.
Lemma write_divs_step : forall radix u, 2 <= radix <= 36 -> radix <= u ->
  repeat Div (write_divs radix u) = (if u <? 2 ^ (2 * W) then [Div] else repeat Div N) ++ repeat Div (write_divs radix (u / radix)).
Proof.
  intros radix u Hr Hu. assert (HT : 36 < 2 ^ (2 * W)) by (destruct (W_cases HV) as [-> | ->]; reflexivity). pose proof (N_ge4 HV) as H4.
  assert (1 <= u / radix) by (apply Z.div_le_lower_bound; lia). pose proof (places_spec radix (u / radix) Hr H) as (P1 & _).
  assert (G : forall n, n = length (if u <? 2 ^ (2 * W) then [Div] else repeat Div N) -> (if u <? 2 ^ (2 * W) then [Div] else repeat Div N) = repeat Div n).
  { intros n ->. destruct (u <? 2 ^ (2 * W)); [reflexivity|]. rewrite repeat_length. reflexivity. }
  rewrite (G _ eq_refl), <- repeat_app. f_equal. unfold write_divs. rewrite (places_step radix u Hr) by lia.
  rewrite Z.div_div, (Z.mul_comm radix), <- Z.div_div by lia. destruct (Z.ltb_spec u (2 ^ (2 * W))) as [L|L]; cbn [length].
  - rewrite (Z.div_small u (2 ^ (2 * W))) by lia. rewrite Z.div_0_l by lia. change (places radix 0) with 0%nat. rewrite !Nat.mul_0_r. lia.
  - rewrite repeat_length. rewrite (places_step radix (u / 2 ^ (2 * W)) Hr) by (apply Z.div_le_lower_bound; lia). nia.
Qed.
Lemma runs_write_loop : forall sg radix start fuel u index buffer, 2 <= radix <= 36 ->
  0 <= u -> fits sg u -> u < radix ^ (Z.of_nat index - Z.of_nat start + 1) -> (start <= index)%nat ->
  runs (c_write_loop fuel sg (ofZ radix) start radix (ofZ u) index buffer) (repeat Div (write_divs radix u)).
Proof.
  intros sg radix start fuel. induction fuel as [|fuel IH]; intros u index buffer Hr Hu Hf Hi Hs; cbn [c_write_loop].
  all: assert (Fr : fits sg radix) by (apply (radix_fits HV); auto).
  all: assert (HT : 36 < 2 ^ (2 * W)) by (destruct (W_cases HV) as [-> | ->]; reflexivity).
  all: rewrite (ge_const_ok HV) by apply (wf_ofZ HV); rewrite !(val_ofZ_small HV) by auto; rewrite cbind_free.
  all: assert (SMALL : u < radix -> write_divs radix u = 0%nat) by
    (intros L; unfold write_divs; rewrite (Z.div_small u (2 ^ (2 * W))) by lia; change (places radix 0) with 0%nat;
     destruct (Z.eq_dec u 0) as [->|]; [change (places radix 0) with 0%nat; lia|rewrite places_small by lia; lia]).
  all: destruct (Z.leb_spec radix u) as [L|L]; cbn [andb]; [|rewrite SMALL by lia; apply runs_free].
  all: destruct (Nat.ltb_spec start index) as [Li|Li];
    [|exfalso; replace (Z.of_nat index - Z.of_nat start + 1) with 1 in Hi by lia; rewrite Z.pow_1_r in Hi; lia].
  - intros a Ea. discriminate.
  - rewrite (write_divs_step radix u Hr L). apply runs_skip. intros i Ei. destruct index as [|j]; [discriminate|]. cbn [idx_pred] in Ei. inversion Ei; subst i.
    apply runs_bind.
    + rewrite (ucast_limb HV) by lia. pose proof (runs_div_rem_ulimb sg (ofZ u) radix (wf_ofZ HV u) Hr) as R. rewrite (val_ofZ_small HV), Z.abs_eq in R by auto. exact R.
    + intros (self & rem) Er. rewrite er_div_rem_ulimb in Er. rewrite (ucast_limb HV) in Er by lia.
      assert (HP36 : fits_u (kbits KLimb) radix) by (apply (small_limb HV); lia).
      rewrite (div_rem_us_ok HV) in Er; [|apply (wf_ofZ HV)|lia|exact HP36|left; cbn [kbits]; lia]. rewrite (val_ofZ_small HV) in Er by auto. inversion Er; subst self rem.
      apply runs_skip. intros ch _. apply runs_skip. intros b _.
      assert (0 <= u / radix <= u) by (split; [apply Z.div_pos; lia|apply Z.div_le_upper_bound; nia]).
      apply IH; auto; try lia.
      * destruct sg; cbn in *; unfold fits_s, fits_u in *; lia.
      * apply Z.div_lt_upper_bound; [lia|]. rewrite <- Z.pow_succ_r by lia. replace (Z.succ (Z.of_nat j - Z.of_nat start + 1)) with (Z.of_nat (S j) - Z.of_nat start + 1) by lia. exact Hi.
Qed.
Lemma write_count : forall sg x buffer radix, wf x -> 0 <= val sg x -> 2 <= radix <= 36 -> BITS + b2z sg <= Z.of_nat (length buffer) ->
  fst (c_to_str_radix sg x buffer radix) = repeat Div (write_divs radix (val sg x)).
Proof.
  intros sg x buffer radix Hx Hv Hr HL. destruct (to_str_radix_ok HV sg x buffer radix Hx Hv Hr HL) as (i & s & E & _).
  assert (R : runs (c_to_str_radix sg x buffer radix) (repeat Div (write_divs radix (val sg x)))).
  { unfold c_to_str_radix. destruct (Z.ltb_spec radix 2); [lia|]. destruct (Z.ltb_spec 36 radix); [lia|]. cbn [orb].
    destruct (Z.ltb_spec (Z.of_nat (length buffer)) (BITS + b2z sg)); [lia|]. rewrite (negative_ok HV) by auto. rewrite cbind_free.
    destruct (Z.ltb_spec (val sg x) 0); [lia|]. rewrite andb_false_r. cbv zeta. rewrite (limit_ok HV) by auto. rewrite cbind_free.
    assert (Ex : x = ofZ (val sg x)) by (destruct sg; cbn [val]; symmetry; [apply (ofZ_sval HV)|apply (ofZ_uval HV)]; auto).
    pose proof (fits_val HV sg x Hx) as Fv. pose proof (BITS_ge HV).
    apply runs_then; [|intros ((? & ?) & ?) _; apply runs_free].
    rewrite Ex at 1. apply runs_write_loop; auto; [|destruct sg; cbn [b2z] in HL; lia].
    assert (V : val sg x < 2 ^ BITS) by (pose proof (pBhalf HV); pose proof (pBh HV); destruct sg; cbn in Fv |- *; unfold fits_s, fits_u in Fv; lia).
    eapply Z.lt_le_trans; [exact V|]. apply Z.le_trans with (2 ^ (Z.of_nat (length buffer) - Z.of_nat 1 + 1)).
    - apply pow2_le_mono. destruct sg; cbn [b2z] in HL; lia.
    - apply Z.pow_le_mono_l. lia. }
  eapply R. rewrite er_to_str_radix. exact E.
Qed.

(** ** Reading *)

(** the digits at the start of a string *)
Fixpoint leading (radix : Z) (s : list Z) : nat :=
  match s with
  | ch :: t => match digit_in radix ch with Some _ => S (leading radix t) | None => O end
  | [] => O
  end.
Lemma leading_le : forall radix s, (leading radix s <= length s)%nat.
Proof. intros radix s. induction s as [|ch t IH]; cbn; [lia|]. destruct (digit_in radix ch); lia. Qed.
Lemma leading_all : forall radix s v, numval radix s = Some v -> leading radix s = length s.
Proof.
  intros radix s v. unfold numval. assert (forall a, horner radix a s = Some v -> leading radix s = length s); [|eauto].
  induction s as [|ch t IH]; intros a H; cbn in *; [reflexivity|]. destruct (digit_in radix ch); [|discriminate]. f_equal. eauto.
Qed.
Lemma unchecked_count : forall sg neg radix s r, wf r -> 2 <= radix <= 36 -> bytes s ->
  runs (c_unchecked_loop sg neg radix s r) (repeat Mul (leading radix s * N)).
Proof.
  intros sg neg radix s. induction s as [|ch t IH]; intros r Hr Hx Hb; cbn [c_unchecked_loop leading]; [apply runs_free|].
  inversion Hb as [|? ? Hc Ht]; subst. rewrite char_to_digit_ok by auto. rewrite cbind_free. destruct (digit_in radix ch) as [d|] eqn:E; [|apply runs_free].
  pose proof (digit_in_range _ _ _ E). rewrite !(ucast_limb HV) by lia. cbn [Nat.mul]. rewrite repeat_app. pose proof (C95_scalar c r radix HV Hr) as (S & _). destruct S as (S & _); [apply (small_limb HV); lia|].
  apply runs_bind; [intros a _; exact S|]. intros r1 E1. destruct (er_scalar_w sg r radix) as (Ew & _). rewrite Ew in E1.
  rewrite (wrapping_ulimb_ok HV) in E1 by (auto; apply (small_limb HV); lia). inversion E1; subst r1.
  apply runs_skip. intros r2 E2. rewrite (wrapping_ulimb_ok HV) in E2 by (try apply (wf_ofZ HV); apply (small_limb HV); lia). inversion E2; subst r2. apply IH; auto. apply (wf_ofZ HV).
Qed.
Definition mul_cost (sg : bool) : nat := if sg then tri N else N.
Lemma cbind_Ok : forall A B t (a : A) (f : A -> co B), cbind (t, Ok a) f = (t ++ fst (f a), snd (f a)).
Proof. intros. unfold cbind. destruct (f a). reflexivity. Qed.
Lemma checked_count : forall sg neg radix s r p, wf r -> 2 <= radix <= 36 -> bytes s ->
  snd (c_checked_loop sg neg radix s r) = Ok p -> exists k, (k <= leading radix s)%nat /\
    fst (c_checked_loop sg neg radix s r) = repeat Mul (k * mul_cost sg) /\
    ((exists v, p = POk v) \/ p = PErr EInvalidDigit -> k = leading radix s) /\ ((exists e, p = PErr e) -> p <> PErr EInvalidDigit -> (1 <= k)%nat).
Proof.
  intros sg neg radix s. induction s as [|ch t IH]; intros r p Hr Hx Hb; cbn [c_checked_loop leading].
  { intros H. cbn in H. inversion H; subst p. exists 0%nat. split; auto. split; [reflexivity|]. split; auto. intros (? & X). discriminate. }
  inversion Hb as [|? ? Hc Ht]; subst. rewrite char_to_digit_ok by auto. rewrite cbind_free. destruct (digit_in radix ch) as [d|] eqn:E.
  2:{ intros H. cbn in H. inversion H; subst p. exists 0%nat. split; auto. split; [reflexivity|]. split; auto. intros _ X. contradiction. }
  pose proof (digit_in_range _ _ _ E). rewrite !(ucast_limb HV) by lia.
  pose proof (C95_scalar c r radix HV Hr) as (S & _). destruct S as (_ & S1 & S2); [apply (small_limb HV); lia|].
  assert (SC : fst (c_overflowing_mul_ulimb sg r radix) = repeat Mul (mul_cost sg)) by (destruct sg; auto).
  assert (ER : snd (c_opt (c_overflowing_mul_ulimb sg r radix)) = checked_us SMul KLimb sg r radix) by (apply er_opt; apply (er_scalar_o sg r)).
  assert (FO : fst (c_opt (c_overflowing_mul_ulimb sg r radix)) = repeat Mul (mul_cost sg)).
  { assert (RR : runs (c_opt (c_overflowing_mul_ulimb sg r radix)) (repeat Mul (mul_cost sg))) by (apply runs_opt; intros a _; exact SC).
    eapply RR. rewrite ER. apply (checked_us_ok HV); [exact Hr|apply (small_limb HV); lia|]. intros _ HS. destruct HS as (HS & _). discriminate. }
  rewrite (checked_us_ok HV) in ER; [|exact Hr|apply (small_limb HV); lia|intros _ (HS & _); discriminate].
  destruct (c_opt (c_overflowing_mul_ulimb sg r radix)) as (tr & res) eqn:EC. cbn [fst snd] in FO, ER. subst tr res.
  rewrite cbind_Ok. cbn [fst snd]. unfold some_if at 1 2. destruct (negb (oflag SMul sg (val sg r) radix)).
  2:{ cbn. intros H'. inversion H'; subst p. exists 1%nat. split; [lia|]. rewrite app_nil_r. split; [f_equal; lia|]. split; [|auto]. intros [(v & X)|X]; [discriminate|destruct neg; discriminate]. }
  rewrite (checked_us_ok HV); [|apply (wf_ofZ HV)|apply (small_limb HV); lia|intros _ (HS & _); discriminate].
  rewrite cbind_free. unfold some_if. destruct (negb _).
  2:{ cbn. intros H'. inversion H'; subst p. exists 1%nat. split; [lia|]. rewrite app_nil_r. split; [f_equal; lia|]. split; [|auto]. intros [(v & X)|X]; [discriminate|destruct neg; discriminate]. }
  match goal with |- context [c_checked_loop sg neg radix t ?y] => set (r' := y) end.
  destruct (c_checked_loop sg neg radix t r') as (u & q) eqn:EL. cbn [fst snd]. intros H'. destruct (IH r' p) as (k & K1 & K2 & K3 & K4); auto; [apply (wf_ofZ HV)|rewrite EL; exact H'|].
  rewrite EL in K2. cbn [fst] in K2. exists (S k). split; [lia|]. rewrite K2, <- repeat_app. split; [f_equal; lia|]. split; [intros X; f_equal; auto|]. intros; lia.
Qed.
(** the digits read when a number gets too large *)
Lemma checked_count_pos : forall sg radix s acc, 2 <= radix <= 36 -> bytes s -> 0 <= acc <= hi_of sg ->
  snd (c_checked_loop sg false radix s (ofZ acc)) = Ok (PErr EPosOverflow) ->
  exists p ch t v u, s = p ++ ch :: t /\ horner radix acc p = Some v /\ v <= hi_of sg /\ horner radix acc (p ++ [ch]) = Some u /\ hi_of sg < u /\
    fst (c_checked_loop sg false radix s (ofZ acc)) = repeat Mul (S (length p) * mul_cost sg).
Proof.
  intros sg radix s. induction s as [|ch t IH]; intros acc Hr Hb Ha; cbn [c_checked_loop]; [discriminate|].
  inversion Hb as [|? ? Hc Ht]; subst. rewrite char_to_digit_ok by auto. rewrite cbind_free. destruct (digit_in radix ch) as [d|] eqn:E; [|discriminate].
  pose proof (digit_in_range _ _ _ E) as Hd. rewrite !(ucast_limb HV) by lia.
  assert (FP : forall v, 0 <= v <= hi_of sg -> fits sg v).
  { intros v Hv. pose proof (pBh HV). pose proof (pB HV). destruct sg; cbn in *; unfold fits_s, fits_u; lia. }
  assert (FN : forall v, hi_of sg < v -> ~ fits sg v).
  { intros v Hv. destruct sg; cbn in *; unfold fits_s, fits_u; lia. }
  set (r := ofZ acc). assert (Hw : wf r) by apply (wf_ofZ HV).
  pose proof (C95_scalar c r radix HV Hw) as (S & _). destruct S as (_ & S1 & S2); [apply (small_limb HV); lia|].
  assert (SC : fst (c_overflowing_mul_ulimb sg r radix) = repeat Mul (mul_cost sg)) by (destruct sg; auto).
  assert (ER : snd (c_opt (c_overflowing_mul_ulimb sg r radix)) = checked_us SMul KLimb sg r radix) by (apply er_opt; apply (er_scalar_o sg r)).
  assert (FO : fst (c_opt (c_overflowing_mul_ulimb sg r radix)) = repeat Mul (mul_cost sg)).
  { assert (RR : runs (c_opt (c_overflowing_mul_ulimb sg r radix)) (repeat Mul (mul_cost sg))) by (apply runs_opt; intros a _; exact SC).
    eapply RR. rewrite ER. apply (checked_us_ok HV); [exact Hw|apply (small_limb HV); lia|]. intros _ HS. destruct HS as (HS & _). discriminate. }
  rewrite (checked_us_ok HV) in ER; [|exact Hw|apply (small_limb HV); lia|intros _ (HS & _); discriminate].
  destruct (c_opt (c_overflowing_mul_ulimb sg r radix)) as (tr & res) eqn:EC. cbn [fst snd] in FO, ER. subst tr res.
  rewrite cbind_Ok. cbn [fst snd]. cbn [sopz oflag]. unfold r. rewrite (val_ofZ_small HV) by auto.
  assert (HERE : hi_of sg < acc * radix + d -> exists p ch0 t0 v u, ch :: t = p ++ ch0 :: t0 /\ horner radix acc p = Some v /\ v <= hi_of sg /\
    horner radix acc (p ++ [ch0]) = Some u /\ hi_of sg < u /\ repeat Mul (mul_cost sg) ++ [] = repeat Mul (Datatypes.S (length p) * mul_cost sg)).
  { intros L. exists [], ch, t, acc, (acc * radix + d). split; [reflexivity|]. split; [reflexivity|]. split; [lia|]. cbn [app horner]. rewrite E. split; [reflexivity|]. split; [exact L|].
    rewrite app_nil_r. cbn [length]. f_equal. lia. }
  destruct (Z.le_gt_cases (acc * radix) (hi_of sg)) as [Hm|Hm].
  - rewrite (mulf_fits HV) by (apply FP; nia). cbn [negb some_if].
    rewrite (checked_us_ok HV); [|apply (wf_ofZ HV)|apply (small_limb HV); lia|intros _ (HS & _); discriminate]. rewrite cbind_free. cbn [sopz oflag].
    rewrite (val_ofZ_small HV) by (apply FP; nia). rewrite negb_involutive. destruct (Z.leb_spec (acc * radix + d) (hi_of sg)) as [Hs|Hs].
    + replace (fitsb sg (acc * radix + d)) with true by (symmetry; apply fitsb_spec; apply FP; nia). cbn [some_if]. intros H.
      destruct (IH (acc * radix + d) Hr Ht ltac:(nia) H) as (p & ch0 & t0 & v & u & I1 & I2 & I3 & I4 & I5 & I6).
      exists (ch :: p), ch0, t0, v, u. rewrite I6, I1. split; [reflexivity|]. cbn [horner app]. rewrite E. repeat (split; auto). rewrite <- repeat_app. f_equal.
    + destruct (fitsb_reflect sg (acc * radix + d)) as [F|F]; [exfalso; apply (FN _ Hs F)|]. intros _. cbn. apply HERE. exact Hs.
  - assert (M : mulf sg acc radix = true).
    { rewrite (mulf_ovf HV). unfold ovf. destruct sg; cbn in Hm.
      - destruct (Z.leb_spec (2 ^ (BITS - 1)) (acc * radix)); [reflexivity|lia].
      - destruct (fitsb_reflect false (acc * radix)) as [F|F]; [exfalso; apply (FN _ Hm F)|reflexivity]. }
    rewrite M. cbn [negb some_if]. intros _. cbn. apply HERE. lia.
Qed.
End P.
