(** * Exponentiation: proofs about the pow functions of MArith.v *)

Require Import ZArith Zpow_facts List Bool Lia.
From Verif Require Import Prim Spec Facts MAdd PAdd PAddS MMul PMul PMulS MShift PShift PRot MCore PCore PBits PWide MArith PArith PArith2.
Import ListNotations.
Local Open Scope Z_scope.

Lemma land_1 : forall e, Z.land e 1 = e mod 2.
Proof. intros e. change 1 with (Z.ones 1). rewrite Z.land_ones by lia. reflexivity. Qed.

Section Abs.
(** Arithmetic behind the overflow flag: [H] is the positive limit, [T] the
    magnitude from which a negative product is flagged. *)
Variables H T : Z.
Hypothesis HH : 4 <= H.
Hypothesis HT : H < T.
Hypothesis HT2 : 2 * (T - H) <= H.
Definition ovP (v : Z) : Prop := H <= v \/ v <= - T.
Definition inv (a b : Z) : Prop := b = 0 \/ b = 1 \/ 1 <= a \/ a <= -2.

Lemma sq_ge2 : forall b, 0 <= b -> H <= b * b -> 2 <= b.
Proof. intros b Hb Hs. assert (b <> 0 /\ b <> 1) by (split; intros ->; lia). lia. Qed.
Lemma flag_even : forall a b q, 0 <= b -> inv a b -> H <= b * b -> b * b <= q -> ovP (a * q).
Proof.
  intros a b q Hb Hi Hs Hq. pose proof (sq_ge2 b Hb Hs). unfold ovP.
  destruct Hi as [Hi|[Hi|[Hi|Hi]]]; try lia; [left|right]; nia.
Qed.
Lemma flag_odd : forall a b q, 0 <= b -> inv a b -> H <= b * b -> b * b <= q -> ovP (a * b * q).
Proof.
  intros a b q Hb Hi Hs Hq. pose proof (sq_ge2 b Hb Hs). unfold ovP.
  assert (b * q >= q) by nia.
  destruct Hi as [Hi|[Hi|[Hi|Hi]]]; try lia; [left|right]; nia.
Qed.
Lemma flag_acc : forall p q, ovP p -> 1 <= q -> ovP (p * q).
Proof. intros p q [Hp|Hp] Hq; [left|right]; nia. Qed.
(** The missed overflow still ends flagged, on both sides. *)
Lemma missed_mod : forall p q, - T < p -> p < - H -> 4 <= q -> ovP ((p + 2 * H) * q).
Proof. intros p q H1 H2 Hq. left. nia. Qed.
Lemma missed_true : forall p q, p < - H -> 4 <= q -> ovP (p * q).
Proof. intros p q H2 Hq. right. nia. Qed.
End Abs.

Section P.
Context {c : Cfg}.
Hypothesis HV : Valid.
Local Notation W0 := (W_nonneg HV).

(** When a product is reported as overflowing, as a function of the exact
    product: precise for the unsigned type; for the signed type the products
    in the window just below the minimum are missed. *)
Definition ovf (sg : bool) (v : Z) : bool :=
  if sg then (2 ^ (BITS - 1) <=? v) || (v <=? - (2 ^ (BITS - 1) + 2 ^ (BITS - W))) else negb (fitsb false v).
Lemma mulf_ovf : forall sg a b, mulf sg a b = ovf sg (a * b).
Proof.
  intros [] a b; [|reflexivity]. unfold ovf. pose proof (pBh HV). pose proof (pow_slack HV).
  destruct (Z.lt_ge_cases (a * b) 0) as [Hn|Hn].
  - rewrite mulf_s_neg by auto. destruct (Z.leb_spec (2 ^ (BITS - 1)) (a * b)); [lia|reflexivity].
  - rewrite (mulf_s_nonneg HV) by auto.
    destruct (Z.leb_spec (a * b) (- (2 ^ (BITS - 1) + 2 ^ (BITS - W)))); [lia|]. rewrite orb_false_r. reflexivity.
Qed.
Lemma ovf_fits : forall sg v, fits sg v -> ovf sg v = false.
Proof. intros sg v H. rewrite <- (Z.mul_1_l v), <- mulf_ovf. apply (mulf_fits HV). rewrite Z.mul_1_l. auto. Qed.
Lemma slack2 : 2 * 2 ^ (BITS - W) <= 2 ^ (BITS - 1) /\ 4 <= 2 ^ (BITS - 1) /\ 0 < 2 ^ (BITS - W).
Proof.
  pose proof (BITS_ge HV). pose proof (W_pos HV). split; [|split].
  - replace (2 * 2 ^ (BITS - W)) with (2 ^ (BITS - W + 1)).
    + apply pow2_le_mono. lia.
    + rewrite Z.pow_add_r by lia. ring.
  - change 4 with (2 ^ 2). apply pow2_le_mono. lia.
  - apply pow2_pos. lia.
Qed.

Lemma pow_split : forall b e, 0 <= e -> b ^ e = (b * b) ^ (e / 2) * (if e mod 2 =? 1 then b else 1).
Proof.
  intros b e He. pose proof (Z.div_mod e 2 ltac:(lia)). pose proof (Z.mod_pos_bound e 2 ltac:(lia)).
  assert (0 <= e / 2) by (apply Z.div_pos; lia).
  rewrite <- Z.pow_2_r, <- Z.pow_mul_r by lia.
  destruct (Z.eqb_spec (e mod 2) 1) as [E|E].
  - rewrite H, E at 1. rewrite Z.pow_add_r, Z.pow_1_r by lia. auto.
  - rewrite Z.mul_1_r. f_equal. lia.
Qed.
Lemma ofZ_pow_l : forall sg a v e, 0 <= e -> ofZ (a * wrapz sg v ^ e) = ofZ (a * v ^ e).
Proof.
  intros sg a v e He. destruct (wrapz_cong HV sg v) as (k & E). rewrite E.
  apply (ofZ_eq_mod HV). pose proof (pB HV).
  rewrite (Zmult_mod a (_ ^ _)), (Zmult_mod a (v ^ e)). f_equal. f_equal.
  rewrite (Zpower_mod (v + _)), (Zpower_mod v), Z.mod_add by lia. reflexivity.
Qed.
Lemma ofZ_mul_wrap : forall sg v b, ofZ (wrapz sg v * b) = ofZ (v * b).
Proof. intros. apply (ofZ_mul_l HV). Qed.

Lemma half_bounds : forall e fuel, 1 < e < 2 ^ Z.of_nat (S fuel) -> 1 <= e / 2 < 2 ^ Z.of_nat fuel.
Proof.
  intros e fuel H. rewrite Nat2Z.inj_succ, Z.pow_succ_r in H by lia. split.
  - apply Z.div_le_lower_bound; lia.
  - apply Z.div_lt_upper_bound; lia.
Qed.

Lemma wrapping_pow_loop_ok : forall sg fuel e base acc, wf base -> wf acc -> 1 <= e < 2 ^ Z.of_nat fuel ->
  wrapping_pow_loop sg fuel e base acc = Ok (ofZ (val sg acc * val sg base ^ e)).
Proof.
  intros sg fuel. induction fuel as [|fuel IH]; intros e base acc Hb Ha He.
  - cbn in He. lia.
  - assert (NX : forall acc', wf acc' -> 1 < e ->
      (let* _ := dassert (negb (e / 2 =? 0)) in wrapping_pow_loop sg fuel (e / 2) (ofZ (val sg base * val sg base)) acc')
      = Ok (ofZ (val sg acc' * (val sg base * val sg base) ^ (e / 2)))).
    { intros acc' Ha' H1. pose proof (half_bounds e fuel ltac:(lia)) as Hh. run.
      destruct (Z.eqb_spec (e / 2) 0); [lia|]. cbn [negb]. rewrite dassert_true. cbn [bind].
      rewrite IH by (auto with wfdb). rewrite (val_ofZ HV), ofZ_pow_l by lia. reflexivity. }
    cbn [wrapping_pow_loop]. rewrite land_1. rewrite (pow_split (val sg base) e) by lia.
    destruct (Z.eqb_spec (e mod 2) 1) as [E|E].
    + run. destruct (Z.eqb_spec e 1) as [E1|E1].
      * subst e. change (1 / 2) with 0. rewrite Z.pow_0_r, Z.mul_1_l. reflexivity.
      * cbv zeta. rewrite NX by (auto with wfdb; lia). rewrite (val_ofZ HV), ofZ_mul_wrap. do 2 f_equal. ring.
    + assert (e <> 1) by (intros ->; apply E; reflexivity).
      cbv zeta. run. rewrite NX by (auto; lia). rewrite Z.mul_1_r. reflexivity.
Qed.
Lemma pow_fuel_ok : forall e, 0 <= e < 2 ^ 32 -> e <> 0 -> 1 <= e < 2 ^ Z.of_nat pow_fuel.
Proof. intros. change (Z.of_nat pow_fuel) with 32. lia. Qed.
Lemma wrapping_pow_ok : forall sg x e, wf x -> 0 <= e < 2 ^ 32 ->
  wrapping_pow sg x e = Ok (ofZ (val sg x ^ e)).
Proof.
  intros sg x e Hx He. unfold wrapping_pow. run. destruct (Z.eqb_spec e 0) as [->|E].
  - reflexivity.
  - rewrite wrapping_pow_loop_ok by (auto with wfdb; apply pow_fuel_ok; auto). rewrite (val_lit HV) by lia.
    rewrite Z.mul_1_l. reflexivity.
Qed.

Lemma ovf_s_spec : forall v, ovf true v = true <-> ovP (2 ^ (BITS - 1)) (2 ^ (BITS - 1) + 2 ^ (BITS - W)) v.
Proof. intros v. unfold ovf, ovP. rewrite orb_true_iff, Z.leb_le, Z.leb_le. tauto. Qed.
Lemma ovf_u_spec : forall v, 0 <= v -> (ovf false v = true <-> 2 ^ BITS <= v).
Proof.
  intros v Hv. unfold ovf. rewrite negb_true_iff. destruct (fitsb_reflect false v) as [F|F]; cbn in F; unfold fits_u in F;
    intuition (try congruence; lia).
Qed.

(** One step of the loop, as a statement about exact values: from [a], [b]
    with the invariant, multiplying by [b] (or not) and squaring [b]; [q] is
    the remaining power of the square. *)
Lemma ovf_step : forall sg a b m e', fits sg a -> fits sg b -> 0 <= b -> inv a b ->
  (m = b \/ m = 1) -> 1 <= e' ->
  let q := (b * b) ^ e' in
  (ovf sg (a * m) || ovf sg (b * b) = true -> ovf sg (a * m * q) = true) /\
  (ovf sg (a * m) || ovf sg (b * b) = false ->
     wrapz sg (b * b) = b * b /\ 0 <= b * b /\ inv (wrapz sg (a * m)) (b * b) /\
     ovf sg (wrapz sg (a * m) * q) = ovf sg (a * m * q)).
Proof.
  intros sg a b m e' Fa Fb Hb Hi Hm He q.
  assert (Q0 : b = 0 -> q = 0) by (intros ->; unfold q; apply Z.pow_0_l; lia).
  assert (Q1 : b = 1 -> q = 1) by (intros ->; unfold q; apply Z.pow_1_l; lia).
  assert (Q2 : 1 <= b -> b * b <= q).
  { intros. unfold q. rewrite <- (Z.pow_1_r (b * b)) at 1. apply Z.pow_le_mono_r; nia. }
  assert (Qn : 0 <= q) by (destruct (Z.eq_dec b 0); [rewrite Q0 by auto; lia|assert (b * b <= q) by (apply Q2; lia); nia]).
  clearbody q. pose proof slack2 as (S1 & S2 & S3). pose proof (pBhalf HV) as HB.
  destruct sg.
  - set (Hh := 2 ^ (BITS - 1)) in *. set (T := Hh + 2 ^ (BITS - W)) in *.
    assert (HT : Hh < T) by (unfold T; lia). assert (HT2 : 2 * (T - Hh) <= Hh) by (unfold T; lia).
    assert (Fa' : - Hh <= a < Hh) by exact Fa. assert (Fb' : - Hh <= b < Hh) by exact Fb.
    split.
    + rewrite orb_true_iff, !ovf_s_spec. fold Hh T. intros [O|O].
      * (* the accumulator product *)
        destruct Hm as [->| ->].
        -- assert (b <> 0) by (intros ->; rewrite Z.mul_0_r in O; destruct O; lia).
           assert (b * b <= q) by (apply Q2; lia). apply flag_acc; auto; nia.
        -- rewrite Z.mul_1_r in O. destruct O; lia.
      * destruct O as [O|O]; [|nia]. pose proof (sq_ge2 Hh S2 b Hb O). assert (b * b <= q) by (apply Q2; lia).
        destruct Hm as [->| ->].
        -- apply flag_odd; auto.
        -- rewrite Z.mul_1_r. apply flag_even with b; auto; lia.
    + rewrite orb_false_iff. intros (O1 & O2).
      assert (O2' : b * b < Hh).
      { destruct (Z.lt_ge_cases (b * b) Hh); auto. assert (ovf true (b * b) = true) by (apply ovf_s_spec; left; fold Hh; lia). congruence. }
      assert (O1' : - T < a * m < Hh).
      { destruct (Z.lt_ge_cases (a * m) Hh) as [C1|C1].
        - destruct (Z.lt_ge_cases (- T) (a * m)) as [C2|C2]; auto.
          assert (ovf true (a * m) = true) by (apply ovf_s_spec; right; fold Hh T; lia). congruence.
        - assert (ovf true (a * m) = true) by (apply ovf_s_spec; left; fold Hh; lia). congruence. }
      split; [apply (wrapz_small HV); cbn; unfold fits_s; fold Hh; nia|]. split; [nia|].
      destruct (Z.lt_ge_cases (a * m) (- Hh)) as [M|M].
      * (* missed overflow *)
        assert (m = b /\ 2 <= b).
        { destruct Hm as [->| ->]; [|lia]. split; auto. assert (b <> 0 /\ b <> 1) by (split; intros ->; lia). lia. }
        destruct H as (-> & Hb2). assert (Wr : wrapz true (a * b) = a * b + 2 * Hh).
        { cbn [wrapz]. apply swrap_unique with (-1); [apply (BITS_pos HV)| |]; fold Hh; try lia. }
        rewrite Wr. split; [right; right; left; lia|].
        assert (b * b <= q) by (apply Q2; lia). assert (4 <= q) by nia.
        transitivity true; [|symmetry]; apply ovf_s_spec; fold Hh T.
        -- apply missed_mod; auto; lia.
        -- apply missed_true; auto; lia.
      * rewrite (wrapz_small HV) by (cbn; unfold fits_s; fold Hh; lia). split; [|reflexivity].
        unfold inv in *. destruct (Z.eq_dec b 0); [subst; left; lia|]. destruct (Z.eq_dec b 1); [subst; right; left; lia|].
        right. right. destruct Hm as [->| ->]; nia.
  - set (P := 2 ^ BITS) in *. assert (Fa' : 0 <= a < P) by exact Fa. assert (Fb' : 0 <= b < P) by exact Fb.
    assert (Hm0 : 0 <= m) by lia. split.
    + rewrite orb_true_iff, !ovf_u_spec by nia. fold P. intros [O|O].
      * destruct Hm as [->| ->]; [|lia]. assert (b <> 0) by (intros ->; lia).
        assert (b * b <= q) by (apply Q2; lia). nia.
      * assert (1 <= b) by nia. assert (b * b <= q) by (apply Q2; lia).
        destruct (Z.eq_dec b 1); [subst; lia|]. assert (1 <= a) by (destruct Hi as [Hi|[Hi|[Hi|Hi]]]; lia).
        assert (1 <= a * m) by nia. nia.
    + rewrite orb_false_iff. intros (O1 & O2).
      assert (O2' : b * b < P).
      { destruct (Z.lt_ge_cases (b * b) P); auto. assert (ovf false (b * b) = true) by (apply ovf_u_spec; fold P; nia). congruence. }
      assert (O1' : a * m < P).
      { destruct (Z.lt_ge_cases (a * m) P); auto. assert (ovf false (a * m) = true) by (apply ovf_u_spec; fold P; nia). congruence. }
      split; [apply (wrapz_small HV); cbn; unfold fits_u; fold P; nia|]. split; [nia|].
      rewrite (wrapz_small HV) by (cbn; unfold fits_u; fold P; nia). split; [|reflexivity].
      unfold inv in *. destruct (Z.eq_dec b 0); [subst; left; lia|]. destruct (Z.eq_dec b 1); [subst; right; left; lia|].
      right. right. destruct Hm as [->| ->]; nia.
Qed.

Lemma overflowing_pow_loop_ok : forall sg fuel e base acc o, wf base -> wf acc -> 1 <= e < 2 ^ Z.of_nat fuel ->
  exists f, overflowing_pow_loop sg fuel e base acc o = Ok (ofZ (val sg acc * val sg base ^ e), f) /\
    (o = true -> f = true) /\
    (o = false -> 0 <= val sg base -> inv (val sg acc) (val sg base) -> f = ovf sg (val sg acc * val sg base ^ e)).
Proof.
  intros sg fuel. induction fuel as [|fuel IH]; intros e base acc o Hb Ha He.
  - cbn in He. lia.
  - assert (NX : forall acc' o', wf acc' -> 1 < e -> exists f,
      (let* _ := dassert (negb (e / 2 =? 0)) in
       overflowing_pow_loop sg fuel (e / 2) (ofZ (val sg base * val sg base)) acc' (o' || ovf sg (val sg base * val sg base)))
      = Ok (ofZ (val sg acc' * (val sg base * val sg base) ^ (e / 2)), f) /\
      (o' || ovf sg (val sg base * val sg base) = true -> f = true) /\
      (o' || ovf sg (val sg base * val sg base) = false ->
        0 <= wrapz sg (val sg base * val sg base) -> inv (val sg acc') (wrapz sg (val sg base * val sg base)) ->
        f = ovf sg (val sg acc' * wrapz sg (val sg base * val sg base) ^ (e / 2)))).
    { intros acc' o' Ha' H1. pose proof (half_bounds e fuel ltac:(lia)) as Hh.
      destruct (Z.eqb_spec (e / 2) 0); [lia|]. cbn [negb]. rewrite dassert_true. cbn [bind].
      destruct (IH (e / 2) (ofZ (val sg base * val sg base)) acc' (o' || ovf sg (val sg base * val sg base)))
        as (f & E & F1 & F2); auto with wfdb.
      rewrite (val_ofZ HV) in *. rewrite ofZ_pow_l in E by lia. exists f. auto. }
    cbn [overflowing_pow_loop]. rewrite land_1. rewrite (pow_split (val sg base) e) by lia.
    pose proof (fits_val HV sg acc Ha) as Fa. pose proof (fits_val HV sg base Hb) as Fb.
    destruct (Z.eqb_spec (e mod 2) 1) as [E|E].
    + run. rewrite !mulf_ovf. destruct (Z.eqb_spec e 1) as [E1|E1].
      * subst e. change (1 / 2) with 0. rewrite Z.pow_0_r, Z.mul_1_l. eexists. split; [reflexivity|].
        split; intros ->; [apply orb_true_r|]. intros. rewrite orb_false_r. reflexivity.
      * cbv zeta. destruct (NX (ofZ (val sg acc * val sg base)) (o || ovf sg (val sg acc * val sg base))) as (f & Ef & F1 & F2).
        { auto with wfdb. } { lia. }
        exists f. split.
        { rewrite Ef. rewrite (val_ofZ HV), ofZ_mul_wrap. do 3 f_equal. ring. }
        split; [intros ->; apply F1; reflexivity|]. intros -> B0 I0. cbn [orb] in *.
        pose proof (half_bounds e fuel ltac:(lia)) as Hh.
        destruct (ovf_step sg (val sg acc) (val sg base) (val sg base) (e / 2) Fa Fb B0 I0 (or_introl eq_refl) ltac:(lia)) as (T1 & T2).
        replace (val sg acc * ((val sg base * val sg base) ^ (e / 2) * val sg base))
          with (val sg acc * val sg base * (val sg base * val sg base) ^ (e / 2)) by ring.
        destruct (ovf sg (val sg acc * val sg base) || ovf sg (val sg base * val sg base)) eqn:O.
        -- rewrite T1 by auto. apply F1; auto.
        -- destruct T2 as (X1 & X2 & X3 & X4); auto. rewrite (val_ofZ HV), X1 in F2. rewrite F2 by auto. auto.
    + assert (e <> 1) by (intros ->; apply E; reflexivity).
      cbv zeta. run. rewrite !mulf_ovf. destruct (NX acc o Ha ltac:(lia)) as (f & Ef & F1 & F2).
      exists f. split; [rewrite Ef; rewrite Z.mul_1_r; reflexivity|].
      split; [intros ->; apply F1; reflexivity|]. intros -> B0 I0. cbn [orb] in *.
      pose proof (half_bounds e fuel ltac:(lia)) as Hh.
      destruct (ovf_step sg (val sg acc) (val sg base) 1 (e / 2) Fa Fb B0 I0 (or_intror eq_refl) ltac:(lia)) as (T1 & T2).
      rewrite Z.mul_1_r in *. rewrite (ovf_fits sg (val sg acc)) in * by auto. cbn [orb] in *.
      destruct (ovf sg (val sg base * val sg base)) eqn:O.
      -- rewrite T1 by auto. apply F1; auto.
      -- destruct T2 as (X1 & X2 & X3 & X4); auto. rewrite X1 in F2. rewrite (wrapz_small HV) in X3 by auto. apply F2; auto.
Qed.

Lemma overflowing_pow_ok : forall sg x e, wf x -> 0 <= e < 2 ^ 32 ->
  overflowing_pow sg x e = Ok (ofZ (val sg x ^ e), ovf sg (val sg x ^ e)).
Proof.
  intros sg x e Hx He. unfold overflowing_pow. run. destruct (Z.eqb_spec e 0) as [->|E].
  - rewrite Z.pow_0_r, ovf_fits by (apply (fits_small HV); lia). reflexivity.
  - pose proof (fits_val HV sg x Hx) as Fx.
    destruct (Z.lt_ge_cases (val sg x) 0) as [Hn|Hn].
    + (* the first iteration with a negative base *)
      destruct sg; [|cbn in Fx; unfold fits_u in Fx; cbn in Hn; lia].
      pose proof (pow_fuel_ok e He E) as HF. generalize dependent pow_fuel. intros fu HF.
      destruct fu as [|fu]; [cbn in HF; lia|]. cbn [overflowing_pow_loop]. rewrite land_1.
      pose proof (pow_split (val true x) e ltac:(lia)) as PS. cbn [val] in *. set (b := sval x) in *.
      run. cbn [val] in *. fold b. rewrite !mulf_ovf, ?(sval_lit HV) by lia.
      assert (One : ovf true (1 * b) = false) by (rewrite Z.mul_1_l; apply ovf_fits; auto).
      rewrite One. cbn [orb]. rewrite !Z.mul_1_l.
      pose proof slack2 as (S1 & S2 & S3).
      set (Hh := 2 ^ (BITS - 1)) in *. set (T := Hh + 2 ^ (BITS - W)) in *.
      assert (HT : Hh < T) by (unfold T; lia). assert (HT2 : 2 * (T - Hh) <= Hh) by (unfold T; lia).
      destruct (Z.eqb_spec e 1) as [E1|E1].
      * subst e. rewrite Z.pow_1_r. cbn [Z.modulo]. change (1 mod 2 =? 1) with true. cbv iota.
        rewrite (ovf_fits true b) by auto. reflexivity.
      * pose proof (half_bounds e fu ltac:(lia)) as Hh2.
        destruct (Z.eqb_spec (e / 2) 0); [lia|]. cbn [negb]. rewrite dassert_true. cbn [bind].
        set (q := (b * b) ^ (e / 2)) in *.
        assert (Q2 : b * b <= q).
        { unfold q. rewrite <- (Z.pow_1_r (b * b)) at 1. apply Z.pow_le_mono_r; nia. }
        destruct (ovf true (b * b)) eqn:O.
        -- assert (O' : Hh <= b * b) by (apply ovf_s_spec in O; destruct O as [O|O]; fold Hh in O; [lia|nia]).
           assert (R : ovf true (b ^ e) = true).
           { rewrite PS. apply ovf_s_spec. fold Hh T. destruct (Z.eqb_spec (e mod 2) 1).
             - right. assert (b <= -2) by nia. nia.
             - left. lia. }
           rewrite R.
           destruct (Z.eqb_spec (e mod 2) 1) as [Em|Em].
           ++ destruct (overflowing_pow_loop_ok true fu (e / 2) (ofZ (b * b)) (ofZ b) true) as (f & Ef & F1 & F2); auto with wfdb.
              rewrite Ef. rewrite (val_ofZ HV) in *. rewrite (val_ofZ HV), ofZ_mul_wrap, ofZ_pow_l by lia.
              rewrite (F1 eq_refl), PS. do 3 f_equal. unfold q. ring.
           ++ destruct (overflowing_pow_loop_ok true fu (e / 2) (ofZ (b * b)) (ofZ 1) true) as (f & Ef & F1 & F2); auto with wfdb.
              rewrite Ef. rewrite !(val_ofZ HV), ofZ_mul_wrap, ofZ_pow_l by lia.
              rewrite (F1 eq_refl), PS. do 3 f_equal. unfold q. ring.
        -- assert (O' : b * b < Hh).
           { destruct (Z.lt_ge_cases (b * b) Hh); auto. assert (ovf true (b * b) = true) by (apply ovf_s_spec; left; fold Hh; lia). congruence. }
           assert (Fbb : fits true (b * b)) by (cbn; unfold fits_s; fold Hh; nia).
           destruct (Z.eqb_spec (e mod 2) 1) as [Em|Em].
           ++ destruct (overflowing_pow_loop_ok true fu (e / 2) (ofZ (b * b)) (ofZ b) false) as (f & Ef & F1 & F2); auto with wfdb.
              rewrite Ef. rewrite !(val_ofZ_small HV) in * by auto. fold q in F2 |- *. rewrite F2, PS; auto; try nia.
              ** rewrite (Z.mul_comm b q). reflexivity.
              ** unfold inv. destruct (Z.eq_dec b (-1)) as [->|]; [right; left; reflexivity|]. lia.
           ++ destruct (overflowing_pow_loop_ok true fu (e / 2) (ofZ (b * b)) (ofZ 1) false) as (f & Ef & F1 & F2); auto with wfdb.
              assert (F1' : fits true 1) by (apply (fits_small HV); lia).
              rewrite Ef. rewrite !(val_ofZ_small HV) in * by auto. fold q in F2 |- *. rewrite F2, PS; auto; try nia.
              ** rewrite Z.mul_1_l, Z.mul_1_r. reflexivity.
              ** unfold inv. lia.
    + destruct (overflowing_pow_loop_ok sg pow_fuel e x (ofZ 1) false) as (f & Ef & F1 & F2); auto with wfdb.
      { apply pow_fuel_ok; auto. }
      rewrite Ef. rewrite (val_lit HV) in * by lia. rewrite Z.mul_1_l in *. rewrite F2; auto. unfold inv. lia.
Qed.

Lemma checked_pow_ok : forall sg x e, wf x -> 0 <= e < 2 ^ 32 ->
  checked_pow sg x e = Ok (some_if (negb (ovf sg (val sg x ^ e))) (val sg x ^ e)).
Proof. intros sg x e Hx He. unfold checked_pow. rewrite overflowing_pow_ok, opt_eq by auto. reflexivity. Qed.
Lemma strict_pow_ok : forall sg x e, wf x -> 0 <= e < 2 ^ 32 ->
  strict_pow sg x e = ok_if (negb (ovf sg (val sg x ^ e))) (val sg x ^ e).
Proof. intros sg x e Hx He. unfold strict_pow. rewrite checked_pow_ok by auto. apply unwrap_some_if. Qed.
Lemma pow_ok : forall sg x e, wf x -> 0 <= e < 2 ^ 32 ->
  pow sg x e = if chk && ovf sg (val sg x ^ e) then Panic else Ok (ofZ (val sg x ^ e)).
Proof.
  intros sg x e Hx He. unfold pow. rewrite wrapping_pow_ok, strict_pow_ok by auto. unfold ok_if.
  destruct chk, (ovf _ _); reflexivity.
Qed.
Lemma pow_fits : forall sg x e, wf x -> 0 <= e < 2 ^ 32 -> fits sg (val sg x ^ e) -> pow sg x e = Ok (ofZ (val sg x ^ e)).
Proof. intros. rewrite pow_ok, ovf_fits, andb_false_r by auto. auto. Qed.
Lemma u_saturating_pow_ok : forall x e, wf x -> 0 <= e < 2 ^ 32 ->
  u_saturating_pow x e = Ok (ofZ (clamp false (uval x ^ e))).
Proof.
  intros x e Hx He. unfold u_saturating_pow. rewrite checked_pow_ok by auto. cbn [val]. apply or_else_eq; auto.
  - unfold ovf. apply negb_involutive.
  - pose proof (uval_range HV x Hx). pose proof (Z.pow_nonneg (uval x) e).
    destruct (Z.lt_ge_cases (uval x ^ e) (2 ^ BITS)); [left; cbn; unfold fits_u; lia|right; apply (clampE_u_hi HV); lia].
Qed.
Lemma pow_neg_odd : forall b e, b < 0 -> 0 <= e -> e mod 2 = 1 -> b ^ e < 0.
Proof.
  intros b e Hb He Ho. rewrite pow_split by auto. rewrite Ho. cbn [Z.eqb Pos.eqb].
  assert (0 < (b * b) ^ (e / 2)) by (apply Z.pow_pos_nonneg; [nia|apply Z.div_pos; lia]). nia.
Qed.
Lemma pow_nonneg' : forall b e, 0 <= e -> 0 <= b \/ e mod 2 <> 1 -> 0 <= b ^ e.
Proof.
  intros b e He [H|H]; [apply Z.pow_nonneg; auto|]. rewrite pow_split by auto.
  destruct (Z.eqb_spec (e mod 2) 1); [tauto|]. rewrite Z.mul_1_r. apply Z.pow_nonneg. nia.
Qed.
Lemma s_saturating_pow_ok : forall x e, wf x -> 0 <= e < 2 ^ 32 ->
  s_saturating_pow x e = Ok (ofZ (if ovf true (sval x ^ e) then clamp true (sval x ^ e) else sval x ^ e)).
Proof.
  intros x e Hx He. unfold s_saturating_pow. rewrite checked_pow_ok by auto. cbn [val]. unfold or_else, some_if.
  destruct (ovf true (sval x ^ e)) eqn:O; cbn [bind negb]; auto. run. cbn [val]. rewrite ?(val_lit HV true 0), ?(sval_lit HV 0) by lia.
  apply ovf_s_spec in O. pose proof slack2 as (S1 & S2 & S3).
  destruct (Z.ltb_spec (sval x) 0) as [Hn|Hn]; cbn [andb]; [destruct (Z.eqb_spec (e mod 2) 1) as [Em|Em]|].
  - pose proof (pow_neg_odd (sval x) e Hn ltac:(lia) Em). destruct O as [O|O]; [lia|].
    rewrite (clamp_lo) by (cbn [lo_of]; lia). reflexivity.
  - pose proof (pow_nonneg' (sval x) e ltac:(lia) (or_intror Em)). destruct O as [O|O]; [|lia].
    rewrite (clamp_hi HV) by (cbn [hi_of]; lia). reflexivity.
  - pose proof (pow_nonneg' (sval x) e ltac:(lia) (or_introl Hn)). destruct O as [O|O]; [|lia].
    rewrite (clamp_hi HV) by (cbn [hi_of]; lia). reflexivity.
Qed.
End P.
