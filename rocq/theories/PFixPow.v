(** * Proofs: products and powers with the corrected flag (MFix2.v) *)

Require Import ZArith Zpow_facts List Bool Lia.
From Verif Require Import Prim Spec Facts MAdd PAdd PAddS MMul PMul PMulS MShift PShift PRot MCore PCore PBits PWide MArith PArith PArith2 PPow
  MScalar MApi MParse MFix MFix2 PFixMul.
Import ListNotations.
Local Open Scope Z_scope.

Section P.
Context {c : Cfg}.
Hypothesis HV : Valid.
Local Notation sm := fix_smul_overflowing_full.
Local Notation HW := (HW1 HV).

(** the flag of an exact result *)
Definition nof (sg : bool) (v : Z) : bool := negb (fitsb sg v).
Lemma nof_fits : forall sg v, fits sg v -> nof sg v = false.
Proof. intros sg v H. unfold nof. apply fitsb_spec in H. rewrite H. reflexivity. Qed.
Lemma nof_s_spec : forall v, nof true v = true <-> ovP (2 ^ (BITS - 1)) (2 ^ (BITS - 1) + 1) v.
Proof.
  intros v. unfold nof, ovP. destruct (fitsb_reflect true v) as [F|F]; cbn in F; unfold fits_s in F; cbn [negb];
    intuition (try congruence; try lia).
Qed.
Lemma nof_u_spec : forall v, 0 <= v -> (nof false v = true <-> 2 ^ BITS <= v).
Proof. exact (ovf_u_spec). Qed.

Lemma m_overflowing_mul_ok : forall sg x y, wf x -> wf y ->
  m_overflowing_mul sm sg x y = Ok (ofZ (val sg x * val sg y), nof sg (val sg x * val sg y)).
Proof.
  intros sg x y Hx Hy. destruct sg.
  - pose proof (wf_len2 HV x Hx). unfold m_overflowing_mul, mk_flag. rewrite <- (ofZ_mul_uval HV) by auto.
    pose proof Hx as (Lx & Dx). pose proof Hy as (Ly & Dy).
    destruct (fix_smul_overflowing_full_ok HW x y) as (f & E & Hf); auto; try lia. rewrite E. cbn [bind]. rewrite (mk_ok HV). cbn [bind].
    rewrite !lsval_sval in Hf by auto. rewrite Lx, BITS_alt in *. unfold ofZ. do 2 f_equal.
    apply (bool_iff _ _ _ Hf). unfold nof. cbn [val].
    destruct (fitsb_reflect true (sval x * sval y)) as [F|F]; cbn in F; cbn [negb]; intuition congruence.
  - change (m_overflowing_mul sm false x y) with (overflowing_mul false x y). rewrite (overflowing_mul_ok HV) by auto. reflexivity.
Qed.
Lemma m_checked_mul_ok : forall sg x y, wf x -> wf y ->
  m_checked_mul sm sg x y = Ok (some_if (negb (nof sg (val sg x * val sg y))) (val sg x * val sg y)).
Proof.
  intros sg x y Hx Hy. destruct sg.
  - unfold m_checked_mul. cbn [negb]. rewrite m_overflowing_mul_ok by auto. rewrite opt_eq. reflexivity.
  - change (m_checked_mul sm false x y) with (checked_mul false x y). rewrite (checked_mul_ok HV) by auto. reflexivity.
Qed.
Lemma m_strict_mul_ok : forall sg x y, wf x -> wf y ->
  m_strict_mul sm sg x y = ok_if (negb (nof sg (val sg x * val sg y))) (val sg x * val sg y).
Proof. intros. unfold m_strict_mul. rewrite m_checked_mul_ok by auto. apply unwrap_some_if. Qed.
Lemma m_op_mul_ok : forall sg x y, wf x -> wf y ->
  m_op_mul sm sg x y = if chk && nof sg (val sg x * val sg y) then Panic else Ok (ofZ (val sg x * val sg y)).
Proof.
  intros sg x y Hx Hy. unfold m_op_mul. rewrite m_checked_mul_ok by auto. run. destruct chk; cbn [negb andb]; auto.
  rewrite unwrap_some_if. unfold ok_if. destruct (nof _ _); reflexivity.
Qed.
Lemma nof_some : forall sg v d, (nof sg v = true -> d = Ok (ofZ (clamp sg v))) ->
  or_else (Ok (some_if (negb (nof sg v)) v)) d = Ok (ofZ (clamp sg v)).
Proof.
  intros sg v d H. unfold or_else, some_if. destruct (nof sg v) eqn:E; cbn [negb bind]; [apply H; auto|].
  unfold nof in E. apply negb_false_iff, fitsb_spec in E. do 2 f_equal. unfold clamp.
  destruct sg; cbn in *; unfold fits_s, fits_u in E; lia.
Qed.
Lemma nof_clamp : forall sg v, nof sg v = true ->
  (if v <? 0 then ofZ (clamp sg v) = ofZ (lo_of sg) else ofZ (clamp sg v) = ofZ (hi_of sg)).
Proof.
  intros sg v H. unfold nof in H. apply negb_true_iff in H. destruct (fitsb_reflect sg v) as [|F]; [discriminate|].
  pose proof (pBh HV). pose proof (pB HV).
  destruct (Z.ltb_spec v 0); [rewrite clamp_lo|rewrite (clamp_hi HV)]; auto; destruct sg; cbn in *; unfold fits_s, fits_u in F; lia.
Qed.
Lemma m_saturating_mul_ok : forall sg x y, wf x -> wf y ->
  m_saturating_mul sm sg x y = Ok (ofZ (clamp sg (val sg x * val sg y))).
Proof.
  intros sg x y Hx Hy. destruct sg.
  - unfold m_saturating_mul. rewrite m_checked_mul_ok by auto. apply nof_some. intros E. run.
    assert (NZ : sval x * sval y <> 0) by (cbn [val] in E; intros Z0; rewrite Z0, nof_fits in E by (apply (fits_0 HV)); discriminate).
    apply nof_clamp in E. cbn [val] in *.
    destruct (Z.ltb_spec (sval x * sval y) 0), (Z.ltb_spec (sval x) 0), (Z.ltb_spec (sval y) 0); cbn [eqb];
      try (exfalso; nia); run; rewrite E; reflexivity.
  - change (m_saturating_mul sm false x y) with (u_saturating_mul x y). apply (u_saturating_mul_ok HV); auto.
Qed.

(** ** Powers *)

Lemma nof_step : forall sg a b m e', fits sg a -> fits sg b -> 0 <= b -> inv a b ->
  (m = b \/ m = 1) -> 1 <= e' ->
  let q := (b * b) ^ e' in
  (nof sg (a * m) || nof sg (b * b) = true -> nof sg (a * m * q) = true) /\
  (nof sg (a * m) || nof sg (b * b) = false ->
     wrapz sg (b * b) = b * b /\ 0 <= b * b /\ inv (wrapz sg (a * m)) (b * b) /\
     nof sg (wrapz sg (a * m) * q) = nof sg (a * m * q)).
Proof.
  intros sg a b m e' Fa Fb Hb Hi Hm He q.
  assert (Q0 : b = 0 -> q = 0) by (intros ->; unfold q; apply Z.pow_0_l; lia).
  assert (Q1 : b = 1 -> q = 1) by (intros ->; unfold q; apply Z.pow_1_l; lia).
  assert (Q2 : 1 <= b -> b * b <= q).
  { intros. unfold q. rewrite <- (Z.pow_1_r (b * b)) at 1. apply Z.pow_le_mono_r; nia. }
  assert (Qn : 0 <= q) by (destruct (Z.eq_dec b 0); [rewrite Q0 by auto; lia|assert (b * b <= q) by (apply Q2; lia); nia]).
  clearbody q. pose proof (slack2 HV) as (_ & S2 & _). pose proof (pBhalf HV) as HB.
  split.
  - destruct sg.
    + set (Hh := 2 ^ (BITS - 1)) in *. set (T := Hh + 1) in *.
      assert (HT : Hh < T) by (unfold T; lia). assert (HT2 : 2 * (T - Hh) <= Hh) by (unfold T; lia).
      assert (Fa' : - Hh <= a < Hh) by exact Fa. assert (Fb' : - Hh <= b < Hh) by exact Fb.
      rewrite orb_true_iff, !nof_s_spec. fold Hh T. intros [O|O].
      * destruct Hm as [->| ->].
        -- assert (b <> 0) by (intros ->; rewrite Z.mul_0_r in O; destruct O; lia).
           assert (b * b <= q) by (apply Q2; lia). apply flag_acc; auto; nia.
        -- rewrite Z.mul_1_r in O. destruct O; lia.
      * destruct O as [O|O]; [|nia]. pose proof (sq_ge2 Hh S2 b Hb O). assert (b * b <= q) by (apply Q2; lia).
        destruct Hm as [->| ->].
        -- apply flag_odd; auto.
        -- rewrite Z.mul_1_r. apply flag_even with b; auto; lia.
    + set (P := 2 ^ BITS) in *. assert (Fa' : 0 <= a < P) by exact Fa. assert (Fb' : 0 <= b < P) by exact Fb.
      assert (Hm0 : 0 <= m) by lia.
      rewrite orb_true_iff, !nof_u_spec by nia. fold P. intros [O|O].
      * destruct Hm as [->| ->]; [|lia]. assert (b <> 0) by (intros ->; lia).
        assert (b * b <= q) by (apply Q2; lia). nia.
      * assert (1 <= b) by nia. assert (b * b <= q) by (apply Q2; lia).
        destruct (Z.eq_dec b 1); [subst; lia|]. assert (1 <= a) by (destruct Hi as [Hi|[Hi|[Hi|Hi]]]; lia).
        assert (1 <= a * m) by nia. nia.
  - rewrite orb_false_iff. unfold nof at 1 2. rewrite !negb_false_iff, !fitsb_spec. intros (O1 & O2).
    rewrite !(wrapz_small HV) by auto. split; [reflexivity|]. split; [nia|]. split; [|reflexivity].
    unfold inv in *. destruct (Z.eq_dec b 0); [subst; left; lia|]. destruct (Z.eq_dec b 1); [subst; right; left; lia|].
    right. right. destruct Hm as [->| ->]; nia.
Qed.

Ltac mm := repeat (progress (run; rewrite ?m_overflowing_mul_ok by wfauto; cbn [bind])).
Lemma m_pow_loop_ok : forall sg fuel e base acc o, wf base -> wf acc -> 1 <= e < 2 ^ Z.of_nat fuel ->
  exists f, m_overflowing_pow_loop sm sg fuel e base acc o = Ok (ofZ (val sg acc * val sg base ^ e), f) /\
    (o = true -> f = true) /\
    (o = false -> 0 <= val sg base -> inv (val sg acc) (val sg base) -> f = nof sg (val sg acc * val sg base ^ e)).
Proof.
  intros sg fuel. induction fuel as [|fuel IH]; intros e base acc o Hb Ha He.
  - cbn in He. lia.
  - assert (NX : forall acc' o', wf acc' -> 1 < e -> exists f,
      (let* _ := dassert (negb (e / 2 =? 0)) in
       m_overflowing_pow_loop sm sg fuel (e / 2) (ofZ (val sg base * val sg base)) acc' (o' || nof sg (val sg base * val sg base)))
      = Ok (ofZ (val sg acc' * (val sg base * val sg base) ^ (e / 2)), f) /\
      (o' || nof sg (val sg base * val sg base) = true -> f = true) /\
      (o' || nof sg (val sg base * val sg base) = false ->
        0 <= wrapz sg (val sg base * val sg base) -> inv (val sg acc') (wrapz sg (val sg base * val sg base)) ->
        f = nof sg (val sg acc' * wrapz sg (val sg base * val sg base) ^ (e / 2)))).
    { intros acc' o' Ha' H1. pose proof (half_bounds e fuel ltac:(lia)) as Hh.
      destruct (Z.eqb_spec (e / 2) 0); [lia|]. cbn [negb]. rewrite dassert_true. cbn [bind].
      destruct (IH (e / 2) (ofZ (val sg base * val sg base)) acc' (o' || nof sg (val sg base * val sg base)))
        as (f & E & F1 & F2); auto with wfdb.
      rewrite (val_ofZ HV) in *. rewrite (ofZ_pow_l HV) in E by lia. exists f. auto. }
    cbn [m_overflowing_pow_loop]. rewrite land_1. rewrite (pow_split (val sg base) e) by lia.
    pose proof (fits_val HV sg acc Ha) as Fa. pose proof (fits_val HV sg base Hb) as Fb.
    destruct (Z.eqb_spec (e mod 2) 1) as [E|E].
    + mm. destruct (Z.eqb_spec e 1) as [E1|E1].
      * subst e. change (1 / 2) with 0. rewrite Z.pow_0_r, Z.mul_1_l. eexists. split; [reflexivity|].
        split; intros ->; [apply orb_true_r|]. intros. rewrite orb_false_r. reflexivity.
      * cbv zeta. destruct (NX (ofZ (val sg acc * val sg base)) (o || nof sg (val sg acc * val sg base))) as (f & Ef & F1 & F2).
        { auto with wfdb. } { lia. }
        exists f. split.
        { rewrite Ef. rewrite (val_ofZ HV), (ofZ_mul_wrap HV). do 3 f_equal. ring. }
        split; [intros ->; apply F1; reflexivity|]. intros -> B0 I0. cbn [orb] in *.
        pose proof (half_bounds e fuel ltac:(lia)) as Hh.
        destruct (nof_step sg (val sg acc) (val sg base) (val sg base) (e / 2) Fa Fb B0 I0 (or_introl eq_refl) ltac:(lia)) as (T1 & T2).
        replace (val sg acc * ((val sg base * val sg base) ^ (e / 2) * val sg base))
          with (val sg acc * val sg base * (val sg base * val sg base) ^ (e / 2)) by ring.
        destruct (nof sg (val sg acc * val sg base) || nof sg (val sg base * val sg base)) eqn:O.
        -- rewrite T1 by auto. apply F1; auto.
        -- destruct T2 as (X1 & X2 & X3 & X4); auto. rewrite (val_ofZ HV), X1 in F2. rewrite F2 by auto. auto.
    + assert (e <> 1) by (intros ->; apply E; reflexivity).
      cbv zeta. mm. destruct (NX acc o Ha ltac:(lia)) as (f & Ef & F1 & F2).
      exists f. split; [rewrite Ef; rewrite Z.mul_1_r; reflexivity|].
      split; [intros ->; apply F1; reflexivity|]. intros -> B0 I0. cbn [orb] in *.
      pose proof (half_bounds e fuel ltac:(lia)) as Hh.
      destruct (nof_step sg (val sg acc) (val sg base) 1 (e / 2) Fa Fb B0 I0 (or_intror eq_refl) ltac:(lia)) as (T1 & T2).
      rewrite Z.mul_1_r in *. rewrite (nof_fits sg (val sg acc)) in * by auto. cbn [orb] in *.
      destruct (nof sg (val sg base * val sg base)) eqn:O.
      -- rewrite T1 by auto. apply F1; auto.
      -- destruct T2 as (X1 & X2 & X3 & X4); auto. rewrite X1 in F2. rewrite (wrapz_small HV) in X3 by auto. apply F2; auto.
Qed.

Lemma m_overflowing_pow_ok : forall sg x e, wf x -> 0 <= e < 2 ^ 32 ->
  m_overflowing_pow sm sg x e = Ok (ofZ (val sg x ^ e), nof sg (val sg x ^ e)).
Proof.
  intros sg x e Hx He. unfold m_overflowing_pow. run. destruct (Z.eqb_spec e 0) as [->|E].
  - rewrite Z.pow_0_r, nof_fits by (apply (fits_small HV); lia). reflexivity.
  - pose proof (fits_val HV sg x Hx) as Fx.
    destruct (Z.lt_ge_cases (val sg x) 0) as [Hn|Hn].
    + destruct sg; [|cbn in Fx; unfold fits_u in Fx; cbn in Hn; lia].
      pose proof (pow_fuel_ok e He E) as HF. generalize dependent pow_fuel. intros fu HF.
      destruct fu as [|fu]; [cbn in HF; lia|]. cbn [m_overflowing_pow_loop]. rewrite land_1.
      pose proof (pow_split (val true x) e ltac:(lia)) as PS. cbn [val] in *. set (b := sval x) in *.
      mm. cbn [val] in *. fold b. rewrite ?(sval_lit HV) by lia.
      assert (One : nof true (1 * b) = false) by (rewrite Z.mul_1_l; apply nof_fits; auto).
      rewrite One. cbn [orb]. rewrite !Z.mul_1_l.
      pose proof (slack2 HV) as (_ & S2 & _).
      set (Hh := 2 ^ (BITS - 1)) in *. set (T := Hh + 1) in *.
      destruct (Z.eqb_spec e 1) as [E1|E1].
      * subst e. rewrite Z.pow_1_r. change (1 mod 2 =? 1) with true. cbv iota.
        rewrite (nof_fits true b) by auto. reflexivity.
      * pose proof (half_bounds e fu ltac:(lia)) as Hh2.
        destruct (Z.eqb_spec (e / 2) 0); [lia|]. cbn [negb]. rewrite dassert_true. cbn [bind].
        set (q := (b * b) ^ (e / 2)) in *.
        assert (Q2 : b * b <= q).
        { unfold q. rewrite <- (Z.pow_1_r (b * b)) at 1. apply Z.pow_le_mono_r; nia. }
        destruct (nof true (b * b)) eqn:O.
        -- assert (O' : Hh <= b * b) by (apply nof_s_spec in O; destruct O as [O|O]; fold Hh in O; [lia|nia]).
           assert (R : nof true (b ^ e) = true).
           { rewrite PS. apply nof_s_spec. fold Hh T. destruct (Z.eqb_spec (e mod 2) 1).
             - right. assert (b <= -2) by nia. nia.
             - left. lia. }
           rewrite R.
           destruct (Z.eqb_spec (e mod 2) 1) as [Em|Em].
           ++ destruct (m_pow_loop_ok true fu (e / 2) (ofZ (b * b)) (ofZ b) true) as (f & Ef & F1 & F2); auto with wfdb.
              rewrite Ef. rewrite (val_ofZ HV) in *. rewrite (val_ofZ HV), (ofZ_mul_wrap HV), (ofZ_pow_l HV) by lia.
              rewrite (F1 eq_refl), PS. do 3 f_equal. unfold q. ring.
           ++ destruct (m_pow_loop_ok true fu (e / 2) (ofZ (b * b)) (ofZ 1) true) as (f & Ef & F1 & F2); auto with wfdb.
              rewrite Ef. rewrite !(val_ofZ HV), (ofZ_mul_wrap HV), (ofZ_pow_l HV) by lia.
              rewrite (F1 eq_refl), PS. do 3 f_equal. unfold q. ring.
        -- assert (O' : b * b < Hh).
           { destruct (Z.lt_ge_cases (b * b) Hh); auto. assert (nof true (b * b) = true) by (apply nof_s_spec; left; fold Hh; lia). congruence. }
           assert (Fbb : fits true (b * b)) by (cbn; unfold fits_s; fold Hh; nia).
           destruct (Z.eqb_spec (e mod 2) 1) as [Em|Em].
           ++ destruct (m_pow_loop_ok true fu (e / 2) (ofZ (b * b)) (ofZ b) false) as (f & Ef & F1 & F2); auto with wfdb.
              rewrite Ef. rewrite !(val_ofZ_small HV) in * by auto. fold q in F2 |- *. rewrite F2, PS; auto; try nia.
              ** rewrite (Z.mul_comm b q). reflexivity.
              ** unfold inv. destruct (Z.eq_dec b (-1)) as [->|]; [right; left; reflexivity|]. lia.
           ++ destruct (m_pow_loop_ok true fu (e / 2) (ofZ (b * b)) (ofZ 1) false) as (f & Ef & F1 & F2); auto with wfdb.
              assert (F1' : fits true 1) by (apply (fits_small HV); lia).
              rewrite Ef. rewrite !(val_ofZ_small HV) in * by auto. fold q in F2 |- *. rewrite F2, PS; auto; try nia.
              ** rewrite Z.mul_1_l, Z.mul_1_r. reflexivity.
              ** unfold inv. lia.
    + destruct (m_pow_loop_ok sg pow_fuel e x (ofZ 1) false) as (f & Ef & F1 & F2); auto with wfdb.
      { apply pow_fuel_ok; auto. }
      rewrite Ef. rewrite (val_lit HV) in * by lia. rewrite Z.mul_1_l in *. rewrite F2; auto. unfold inv. lia.
Qed.

Lemma m_checked_pow_ok : forall sg x e, wf x -> 0 <= e < 2 ^ 32 ->
  m_checked_pow sm sg x e = Ok (some_if (negb (nof sg (val sg x ^ e))) (val sg x ^ e)).
Proof. intros sg x e Hx He. unfold m_checked_pow. rewrite m_overflowing_pow_ok, opt_eq by auto. reflexivity. Qed.
Lemma m_strict_pow_ok : forall sg x e, wf x -> 0 <= e < 2 ^ 32 ->
  m_strict_pow sm sg x e = ok_if (negb (nof sg (val sg x ^ e))) (val sg x ^ e).
Proof. intros sg x e Hx He. unfold m_strict_pow. rewrite m_checked_pow_ok by auto. apply unwrap_some_if. Qed.
Lemma m_pow_ok : forall sg x e, wf x -> 0 <= e < 2 ^ 32 ->
  m_pow sm sg x e = if chk && nof sg (val sg x ^ e) then Panic else Ok (ofZ (val sg x ^ e)).
Proof.
  intros sg x e Hx He. unfold m_pow. rewrite (wrapping_pow_ok HV), m_strict_pow_ok by auto. unfold ok_if.
  destruct chk, (nof _ _); reflexivity.
Qed.
Lemma m_saturating_pow_ok : forall sg x e, wf x -> 0 <= e < 2 ^ 32 ->
  m_saturating_pow sm sg x e = Ok (ofZ (clamp sg (val sg x ^ e))).
Proof.
  intros sg x e Hx He. unfold m_saturating_pow. rewrite !m_checked_pow_ok by auto. destruct sg; apply nof_some; intros E.
  - apply nof_clamp in E. run. cbn [val] in *. rewrite ?(val_lit HV true 0), ?(sval_lit HV 0) by lia.
    destruct (Z.ltb_spec (sval x) 0) as [Hn|Hn]; cbn [andb]; [destruct (Z.eqb_spec (e mod 2) 1) as [Em|Em]|].
    + pose proof (pow_neg_odd (sval x) e Hn ltac:(lia) Em). destruct (Z.ltb_spec (sval x ^ e) 0); [|lia]. rewrite E. run. reflexivity.
    + pose proof (pow_nonneg' (sval x) e ltac:(lia) (or_intror Em)). destruct (Z.ltb_spec (sval x ^ e) 0); [lia|]. rewrite E. run. reflexivity.
    + pose proof (pow_nonneg' (sval x) e ltac:(lia) (or_introl Hn)). destruct (Z.ltb_spec (sval x ^ e) 0); [lia|]. rewrite E. run. reflexivity.
  - cbn [val] in *. pose proof (uval_range HV x Hx). pose proof (Z.pow_nonneg (uval x) e). apply nof_u_spec in E; [|lia].
    apply (clampE_u_hi HV). lia.
Qed.
Lemma m_nt_mul_add_ok : forall sg x a b, wf x -> wf a -> wf b ->
  m_nt_mul_add sm sg x a b =
  if chk && (nof sg (val sg x * val sg a) || nof sg (val sg x * val sg a + val sg b)) then Panic
  else Ok (ofZ (val sg x * val sg a + val sg b)).
Proof.
  intros sg x a b Hx Ha Hb. unfold m_nt_mul_add. rewrite m_op_mul_ok by auto.
  destruct chk eqn:C; cbn [andb].
  - destruct (nof sg (val sg x * val sg a)) eqn:E; cbn [bind orb]; [reflexivity|].
    rewrite (op_add_ok HV) by (auto; apply (wf_ofZ HV)). unfold nof in E. apply negb_false_iff, fitsb_spec in E.
    rewrite (val_ofZ_small HV) by auto. unfold op_result, ok_if, nof. rewrite C. destruct (fitsb _ _); reflexivity.
  - cbn [bind]. rewrite (op_add_ok HV) by (auto; apply (wf_ofZ HV)). unfold op_result. rewrite C, (val_ofZ HV), (ofZ_add_l HV). reflexivity.
Qed.
End P.
