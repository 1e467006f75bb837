(** * Properties: order, overflow tests and distance, across the families (C81) *)

Require Import ZArith List Bool Lia.
From Verif Require Import Prim Spec Facts MAdd MMul MShift MCore MLayout PCore PBits PWide MArith PArith PArith2 PPow PMisc PBits2 PRet PLayout
  PropsBits PropsLayout PropsMisc PropsBitLaws.
Import ListNotations.
Local Open Scope Z_scope.

(** ** Two orders, two encodings *)

(** Lexicographic comparison of two strings of the same length. *)
Fixpoint lex (a b : list Z) : comparison :=
  match a, b with
  | x :: a', y :: b' => match x ?= y with Eq => lex a' b' | r => r end
  | _, _ => Eq
  end.
Lemma lex_lval : forall w a b, 0 <= w -> length a = length b -> digits w a -> digits w b -> lex a b = (lval w (rev a) ?= lval w (rev b)).
Proof.
  intros w a. induction a as [|x a IH]; intros [|y b] Hw HL Da Db; try discriminate HL; [reflexivity|]. cbn [lex rev].
  injection HL as HL. inversion Da as [|? ? Dx Da']; subst. inversion Db as [|? ? Dy Db']; subst.
  rewrite !lval_app, !rev_length by auto. cbn [lval]. rewrite <- HL.
  assert (Ra : 0 <= lval w (rev a) < 2 ^ (w * Z.of_nat (length (rev a)))) by (apply lval_range; auto; apply Forall_rev; auto).
  assert (Rb : 0 <= lval w (rev b) < 2 ^ (w * Z.of_nat (length (rev b)))) by (apply lval_range; auto; apply Forall_rev; auto).
  rewrite rev_length in Ra, Rb. rewrite <- HL in Rb. rewrite IH by auto.
  set (p := 2 ^ (w * Z.of_nat (length a))) in *. generalize dependent (lval w (rev a)). generalize dependent (lval w (rev b)). intros vb Rb va Ra.
  destruct (Z.compare_spec x y).
  - subst y. destruct (Z.compare_spec va vb), (Z.compare_spec (va + p * (x + 2 ^ w * 0)) (vb + p * (x + 2 ^ w * 0))); auto; nia.
  - symmetry. apply Z.compare_lt_iff. nia.
  - symmetry. apply Z.compare_gt_iff. nia.
Qed.
(** The big-endian bytes of unsigned values compare the way the values do, on machines of either byte order. *)
Theorem C81_bytes_lexicographic : forall (c : Cfg) be x y, Valid -> wf x -> wf y -> exists a b,
  to_be_bytes be (ord be x) = Ok a /\ to_be_bytes be (ord be y) = Ok b /\ cmp_const false x y = Ok (lex a b).
Proof.
  intros c be x y HV Hx Hy. destruct (C22_to_bytes c be HV) as (_ & A & _).
  destruct (A (ord be x)) as (a & Ea & La & Da & Va); [rewrite ord_ord; auto|]. destruct (A (ord be y)) as (b & Eb & Lb & Db & Vb); [rewrite ord_ord; auto|].
  exists a, b. split; auto. split; auto. rewrite (C21_cmp_unsigned c x y HV Hx Hy). rewrite !ord_ord in *. cbn [ord] in *. f_equal.
  rewrite <- Va, <- Vb. symmetry. apply lex_lval; auto; lia.
Qed.
Section C.
Context {c : Cfg} (HV : Valid).
Lemma flip_top : forall x, wf x -> Z.lxor (uval x) (2 ^ (BITS - 1)) = sval x + 2 ^ (BITS - 1).
Proof.
  intros x Hx. pose proof (BITS_pos HV) as Hp. pose proof (uval_range HV x Hx) as R. pose proof (pBhalf HV) as E.
  destruct (sval_cong HV x Hx) as (k & K). pose proof (sval_range HV x Hx) as S. set (h := 2 ^ (BITS - 1)) in *.
  assert (T : Z.testbit (uval x) (BITS - 1) = (h <=? uval x)).
  { destruct (Z.leb_spec h (uval x)).
    - rewrite Z.testbit_true by lia. fold h. replace (uval x / h) with 1; [reflexivity|]. apply Z.div_unique with (uval x - h); lia.
    - rewrite Z.testbit_false by lia. fold h. rewrite Z.div_small by lia. reflexivity. }
  destruct (Z.leb_spec h (uval x)) as [L|L].
  - assert (k = -1) by (rewrite E in *; destruct (Z.lt_trichotomy k (-1)) as [q|[q|q]]; [assert (k * (2 * h) <= (-2) * (2 * h)) by (apply Z.mul_le_mono_nonneg_r; lia); lia|auto|assert (0 * (2 * h) <= k * (2 * h)) by (apply Z.mul_le_mono_nonneg_r; lia); lia]).
    assert (sval x = uval x - 2 * h) as -> by (rewrite K, E; subst k; lia).
    assert (D : Z.ldiff h (uval x) = 0).
    { apply Z.bits_inj'. intros i Hi. rewrite Z.ldiff_spec, Z.bits_0. unfold h. rewrite Z.pow2_bits_eqb by lia.
      destruct (Z.eqb_spec (BITS - 1) i) as [<-|]; auto. rewrite T. auto. }
    pose proof (Z.sub_nocarry_ldiff _ _ D) as SD. replace (uval x - 2 * h + h) with (uval x - h) by ring. rewrite SD.
    apply Z.bits_inj'. intros i Hi. rewrite Z.lxor_spec, Z.ldiff_spec. unfold h. rewrite Z.pow2_bits_eqb by lia.
    destruct (Z.eqb_spec (BITS - 1) i) as [<-|]; [rewrite T; auto|]. rewrite xorb_false_r, andb_true_r. auto.
  - assert (k = 0) by (rewrite E in *; destruct (Z.lt_trichotomy k 0) as [q|[q|q]]; [assert (k * (2 * h) <= (-1) * (2 * h)) by (apply Z.mul_le_mono_nonneg_r; lia); lia|auto|assert (1 * (2 * h) <= k * (2 * h)) by (apply Z.mul_le_mono_nonneg_r; lia); lia]).
    assert (sval x = uval x) as -> by (rewrite K; subst k; lia). symmetry. apply Z.add_nocarry_lxor.
    apply Z.bits_inj'. intros i Hi. rewrite Z.land_spec, Z.bits_0. unfold h. rewrite Z.pow2_bits_eqb by lia.
    destruct (Z.eqb_spec (BITS - 1) i) as [<-|]; [rewrite T; auto|apply andb_false_r].
Qed.
Lemma flip_ok : forall x, wf x -> (let* m := s_min_value in bitxor_const x m) = Ok (ofZ (sval x + 2 ^ (BITS - 1))).
Proof.
  intros x Hx. rewrite (s_min_value_ok HV). cbn [bind]. rewrite (bitxor_ok HV) by (auto; apply (wf_ofZ HV)). rewrite <- (flip_top x Hx).
  do 2 f_equal. rewrite (uval_ofZ HV). pose proof (pBhalf HV). pose proof (pBh HV).
  f_equal. symmetry. apply (Z.mod_unique_pos _ _ (-1)); lia.
Qed.
Lemma uval_flip : forall x, wf x -> uval (ofZ (sval x + 2 ^ (BITS - 1))) = sval x + 2 ^ (BITS - 1).
Proof. intros x Hx. rewrite (uval_ofZ HV). pose proof (pBhalf HV). pose proof (sval_range HV x Hx). apply Z.mod_small. lia. Qed.
End C.
(** Signed order is unsigned order after flipping the top bit. *)
Theorem C81_signed_flip : forall (c : Cfg) x y, Valid -> wf x -> wf y ->
  cmp_const true x y = (let* m := s_min_value in let* a := bitxor_const x m in let* b := bitxor_const y m in cmp_const false a b).
Proof.
  intros c x y HV Hx Hy. pose proof (flip_ok HV x Hx) as Fx. pose proof (flip_ok HV y Hy) as Fy. pose proof (s_min_value_ok HV) as M.
  rewrite M in *. cbn [bind] in *. rewrite Fx. cbn [bind]. rewrite Fy. cbn [bind].
  rewrite (C21_cmp_unsigned c _ _ HV (wf_ofZ HV _) (wf_ofZ HV _)), (C21_cmp_signed c x y HV Hx Hy). rewrite !(uval_flip HV) by auto.
  f_equal. destruct (Z.compare_spec (sval x) (sval y)), (Z.compare_spec (sval x + 2 ^ (BITS - 1)) (sval y + 2 ^ (BITS - 1))); auto; lia.
Qed.
(** The comparison is a total order on values, antisymmetric on representations, and the four
    predicates and equality are what it says. *)
Theorem C81_total_order : forall (c : Cfg) sg x y z, Valid -> wf x -> wf y -> wf z ->
  (exists o, cmp_const sg x y = Ok o /\ cmp_const sg y x = Ok (CompOpp o) /\
     lt_const sg x y = Ok (match o with Lt => true | _ => false end) /\ gt_const sg x y = Ok (match o with Gt => true | _ => false end) /\
     le_const sg x y = Ok (match o with Gt => false | _ => true end) /\ ge_const sg x y = Ok (match o with Lt => false | _ => true end) /\
     eq_const x y = Ok (match o with Eq => true | _ => false end) /\ (o = Eq <-> x = y)) /\
  (le_const sg x y = Ok true -> le_const sg y z = Ok true -> le_const sg x z = Ok true) /\
  (lt_const sg x y = Ok true -> lt_const sg y z = Ok true -> lt_const sg x z = Ok true).
Proof.
  intros c sg x y z HV Hx Hy Hz.
  rewrite !(cmp_const_ok HV), !(lt_const_ok HV), !(le_const_ok HV), !(gt_const_ok HV), !(ge_const_ok HV), !(eq_const_ok HV) by auto.
  assert (I : uval x = uval y <-> val sg x = val sg y).
  { destruct sg; cbn [val]; [|tauto]. apply (C21_eq c x y HV Hx Hy). }
  assert (J : uval x = uval y -> x = y) by (apply (uval_inj HV); auto).
  split; [|split].
  - exists (val sg x ?= val sg y). split; auto. rewrite Z.compare_antisym. split; auto.
    destruct (Z.compare_spec (val sg x) (val sg y)) as [E|E|E].
    + rewrite !E, Z.ltb_irrefl, Z.leb_refl. assert (uval x = uval y) as E' by tauto. rewrite E', Z.eqb_refl. repeat split; auto.
    + assert (uval x <> uval y) as E' by (intro; assert (val sg x = val sg y) by tauto; lia). apply Z.eqb_neq in E'. rewrite E'.
      repeat split; try discriminate; f_equal; try (apply Z.ltb_lt; lia); try (apply Z.ltb_ge; lia); try (apply Z.leb_le; lia); try (apply Z.leb_gt; lia).
      intros ->. lia.
    + assert (uval x <> uval y) as E' by (intro; assert (val sg x = val sg y) by tauto; lia). apply Z.eqb_neq in E'. rewrite E'.
      repeat split; try discriminate; f_equal; try (apply Z.ltb_lt; lia); try (apply Z.ltb_ge; lia); try (apply Z.leb_le; lia); try (apply Z.leb_gt; lia).
      intros ->. lia.
  - intros A B. injection A as A. injection B as B. f_equal. apply Z.leb_le in A, B. apply Z.leb_le. lia.
  - intros A B. injection A as A. injection B as B. f_equal. apply Z.ltb_lt in A, B. apply Z.ltb_lt. lia.
Qed.

(** ** Overflow tests *)

(** Unsigned: the sum wrapped exactly when it is below either operand, or when [y] exceeds [!x];
    the difference wrapped exactly when [x < y]. *)
Theorem C81_unsigned_tests : forall (c : Cfg) x y, Valid -> wf x -> wf y ->
  (exists s f, overflowing_add false x y = Ok (s, f) /\ lt_const false s x = Ok f /\ lt_const false s y = Ok f /\
     (let* n := not_const x in gt_const false y n) = Ok f) /\
  (exists d f, overflowing_sub false x y = Ok (d, f) /\ lt_const false x y = Ok f /\ lt_const false x d = Ok f).
Proof.
  intros c x y HV Hx Hy. pose proof (uval_range HV x Hx) as Rx. pose proof (uval_range HV y Hy) as Ry.
  rewrite (overflowing_add_ok HV), (overflowing_sub_ok HV), (not_const_ok HV) by auto. cbn [val bind].
  assert (U : forall v, uval (ofZ v) = v mod 2 ^ BITS) by (apply (uval_ofZ HV)).
  assert (FB : forall v, reflect (0 <= v < 2 ^ BITS) (fitsb false v)) by (intro v; apply (fitsb_reflect false)).
  assert (N1 : (-1 - uval x) mod 2 ^ BITS = 2 ^ BITS - 1 - uval x) by (symmetry; apply (Z.mod_unique_pos _ _ (-1)); lia).
  split; (eexists _, _; split; [reflexivity|]); rewrite ?(lt_const_ok HV), ?(gt_const_ok HV) by (auto; apply (wf_ofZ HV)); cbn [val]; rewrite ?U, ?N1.
  - destruct (FB (uval x + uval y)) as [F|F]; cbn [negb].
    + rewrite Z.mod_small by auto. repeat split; f_equal; apply Z.ltb_ge; lia.
    + assert ((uval x + uval y) mod 2 ^ BITS = uval x + uval y - 2 ^ BITS) as -> by (symmetry; apply (Z.mod_unique_pos _ _ 1); lia).
      repeat split; f_equal; apply Z.ltb_lt; lia.
  - destruct (FB (uval x - uval y)) as [F|F]; cbn [negb].
    + rewrite Z.mod_small by auto. split; f_equal; apply Z.ltb_ge; lia.
    + assert ((uval x - uval y) mod 2 ^ BITS = uval x - uval y + 2 ^ BITS) as -> by (symmetry; apply (Z.mod_unique_pos _ _ (-1)); lia).
      split; f_equal; apply Z.ltb_lt; lia.
Qed.
Section S.
Context {c : Cfg} (HV : Valid).
Lemma sxor : forall x y, wf x -> wf y -> exists r, bitxor_const x y = Ok r /\ wf r /\ (sval r < 0 <-> (sval x < 0 <-> ~ sval y < 0)).
Proof.
  intros x y Hx Hy. destruct (C19_signed c x y HV Hx Hy) as (_ & _ & r & E & Wr & V). exists r. split; auto. split; auto.
  rewrite V. pose proof (Z.lxor_nonneg (sval x) (sval y)). lia.
Qed.
Lemma sand : forall x y, wf x -> wf y -> exists r, bitand_const x y = Ok r /\ wf r /\ (sval r < 0 <-> sval x < 0 /\ sval y < 0).
Proof.
  intros x y Hx Hy. destruct (C19_signed c x y HV Hx Hy) as ((r & E & Wr & V) & _ & _). exists r. split; auto. split; auto.
  rewrite V. apply Z.land_neg.
Qed.
End S.
(** Signed: the sum overflowed exactly when the operands agree in sign and the result does not, which
    is the top bit of [(x ^ s) & (y ^ s)]; for the difference it is the top bit of [(x ^ y) & (x ^ d)]. *)
Theorem C81_signed_tests : forall (c : Cfg) x y, Valid -> wf x -> wf y ->
  (exists s f, overflowing_add true x y = Ok (s, f) /\
     (let* a := bitxor_const x s in let* b := bitxor_const y s in let* m := bitand_const a b in is_negative m) = Ok f) /\
  (exists d f, overflowing_sub true x y = Ok (d, f) /\
     (let* a := bitxor_const x y in let* b := bitxor_const x d in let* m := bitand_const a b in is_negative m) = Ok f).
Proof.
  intros c x y HV Hx Hy. pose proof (sval_range HV x Hx) as Rx. pose proof (sval_range HV y Hy) as Ry. pose proof (pBhalf HV) as EB.
  rewrite (overflowing_add_ok HV), (overflowing_sub_ok HV) by auto. cbn [val].
  assert (FB : forall v, reflect (- 2 ^ (BITS - 1) <= v < 2 ^ (BITS - 1)) (fitsb true v)) by (intro v; apply (fitsb_reflect true)).
  assert (SW : forall v, - 2 * 2 ^ (BITS - 1) <= v < 2 * 2 ^ (BITS - 1) ->
     sval (ofZ v) = if fitsb true v then v else if v <? 0 then v + 2 ^ BITS else v - 2 ^ BITS).
  { intros v Hv. destruct (FB v) as [F|F].
    - apply (val_ofZ_small HV true). exact F.
    - destruct (Z.ltb_spec v 0).
      + transitivity (sval (ofZ (v + 2 ^ BITS))); [f_equal; apply (ofZ_cong HV) with (k := -1); ring|]. apply (val_ofZ_small HV true). cbn. unfold fits_s. lia.
      + transitivity (sval (ofZ (v - 2 ^ BITS))); [f_equal; apply (ofZ_cong HV) with (k := 1); ring|]. apply (val_ofZ_small HV true). cbn. unfold fits_s. lia. }
  assert (NB : forall m (f : bool), wf m -> (sval m < 0 <-> f = true) -> is_negative m = Ok f).
  { intros m f Hm H. rewrite (is_negative_ok HV) by auto. f_equal. destruct f; [apply Z.ltb_lt; tauto|apply Z.ltb_ge].
    destruct (Z.lt_ge_cases (sval m) 0) as [L|]; auto. apply H in L. discriminate L. }
  split; (eexists _, _; split; [reflexivity|]).
  - assert (V : - 2 * 2 ^ (BITS - 1) <= sval x + sval y < 2 * 2 ^ (BITS - 1)) by lia. apply SW in V. set (s := ofZ (sval x + sval y)) in *. assert (Ws : wf s) by apply (wf_ofZ HV).
    destruct (sxor HV x s Hx Ws) as (a & Ea & Wa & Sa). destruct (sxor HV y s Hy Ws) as (b & Eb & Wb & Sb). destruct (sand HV a b Wa Wb) as (m & Em & Wm & Sm).
    rewrite Ea. cbn [bind]. rewrite Eb. cbn [bind]. rewrite Em. cbn [bind]. apply NB; auto. rewrite Sm, Sa, Sb.
    destruct (FB (sval x + sval y)) as [F|F]; cbn [negb]; [|destruct (Z.ltb_spec (sval x + sval y) 0)]; split; intros; try discriminate; try lia; exfalso; lia.
  - assert (V : - 2 * 2 ^ (BITS - 1) <= sval x - sval y < 2 * 2 ^ (BITS - 1)) by lia. apply SW in V. set (s := ofZ (sval x - sval y)) in *. assert (Ws : wf s) by apply (wf_ofZ HV).
    destruct (sxor HV x y Hx Hy) as (a & Ea & Wa & Sa). destruct (sxor HV x s Hx Ws) as (b & Eb & Wb & Sb). destruct (sand HV a b Wa Wb) as (m & Em & Wm & Sm).
    rewrite Ea. cbn [bind]. rewrite Eb. cbn [bind]. rewrite Em. cbn [bind]. apply NB; auto. rewrite Sm, Sa, Sb.
    destruct (FB (sval x - sval y)) as [F|F]; cbn [negb]; [|destruct (Z.ltb_spec (sval x - sval y) 0)]; split; intros; try discriminate; try lia; exfalso; lia.
Qed.

(** ** Distance and halfway *)

(** The distance is symmetric and zero exactly for equal values; a value is the other one moved by
    the distance, in the direction the comparison says. *)
Theorem C81_abs_diff : forall (c : Cfg) sg x y, Valid -> wf x -> wf y ->
  abs_diff sg x y = abs_diff sg y x /\ (abs_diff sg x y = Ok (ofZ 0) <-> x = y) /\
  (let* d := abs_diff sg x y in let* l := le_const sg x y in (if (l : bool) then wrapping_add sg x d else wrapping_sub sg x d)) = Ok y /\
  abs_diff sg x y = (let* l := lt_const sg x y in (if (l : bool) then wrapping_sub sg y x else wrapping_sub sg x y)).
Proof.
  intros c sg x y HV Hx Hy. rewrite !(abs_diff_ok HV) by auto. rewrite (le_const_ok HV), (lt_const_ok HV) by auto. cbn [bind].
  assert (R : Z.abs (val sg x - val sg y) < 2 ^ BITS).
  { pose proof (uval_range HV x Hx). pose proof (uval_range HV y Hy). pose proof (sval_range HV x Hx). pose proof (sval_range HV y Hy). pose proof (pBhalf HV).
    destruct sg; cbn [val]; lia. }
  destruct (val_cong HV sg x Hx) as (k & K). destruct (val_cong HV sg y Hy) as (j & J).
  assert (EY : y = ofZ (val sg y)) by (symmetry; apply (ofZ_val HV); auto).
  split; [do 2 f_equal; lia|]. split.
  - split.
    + intro E. injection E as E. apply (f_equal uval) in E. rewrite !(uval_ofZ HV), Z.mod_0_l in E by lia. rewrite Z.mod_small in E by lia.
      rewrite (u_eta HV x Hx), (u_eta HV y Hy). apply (ofZ_cong HV) with (k := j - k). nia.
    + intros ->. rewrite Z.sub_diag. reflexivity.
  - split.
    + destruct (Z.leb_spec (val sg x) (val sg y)).
      * rewrite (add_u HV) by (auto; apply (wf_ofZ HV)). rewrite (plus_r HV). f_equal. rewrite EY at 2. apply (ofZ_cong HV) with (k := - k). rewrite Z.abs_neq by lia. rewrite K. ring.
      * rewrite (sub_u HV) by (auto; apply (wf_ofZ HV)). f_equal.
        transitivity (ofZ (uval x - Z.abs (val sg x - val sg y))).
        { rewrite (uval_ofZ HV), <- (ofZ_mod HV), Zminus_mod_idemp_r, (ofZ_mod HV). reflexivity. }
        rewrite EY at 2. apply (ofZ_cong HV) with (k := - k). rewrite Z.abs_eq by lia. rewrite K. ring.
    + destruct (Z.ltb_spec (val sg x) (val sg y)); rewrite (wrapping_sub_ok HV) by auto; do 2 f_equal; lia.
Qed.
Theorem C81_triangle : forall (c : Cfg) sg x y z, Valid -> wf x -> wf y -> wf z -> exists a b d,
  abs_diff sg x y = Ok a /\ abs_diff sg y z = Ok b /\ abs_diff sg x z = Ok d /\ uval d <= uval a + uval b.
Proof.
  intros c sg x y z HV Hx Hy Hz. rewrite !(abs_diff_ok HV) by auto. do 3 eexists. do 3 (split; [reflexivity|]).
  assert (R : forall u v, wf u -> wf v -> Z.abs (val sg u - val sg v) < 2 ^ BITS).
  { intros u v Hu Hv. pose proof (uval_range HV u Hu). pose proof (uval_range HV v Hv). pose proof (sval_range HV u Hu). pose proof (sval_range HV v Hv). pose proof (pBhalf HV).
    destruct sg; cbn [val]; lia. }
  rewrite !(uval_ofZ HV). pose proof (R x y Hx Hy). pose proof (R y z Hy Hz). pose proof (R x z Hx Hz). rewrite !Z.mod_small by lia. lia.
Qed.
(** The midpoint lies between its arguments and does not depend on their order; the unsigned one is
    [(x & y) + ((x ^ y) >> 1)]. *)
Theorem C81_midpoint : forall (c : Cfg) x y, Valid -> wf x -> wf y ->
  u_midpoint x y = u_midpoint y x /\ s_midpoint x y = s_midpoint y x /\ u_midpoint x x = Ok x /\ s_midpoint x x = Ok x /\
  (le_const false x y = Ok true -> exists m, u_midpoint x y = Ok m /\ le_const false x m = Ok true /\ le_const false m y = Ok true) /\
  (le_const true x y = Ok true -> exists m, s_midpoint x y = Ok m /\ le_const true x m = Ok true /\ le_const true m y = Ok true) /\
  u_midpoint x y = (let* a := bitand_const x y in let* e := bitxor_const x y in let* h := wrapping_shr false e 1 in wrapping_add false a h).
Proof.
  intros c x y HV Hx Hy. pose proof (uval_range HV x Hx) as Rx. pose proof (uval_range HV y Hy) as Ry. pose proof (sval_range HV x Hx) as Sx. pose proof (sval_range HV y Hy) as Sy.
  rewrite !(u_midpoint_ok HV), !(s_midpoint_ok HV) by auto.
  split; [do 3 f_equal; ring|]. split; [do 3 f_equal; ring|].
  split; [f_equal; replace ((uval x + uval x) / 2) with (uval x) by (rewrite <- (Z.div_mul (uval x) 2) at 1 by lia; f_equal; ring); apply (ofZ_uval HV); auto|].
  split; [f_equal; replace (Z.quot (sval x + sval x) 2) with (sval x) by (rewrite <- (Z.quot_mul (sval x) 2) at 1 by lia; f_equal; ring); apply (ofZ_val HV true); auto|].
  split; [|split].
  - rewrite (le_const_ok HV) by auto. cbn [val]. intro L. injection L as L. apply Z.leb_le in L. eexists. split; [reflexivity|].
    rewrite !(le_const_ok HV) by (auto; apply (wf_ofZ HV)). cbn [val]. rewrite (uval_ofZ HV).
    assert (uval x <= (uval x + uval y) / 2 <= uval y) by (Z.div_mod_to_equations; lia). rewrite Z.mod_small by lia. split; f_equal; apply Z.leb_le; lia.
  - rewrite (le_const_ok HV) by auto. cbn [val]. intro L. injection L as L. apply Z.leb_le in L. eexists. split; [reflexivity|].
    rewrite !(le_const_ok HV) by (auto; apply (wf_ofZ HV)). cbn [val].
    assert (sval x <= Z.quot (sval x + sval y) 2 <= sval y) as B.
    { pose proof (Z.quot_rem' (sval x + sval y) 2) as Q. destruct (Z.le_gt_cases 0 (sval x + sval y)).
      - pose proof (Z.rem_bound_pos (sval x + sval y) 2). lia.
      - pose proof (Z.rem_bound_pos_neg (sval x + sval y) 2). lia. }
    assert (sval (ofZ (Z.quot (sval x + sval y) 2)) = Z.quot (sval x + sval y) 2) as -> by (apply (val_ofZ_small HV true); cbn; unfold fits_s; lia).
    split; f_equal; apply Z.leb_le; lia.
  - rewrite (bitand_ok HV), (bitxor_ok HV) by auto. cbn [bind]. rewrite (wrapping_shr_ok HV) by apply (wf_ofZ HV). cbn [bind val].
    rewrite (add_u HV) by apply (wf_ofZ HV). rewrite (plus_r HV), (plus_l HV). f_equal. f_equal.
    pose proof (BITS_ge HV). rewrite Z.mod_small by lia. rewrite (uval_ofZ HV).
    assert (Z.lxor (uval x) (uval y) mod 2 ^ BITS = Z.lxor (uval x) (uval y)) as ->.
    { apply Z.bits_inj'. intros i Hi. rewrite Z.testbit_mod_pow2 by lia. destruct (Z.ltb_spec i BITS); [reflexivity|].
      rewrite Z.lxor_spec, !(uval_high HV) by auto. reflexivity. }
    rewrite <- (add_lxor_land (uval x) (uval y)). rewrite Z.mul_comm, Z.div_add by lia. rewrite Z.pow_1_r. ring.
Qed.

(** ** Magnitude and sign *)

(** A value is its sign times its magnitude, and adding with saturation preserves the order. *)
Theorem C81_sign_magnitude : forall (c : Cfg) x, Valid -> wf x -> exists a s,
  unsigned_abs x = Ok a /\ signum x = Ok s /\ wrapping_mul true s a = Ok x /\ s_wrapping_abs x = Ok a /\
  (is_negative x = Ok true -> s_wrapping_neg x = Ok a) /\ (is_negative x = Ok false -> a = x).
Proof.
  intros c x HV Hx. rewrite (unsigned_abs_ok HV), (signum_ok HV), (s_wrapping_abs_ok HV), (is_negative_ok HV), (s_wrapping_neg_ok HV) by auto.
  do 2 eexists. do 2 (split; [reflexivity|]). pose proof (sval_range HV x Hx) as R. pose proof (pBhalf HV) as EB. pose proof (BITS_ge HV).
  assert (EX : x = ofZ (sval x)) by (symmetry; apply (ofZ_val HV true); auto).
  split; [|split; [reflexivity|split; intro L; injection L as L]].
  - rewrite (wrapping_mul_ok HV) by apply (wf_ofZ HV). cbn [val]. f_equal.
    destruct (sval_cong HV (ofZ (Z.abs (sval x))) (wf_ofZ HV _)) as (k & K). rewrite (uval_ofZ HV), Z.mod_small in K by lia.
    assert (4 <= 2 ^ BITS) by (change 4 with (2 ^ 2); apply Z.pow_le_mono_r; lia).
    assert (sval (ofZ (Z.sgn (sval x))) = Z.sgn (sval x)) as -> by (apply (val_ofZ_small HV true); cbn; unfold fits_s; lia).
    rewrite EX at 3. apply (ofZ_cong HV) with (k := Z.sgn (sval x) * k). rewrite K. pose proof (Z.abs_sgn (sval x)) as AS.
    rewrite Z.mul_add_distr_l. rewrite (Z.mul_comm (Z.sgn (sval x)) (Z.abs (sval x))), AS. ring.
  - apply Z.ltb_lt in L. do 2 f_equal. lia.
  - apply Z.ltb_ge in L. rewrite Z.abs_eq by lia. auto.
Qed.
Theorem C81_saturating_monotone : forall (c : Cfg) sg x y z, Valid -> wf x -> wf y -> wf z -> le_const sg x y = Ok true ->
  let add := if (sg : bool) then s_saturating_add else u_saturating_add in
  let sub := if (sg : bool) then s_saturating_sub else u_saturating_sub in
  (let* a := add x z in let* b := add y z in le_const sg a b) = Ok true /\
  (let* a := sub x z in let* b := sub y z in le_const sg a b) = Ok true /\
  (let* a := sub z y in let* b := sub z x in le_const sg a b) = Ok true.
Proof.
  intros c sg x y z HV Hx Hy Hz L add sub. subst add sub. rewrite (le_const_ok HV) in L by auto. injection L as L. apply Z.leb_le in L.
  destruct sg; cbn [val] in L.
  - rewrite !(s_saturating_add_ok HV), !(s_saturating_sub_ok HV) by auto. cbn [bind]. rewrite !(le_const_ok HV) by apply (wf_ofZ HV). cbn [val].
    assert (C : forall v, sval (ofZ (clamp true v)) = clamp true v) by (intro v; apply (val_ofZ_small HV true); cbn; unfold fits_s, clamp; cbn; pose proof (pBh HV); lia).
    rewrite !C. pose proof (pBh HV). unfold clamp. cbn. repeat split; f_equal; apply Z.leb_le; lia.
  - rewrite !(u_saturating_add_ok HV), !(u_saturating_sub_ok HV) by auto. cbn [bind]. rewrite !(le_const_ok HV) by apply (wf_ofZ HV). cbn [val].
    assert (C : forall v, uval (ofZ (clamp false v)) = clamp false v) by (intro v; apply (val_ofZ_small HV false); cbn; unfold fits_u, clamp; cbn; pose proof (pBh HV); pose proof (pBhalf HV); lia).
    rewrite !C. pose proof (pBh HV). unfold clamp. cbn. repeat split; f_equal; apply Z.leb_le; lia.
Qed.

Example C81_ex1 :
  @cmp_const c256_64 true (E64 (-5)) (E64 3) = Ok Lt /\ @cmp_const c256_64 false (E64 (-5)) (E64 3) = Ok Gt /\
  @overflowing_add c256_64 false (E64 (2 ^ 256 - 3)) (E64 7) = Ok (E64 4, true) /\ @lt_const c256_64 false (E64 4) (E64 7) = Ok true /\
  @overflowing_add c256_64 true (E64 (2 ^ 255 - 3)) (E64 7) = Ok (E64 (2 ^ 255 + 4), true).
Proof. vm_compute. auto. Qed.
Example C81_ex2 :
  @abs_diff c256_32 true (E32 (- 2 ^ 255)) (E32 (2 ^ 255 - 1)) = Ok (E32 (2 ^ 256 - 1)) /\
  @u_midpoint c256_32 (E32 (2 ^ 256 - 1)) (E32 (2 ^ 256 - 4)) = Ok (E32 (2 ^ 256 - 3)) /\
  @wrapping_mul c256_32 true (E32 (-1)) (E32 (2 ^ 255)) = Ok (E32 (- 2 ^ 255)) /\
  @le_const c256_32 true (E32 (-7)) (E32 5) = Ok true /\ @s_saturating_add c256_32 (E32 5) (E32 (2 ^ 255 - 2)) = Ok (E32 (2 ^ 255 - 1)).
Proof. vm_compute. auto. Qed.
Example C81_ex3 :
  match @to_be_bytes c256_64 false (E64 (2 ^ 200)), @to_be_bytes c256_64 false (E64 (2 ^ 200 + 1)) with Ok a, Ok b => lex a b | _, _ => Eq end = Lt.
Proof. vm_compute. auto. Qed.

(** ** Assumptions (each must print "Closed under the global context") *)

Print Assumptions C81_bytes_lexicographic.
Print Assumptions C81_signed_flip.
Print Assumptions C81_total_order.
Print Assumptions C81_unsigned_tests.
Print Assumptions C81_signed_tests.
Print Assumptions C81_abs_diff.
Print Assumptions C81_triangle.
Print Assumptions C81_midpoint.
Print Assumptions C81_sign_magnitude.
Print Assumptions C81_saturating_monotone.
