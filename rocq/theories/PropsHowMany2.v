(** * How many signed products are missed, and how many divisions by a scalar go wrong
    (C92, C93)

    C77 decides the signed product and C78 the divisions by scalars.  Here: how many
    operands fall into the exceptional cases. *)

Require Import ZArith List Bool Lia.
From Verif Require Import Prim Spec Facts MAdd MMul MShift MCore PCore PBits PWide MArith PArith PArith2 PPow PMisc PRet
  MDiv DivSpec PDiv PKnuth PDivFull PDivExact MScalar PScalar PScalarDiv MApi PApi PApi2 PropsArith PropsDivAll PropsScalarAll PropsHowMany.
Import ListNotations.
Local Open Scope Z_scope.

(** ** Products in a short interval *)

(** the product of [a] and [b] lies less than [G] below [- A] *)
Definition below (A G a b : Z) : Prop := - (A + G) < a * b < - A.
(** the multiples of [a] in the interval *)
Lemma multiples : forall A G a l, 0 < A -> 1 <= G -> a <> 0 -> NoDup l -> (forall b, In b l -> below A G a b) ->
  Z.of_nat (length l) <= (G - 1) / Z.abs a + 1.
Proof.
  intros A G a l HA HG Ha ND H. assert (P : 0 < Z.abs a) by lia.
  apply (pigeon _ (fun b => (- (a * b) - A - 1) / Z.abs a)); auto.
  - assert (0 <= (G - 1) / Z.abs a) by (apply Z.div_pos; lia). lia.
  - intros b Hb. specialize (H b Hb). unfold below in H. split; [apply Z.div_pos; lia|]. assert ((- (a * b) - A - 1) / Z.abs a <= (G - 1) / Z.abs a) by (apply Z.div_le_mono; lia). lia.
  - intros b b' _ _ E. set (u := - (a * b) - A - 1) in *. set (u' := - (a * b') - A - 1) in *.
    pose proof (Z.div_mod u (Z.abs a) ltac:(lia)) as D. pose proof (Z.div_mod u' (Z.abs a) ltac:(lia)) as D'. pose proof (Z.mod_pos_bound u (Z.abs a) P). pose proof (Z.mod_pos_bound u' (Z.abs a) P).
    rewrite <- E in D'. assert (X : Z.abs (a * (b - b')) < Z.abs a) by (replace (a * (b - b')) with (u' - u) by (unfold u, u'; ring); lia).
    rewrite Z.abs_mul in X. assert (Z.abs (b - b') < 1) by nia. lia.
Qed.
(** factors of one magnitude *)
Lemma one_size : forall A G k (l : list (Z * Z)), 0 < A -> 1 <= G -> 0 <= k -> NoDup l ->
  (forall p, In p l -> 2 ^ k <= Z.abs (fst p) < 2 * 2 ^ k /\ below A G (fst p) (snd p)) ->
  Z.of_nat (length l) <= 2 * G + 2 * 2 ^ k.
Proof.
  intros A G k l HA HG Hk ND H. assert (P : 0 < 2 ^ k) by (apply pow2_pos; auto). set (e := 2 ^ k) in *.
  set (K := (G - 1) / e + 1). assert (K1 : 1 <= K) by (assert (0 <= (G - 1) / e) by (apply Z.div_pos; lia); unfold K; lia).
  set (row := fun a => (if a <? 0 then e else 0) + (Z.abs a - e)). set (col := fun p : Z * Z => (- (fst p * snd p) - A - 1) / Z.abs (fst p)).
  assert (RC : forall p, In p l -> 0 <= row (fst p) < 2 * e /\ 0 <= col p < K).
  { intros p Hp. destruct (H p Hp) as (S & B). unfold below in B. split; [unfold row; destruct (fst p <? 0); lia|]. unfold col, K. split; [apply Z.div_pos; lia|].
    assert ((- (fst p * snd p) - A - 1) / Z.abs (fst p) <= (G - 1) / Z.abs (fst p)) by (apply Z.div_le_mono; lia).
    assert ((G - 1) / Z.abs (fst p) <= (G - 1) / e) by (apply Z.div_le_compat_l; lia). lia. }
  assert (L : Z.of_nat (length l) <= 2 * e * K).
  { apply (pigeon _ (fun p => row (fst p) * K + col p)); auto; [nia| |].
    - intros p Hp. destruct (RC p Hp) as (R1 & R2). nia.
    - intros p p' Hp Hp' E. destruct (RC p Hp) as (R1 & R2). destruct (RC p' Hp') as (R1' & R2'). destruct (H p Hp) as (S & B). destruct (H p' Hp') as (S' & B').
      assert (ER : row (fst p) = row (fst p')).
      { transitivity ((row (fst p) * K + col p) / K); [|rewrite E; symmetry].
        - apply (Z.div_unique _ K _ (col p)); [left|]; lia.
        - apply (Z.div_unique _ K _ (col p')); [left|]; lia. }
      assert (EC : col p = col p') by (rewrite ER in E; lia).
      assert (EA : fst p = fst p') by (unfold row in ER; destruct (Z.ltb_spec (fst p) 0), (Z.ltb_spec (fst p') 0); lia).
      destruct p as (a, b), p' as (a', b'). cbn [fst snd] in *. subst a'. f_equal. unfold col in EC. cbn [fst snd] in EC.
      set (u := - (a * b) - A - 1) in *. set (u' := - (a * b') - A - 1) in *. assert (Pa : 0 < Z.abs a) by lia.
      pose proof (Z.div_mod u (Z.abs a) ltac:(lia)) as D. pose proof (Z.div_mod u' (Z.abs a) ltac:(lia)) as D'. pose proof (Z.mod_pos_bound u (Z.abs a) Pa). pose proof (Z.mod_pos_bound u' (Z.abs a) Pa).
      rewrite <- EC in D'. assert (X : Z.abs (a * (b - b')) < Z.abs a) by (replace (a * (b - b')) with (u' - u) by (unfold u, u'; ring); lia).
      rewrite Z.abs_mul in X. assert (Z.abs (b - b') < 1) by nia. lia. }
  unfold K in L. pose proof (Z.mul_div_le (G - 1) e P). lia.
Qed.
Lemma NoDup_swap : forall (l : list (Z * Z)), NoDup l -> NoDup (map (fun p => (snd p, fst p)) l).
Proof.
  intros l ND. induction ND as [|a l NI ND IH]; cbn [map]; constructor; auto. intro I. apply in_map_iff in I. destruct I as ((x, y) & E & I). apply NI. destruct a as (u, v). cbn in E. inversion E; subst. exact I.
Qed.
(** pairs, [A + G] being at most a square *)
Lemma pairs : forall A G h (l : list (Z * Z)), 0 < A -> 2 <= G -> (A + G) <= 2 ^ (2 * Z.of_nat h) -> 2 ^ Z.of_nat h <= G -> NoDup l ->
  (forall p, In p l -> below A G (fst p) (snd p)) -> Z.of_nat (length l) <= Z.of_nat (2 * h) * (3 * G).
Proof.
  intros A G h l HA HG HS Hh ND H. rewrite <- (Z.mul_1_r (Z.of_nat (length l))).
  set (cls := fun j (p : Z * Z) => if (j <? h)%nat then (Z.abs (fst p) <=? Z.abs (snd p)) && (Z.log2 (Z.abs (fst p)) =? Z.of_nat j)
    else negb (Z.abs (fst p) <=? Z.abs (snd p)) && (Z.log2 (Z.abs (snd p)) =? Z.of_nat (j - h))).
  assert (SZ : forall a k, a <> 0 -> Z.log2 (Z.abs a) = Z.of_nat k -> 2 ^ Z.of_nat k <= Z.abs a < 2 * 2 ^ Z.of_nat k).
  { intros a k Ha E. pose proof (Z.log2_spec (Z.abs a) ltac:(lia)) as (L1 & L2). rewrite E in L1, L2. rewrite Z.pow_succ_r in L2 by lia. lia. }
  assert (HALF : forall k, (k < h)%nat -> 2 * 2 ^ Z.of_nat k <= G).
  { intros k Hk. rewrite <- Z.pow_succ_r by lia. apply Z.le_trans with (2 ^ Z.of_nat h); [apply Z.pow_le_mono_r; lia|exact Hh]. }
  assert (NZ : forall p, In p l -> fst p <> 0 /\ snd p <> 0) by (intros p Hp; specialize (H p Hp); unfold below in H; split; intro E; rewrite E in H; lia).
  apply (union_bound _ cls); auto; try lia.
  - intros p Hp. specialize (H p Hp). destruct (NZ p Hp) as (N1 & N2). unfold below in H.
    assert (SQ : forall a b, a <> 0 -> Z.abs a <= Z.abs b -> Z.abs (a * b) < A + G -> Z.log2 (Z.abs a) < Z.of_nat h).
    { intros a b Ha L B. apply Z.log2_lt_pow2; [lia|]. rewrite Z.abs_mul in B. destruct (Z.lt_ge_cases (Z.abs a) (2 ^ Z.of_nat h)) as [|GE]; [auto|exfalso].
      assert (2 ^ Z.of_nat h * 2 ^ Z.of_nat h <= Z.abs a * Z.abs b) by (apply Z.mul_le_mono_nonneg; try lia; apply Z.pow_nonneg; lia).
      rewrite <- Z.pow_add_r in H0 by lia. replace (Z.of_nat h + Z.of_nat h) with (2 * Z.of_nat h) in H0 by lia. lia. }
    pose proof (Z.log2_nonneg (Z.abs (fst p))). pose proof (Z.log2_nonneg (Z.abs (snd p))).
    destruct (Z.leb_spec (Z.abs (fst p)) (Z.abs (snd p))) as [L|L].
    + pose proof (SQ (fst p) (snd p) N1 L ltac:(lia)) as B. exists (Z.to_nat (Z.log2 (Z.abs (fst p)))). split; [lia|]. unfold cls. rewrite (proj2 (Nat.ltb_lt _ _)) by lia.
      rewrite (proj2 (Z.leb_le _ _)) by lia. apply Z.eqb_eq. lia.
    + pose proof (SQ (snd p) (fst p) N2 ltac:(lia) ltac:(rewrite Z.mul_comm; lia)) as B. exists (h + Z.to_nat (Z.log2 (Z.abs (snd p))))%nat. split; [lia|]. unfold cls. rewrite (proj2 (Nat.ltb_ge _ _)) by lia.
      rewrite (proj2 (Z.leb_gt _ _)) by lia. apply Z.eqb_eq. lia.
  - intros j l' Hj ND' I' C. rewrite Z.mul_1_r. destruct (Nat.ltb_spec j h) as [L|L].
    + assert (Z.of_nat (length l') <= 2 * G + 2 * 2 ^ Z.of_nat j); [|pose proof (HALF j L); lia]. apply (one_size A); auto; try lia.
      intros p Hp. specialize (C p Hp). unfold cls in C. rewrite (proj2 (Nat.ltb_lt _ _)) in C by lia. apply andb_true_iff in C. destruct C as (_ & C). apply Z.eqb_eq in C.
      split; [apply SZ; auto; apply (NZ p (I' p Hp))|apply H; auto].
    + assert (Z.of_nat (length l') <= 2 * G + 2 * 2 ^ Z.of_nat (j - h)); [|pose proof (HALF (j - h)%nat ltac:(lia)); lia].
      rewrite <- (map_length (fun p => (snd p, fst p)) l'). apply (one_size A); auto using NoDup_swap; try lia.
      intros p Hp. apply in_map_iff in Hp. destruct Hp as (p' & <- & Hp). cbn [fst snd]. specialize (C p' Hp). unfold cls in C. rewrite (proj2 (Nat.ltb_ge _ _)) in C by lia. apply andb_true_iff in C. destruct C as (_ & C). apply Z.eqb_eq in C.
      split; [apply SZ; auto; apply (NZ p' (I' p' Hp))|]. specialize (H p' (I' p' Hp)). unfold below in *. rewrite Z.mul_comm. exact H.
Qed.

(** ** Missed overflow *)

Section Vocabulary.
Context {c : Cfg}.
(** the product does not fit and the flag is clear *)
Definition missed (x y : list Z) : Prop :=
  ~ fits_s BITS (sval x * sval y) /\ exists r, overflowing_mul true x y = Ok (r, false).
End Vocabulary.

Section P.
Context {c : Cfg}.
Hypothesis HV : Valid.
Lemma missed_below : forall x y, wf x -> wf y -> (missed x y <-> below (2 ^ (BITS - 1)) (2 ^ (BITS - W)) (sval x) (sval y)).
Proof.
  intros x y Wx Wy. destruct (C06_overflowing_mul_partial c x y HV Wx Wy) as (r & f & E & _ & _ & F). unfold missed, below, fits_s. rewrite E. pose proof (pBh HV). split.
  - intros (NF & r' & E'). inversion E'; subst. assert (X : ~ (2 ^ (BITS - 1) <= sval x * sval y \/ sval x * sval y <= - (2 ^ (BITS - 1) + 2 ^ (BITS - W)))) by (intro X; apply F in X; discriminate). lia.
  - intros B. split; [lia|]. exists r. destruct f; [|reflexivity]. assert (X : true = true) by reflexivity. apply F in X. lia.
Qed.
Lemma gap_facts : 2 <= 2 ^ (BITS - W) /\ 2 ^ (BITS - 1) + 2 ^ (BITS - W) <= 2 ^ BITS /\ exists h, (2 * h)%nat = Z.to_nat BITS /\ Z.of_nat (2 * h) = BITS /\ 2 ^ Z.of_nat h <= 2 ^ (BITS - W).
Proof.
  assert (W2 : 32 <= W) by (destruct (W_cases HV); lia). pose proof (N_ge4 HV) as N4. destruct (N_even HV) as (k & K2 & EN).
  assert (EB : BITS = 2 * (Z.of_nat k * W)) by (unfold BITS; rewrite EN, Nat2Z.inj_mul; ring).
  assert (KW : 2 * W <= Z.of_nat k * W) by (apply Z.mul_le_mono_nonneg_r; lia).
  split; [change 2 with (2 ^ 1) at 1; apply Z.pow_le_mono_r; lia|]. split.
  - rewrite (pBhalf HV). assert (2 ^ (BITS - W) <= 2 ^ (BITS - 1)) by (apply Z.pow_le_mono_r; lia). lia.
  - exists (Z.to_nat (Z.of_nat k * W)). split; [lia|]. split; [lia|]. apply Z.pow_le_mono_r; lia.
Qed.
End P.

(** ** Properties *)

(** For one factor: the flag misses at most one product in [|x|] of a stretch of
    [2^(BITS-W)], and none if [x] is 0, 1 or -1. *)
Theorem C92_one_factor : forall (c : Cfg) x l, Valid -> wf x -> NoDup l -> (forall y, In y l -> wf y /\ missed x y) ->
  (Z.abs (sval x) <= 1 -> l = []) /\
  (sval x <> 0 -> Z.of_nat (length l) <= (2 ^ (BITS - W) - 1) / Z.abs (sval x) + 1).
Proof.
  intros c x l HV Wx ND H. pose proof (gap_facts HV) as (G2 & _). pose proof (pBh HV) as PH. split.
  - intro A. destruct l as [|y l]; [reflexivity|exfalso]. destruct (H y (or_introl eq_refl)) as (Wy & M). apply (missed_below HV) in M; auto. unfold below in M.
    pose proof (sval_range HV y Wy). assert (Z.abs (sval x * sval y) <= 1 * Z.abs (sval y)) by (rewrite Z.abs_mul; apply Z.mul_le_mono_nonneg_r; lia). lia.
  - intro X0. rewrite <- (map_length sval l). apply (multiples (2 ^ (BITS - 1))); auto; try lia.
    + clear - ND H HV. induction ND as [|a l NI ND IH]; cbn [map]; constructor; [|apply IH; intros; apply H; right; auto].
      intro I. apply in_map_iff in I. destruct I as (z & E & I). apply NI. replace a with z; [exact I|]. apply (sval_inj HV); auto; apply H; [right|left]; auto.
    + intros b Hb. apply in_map_iff in Hb. destruct Hb as (y & <- & Hy). destruct (H y Hy) as (Wy & M). apply (missed_below HV); auto.
Qed.
(** Of all [2^(2 BITS)] pairs of factors at most [3 BITS 2^(BITS-W)] are missed. *)
Theorem C92_pairs : forall (c : Cfg) l, Valid -> NoDup l -> (forall p, In p l -> wf (fst p) /\ wf (snd p) /\ missed (fst p) (snd p)) ->
  Z.of_nat (length l) <= 3 * BITS * 2 ^ (BITS - W).
Proof.
  intros c l HV ND H. destruct (gap_facts HV) as (G2 & GS & h & _ & E2 & GH). pose proof (pBh HV) as PH.
  rewrite <- (map_length (fun p => (sval (fst p), sval (snd p))) l). replace (3 * BITS * 2 ^ (BITS - W)) with (Z.of_nat (2 * h) * (3 * 2 ^ (BITS - W))) by (rewrite E2; ring).
  apply (pairs (2 ^ (BITS - 1))); auto.
  - replace (2 * Z.of_nat h) with BITS by lia. exact GS.
  - clear - ND H HV. induction ND as [|a l NI ND IH]; cbn [map]; constructor; [|apply IH; intros; apply H; right; auto].
    intro I. apply in_map_iff in I. destruct I as (z & E & I). apply NI. replace a with z; [exact I|]. destruct z as (u, v), a as (u', v'). cbn [fst snd] in E. inversion E as [[E1 E2]].
    destruct (H (u, v) (or_intror I)) as (A1 & A2 & _). destruct (H (u', v') (or_introl eq_refl)) as (B1 & B2 & _). cbn [fst snd] in *. f_equal; apply (sval_inj HV); auto.
  - intros p Hp. apply in_map_iff in Hp. destruct Hp as (q & <- & Hq). destruct (H q Hq) as (Wa & Wb & M). cbn [fst snd]. apply (missed_below HV); auto.
Qed.
(** The factor -2 reaches half a stretch. *)
Theorem C92_attained : forall (c : Cfg), Valid -> exists x l, wf x /\ NoDup l /\ (forall y, In y l -> wf y /\ missed x y) /\
  sval x = -2 /\ Z.of_nat (length l) = 2 ^ (BITS - W - 1) - 1.
Proof.
  intros c HV. destruct (gap_facts HV) as (G2 & GS & _). pose proof (pBh HV) as PH. pose proof (pBhalf HV) as PB. assert (W2 : 32 <= W) by (destruct (W_cases HV); lia).
  assert (BW : 4 * W <= BITS) by (unfold BITS; apply Z.mul_le_mono_nonneg_r; [lia|]; pose proof (N_ge4 HV); lia).
  assert (E1 : 2 ^ (BITS - W) = 2 * 2 ^ (BITS - W - 1)) by (rewrite <- Z.pow_succ_r by lia; f_equal; lia).
  assert (E2 : 2 ^ (BITS - 1) = 2 * 2 ^ (BITS - 2)) by (rewrite <- Z.pow_succ_r by lia; f_equal; lia).
  set (q := 2 ^ (BITS - 2)) in *. set (g := 2 ^ (BITS - W - 1)) in *. assert (GQ : g <= q) by (apply Z.pow_le_mono_r; lia).
  set (v := fun k : nat => q + 1 + Z.of_nat k).
  assert (F2 : fits_s BITS (-2)) by (unfold fits_s; lia). assert (X2 : sval (ofZ (-2)) = -2) by (apply (val_ofZ_small HV true); exact F2).
  assert (FV : forall k, (k < Z.to_nat (g - 1))%nat -> sval (ofZ (v k)) = v k) by (intros k Hk; apply (val_ofZ_small HV true); unfold fits, fits_s, v; lia).
  exists (ofZ (-2)), (map (fun k => ofZ (v k)) (seq 0 (Z.to_nat (g - 1)))). split; [apply (wf_ofZ HV)|]. split; [|split; [|split; [exact X2|]]].
  - assert (S : forall k, In k (seq 0 (Z.to_nat (g - 1))) -> (k < Z.to_nat (g - 1))%nat) by (intros k Hk; apply in_seq in Hk; lia).
    pose proof (seq_NoDup (Z.to_nat (g - 1)) 0) as ND. revert S. induction ND as [|a m NI ND IH]; intro S; cbn [map]; constructor; [|apply IH; intros; apply S; right; auto].
    intro I. apply in_map_iff in I. destruct I as (b & E & I). apply NI. assert (EV : v b = v a) by (rewrite <- (FV b), <- (FV a), E; [reflexivity|apply S; left; auto|apply S; right; auto]).
    unfold v in EV. replace a with b by lia. exact I.
  - intros y Hy. apply in_map_iff in Hy. destruct Hy as (k & <- & Hk). apply in_seq in Hk. split; [apply (wf_ofZ HV)|]. apply (missed_below HV); try apply (wf_ofZ HV).
    rewrite X2, FV by lia. unfold below, v. rewrite E1, E2. lia.
  - rewrite map_length, seq_length. lia.
Qed.
Example C92_ex : let x := @ofZ c256_64 (-2) in
  forall y, In y (map (@ofZ c256_64) [2 ^ 254 + 1; 2 ^ 254 + 2; 2 ^ 254 + 2 ^ 191 - 1]) -> wf (c := c256_64) y /\ missed (c := c256_64) x y.
Proof.
  intros x y Hy. split; [cbn [map In] in Hy; destruct Hy as [<-|[<-|[<-|[]]]]; apply (wf_ofZ valid_c256_64)|].
  cbn [map In] in Hy. destruct Hy as [<-|[<-|[<-|[]]]]; (split; [intros (A & _); vm_compute in A; apply A; reflexivity|eexists; vm_compute; reflexivity]).
Qed.

(** Divisions by a scalar: the numerators with a wrong remainder are, for one scalar of [m]
    limbs, at most [6 (N - m + 1)] in [2^W]. *)
Lemma no_correction_stray : forall w M x y, has_correction w x y = false -> stray w M x y = 0.
Proof.
  intros w M x y H. unfold has_correction in H. unfold stray. cbv zeta in *. set (o := overestimated _ _ _ _) in *. set (n := Z.to_nat (limbs_of w y)) in *. clearbody o n.
  revert H. generalize (seq 0 (Z.to_nat (limbs_of w x) - n + 1)). intro l. induction l as [|j l IH]; cbn [existsb fold_right]; intro H; [reflexivity|].
  apply orb_false_iff in H. destruct H as (-> & H). cbn [andb]. rewrite IH by exact H. reflexivity.
Qed.
Lemma scalar_wrong_corrects : forall (c : Cfg) k x n, ~ scalar_right k x n -> 2 ^ W <= Z.abs n /\ has_correction W (Z.abs x) (Z.abs n) = true.
Proof.
  intros c k x n H. unfold scalar_right, exact_scalar in H. split; [destruct (Z.le_gt_cases (2 ^ W) (Z.abs n)); [auto|exfalso; apply H; auto]|].
  destruct (has_correction W (Z.abs x) (Z.abs n)) eqn:E; [reflexivity|exfalso]. apply H. destruct (Z.le_gt_cases (kbits k) (2 * W)).
  - right. right. right. right. left. auto.
  - right. right. right. right. right. split; [lia|]. rewrite no_correction_stray by exact E. reflexivity.
Qed.
Lemma kbits_small : forall (c : Cfg) k, Valid -> 2 ^ kbits k <= 2 ^ BITS.
Proof.
  intros c k HV. assert (BW : 4 * W <= BITS) by (unfold BITS; apply Z.mul_le_mono_nonneg_r; [destruct (W_cases HV); lia|]; pose proof (N_ge4 HV); lia).
  assert (256 <= BITS) by (destruct HV as (_ & (k' & K & E) & _); lia). apply Z.pow_le_mono_r; [lia|]. destruct k; cbn [kbits]; destruct (W_cases HV); lia.
Qed.
Theorem C93_unsigned : forall (c : Cfg) f k n l, Valid -> fits_u (kbits k) n -> n <> 0 -> NoDup l ->
  (forall x, In x l -> wf x /\ rem_of (div_us f k false x n) <> Ok (uval x mod n)) ->
  Z.of_nat (length l) * 2 ^ W <= 6 * (Z.of_nat N - limbs_of W n + 1) * 2 ^ BITS.
Proof.
  intros c f k n l HV Hn H0 ND H. pose proof (kbits_small c k HV) as KB. assert (An : Z.abs n = n) by (destruct Hn; lia).
  pose proof (correction_count HV false n l H0) as Q. rewrite An, Z.add_0_r in Q. replace (6 * (Z.of_nat N - limbs_of W n + 1) * 2 ^ BITS) with ((Z.of_nat N - limbs_of W n + 1) * (6 * 2 ^ BITS)) by ring.
  apply Q; [destruct Hn; lia|exact ND|]. intros x Hx. destruct (H x Hx) as (Wx & R). split; [exact Wx|]. rewrite <- An. apply (scalar_wrong_corrects c k). intro S. apply R. apply (C78_unsigned c f k x n HV Wx Hn H0). exact S.
Qed.
Theorem C93_signed_by_signed : forall (c : Cfg) f k n l, Valid -> fits_s (kbits k) n -> n <> 0 -> NoDup l ->
  (forall x, In x l -> wf x /\ divisible true (sval x) n /\ rem_of (div_is f k x n) <> Ok (Z.rem (sval x) n)) ->
  Z.of_nat (length l) * 2 ^ W <= 6 * (Z.of_nat N - limbs_of W (Z.abs n) + 1) * (2 ^ BITS + 2).
Proof.
  intros c f k n l HV Hn H0 ND H. pose proof (kbits_small c k HV) as KB. assert (HK : 2 ^ kbits k = 2 * 2 ^ (kbits k - 1)) by (rewrite <- Z.pow_succ_r by (destruct k; cbn [kbits]; destruct (W_cases HV); lia); f_equal; lia).
  pose proof (correction_count HV true n l H0) as Q. replace (6 * (Z.of_nat N - limbs_of W (Z.abs n) + 1) * (2 ^ BITS + 2)) with ((Z.of_nat N - limbs_of W (Z.abs n) + 1) * (6 * (2 ^ BITS + 2))) by ring.
  apply Q; [destruct Hn; lia|exact ND|]. intros x Hx. destruct (H x Hx) as (Wx & D & R). split; [exact Wx|]. apply (scalar_wrong_corrects c k). intro S. apply R. apply (C78_signed_by_signed c f k x n HV Wx Hn D). exact S.
Qed.
Theorem C93_signed_by_unsigned : forall (c : Cfg) f k n l, Valid -> fits_u (kbits k) n -> n <> 0 -> NoDup l ->
  (forall x, In x l -> wf x /\ rem_of (div_us f k true x n) <> Ok (sval x mod n)) ->
  Z.of_nat (length l) * 2 ^ W <= 6 * (Z.of_nat N - limbs_of W n + 1) * (2 ^ BITS + 2).
Proof.
  intros c f k n l HV Hn H0 ND H. pose proof (kbits_small c k HV) as KB. assert (An : Z.abs n = n) by (destruct Hn; lia).
  pose proof (correction_count HV true n l H0) as Q. rewrite An in Q. replace (6 * (Z.of_nat N - limbs_of W n + 1) * (2 ^ BITS + 2)) with ((Z.of_nat N - limbs_of W n + 1) * (6 * (2 ^ BITS + 2))) by ring.
  apply Q; [destruct Hn; lia|exact ND|]. intros x Hx. destruct (H x Hx) as (Wx & R). split; [exact Wx|]. rewrite <- An. apply (scalar_wrong_corrects c k). intro S. apply R. apply (C78_signed_by_unsigned c f k x n HV Wx Hn H0). exact S.
Qed.
(** A scalar that fits one limb never goes wrong. *)
Theorem C93_narrow : forall (c : Cfg) f k n x, Valid -> fits_u (kbits k) n -> n <> 0 -> n < 2 ^ W -> wf x ->
  rem_of (div_us f k false x n) = Ok (uval x mod n) /\ rem_of (div_us f k true x n) = Ok (sval x mod n).
Proof.
  intros c f k n x HV Hn H0 HW Wx. assert (An : Z.abs n = n) by (destruct Hn; lia). assert (S : forall v, scalar_right k v n) by (intro v; unfold scalar_right, exact_scalar; rewrite An; auto).
  split; [apply (C78_unsigned c f k x n HV Wx Hn H0)|apply (C78_signed_by_unsigned c f k x n HV Wx Hn H0)]; apply S.
Qed.
(** [2^191] and two more numerators that panic on the scalar [2^127 + 2^64 - 1]. *)
Example C93_ex : forall x, In x (map (@ofZ c256_64) [2 ^ 191; 2 ^ 191 + 1; 2 ^ 191 + 2 ^ 100]) ->
  wf (c := c256_64) x /\ rem_of (@div_us c256_64 Wrapping K128 false x (2 ^ 127 + 2 ^ 64 - 1)) = Panic /\
  rem_of (@div_us c256_64 Wrapping K128 true x (2 ^ 127 + 2 ^ 64 - 1)) = Panic.
Proof.
  intros x Hx. split; [cbn [map In] in Hx; destruct Hx as [<-|[<-|[<-|[]]]]; apply (wf_ofZ valid_c256_64)|].
  cbn [map In] in Hx. destruct Hx as [<-|[<-|[<-|[]]]]; split; vm_compute; reflexivity.
Qed.
Example C93_ex2 : Z.of_nat 3 * 2 ^ 64 <= 6 * 3 * (2 ^ 256 + 2).
Proof.
  apply (C93_signed_by_unsigned c256_64 Wrapping K128 (2 ^ 127 + 2 ^ 64 - 1) (map (@ofZ c256_64) [2 ^ 191; 2 ^ 191 + 1; 2 ^ 191 + 2 ^ 100]) valid_c256_64).
  - split; vm_compute; [discriminate|reflexivity].
  - discriminate.
  - vm_compute. repeat (constructor; [cbn; intuition discriminate|]). constructor.
  - intros x Hx. destruct (C93_ex x Hx) as (A & _ & B). split; [exact A|]. rewrite B. discriminate.
Qed.

(** ** Assumptions (each must print "Closed under the global context") *)

Print Assumptions C92_one_factor.
Print Assumptions C92_pairs.
Print Assumptions C92_attained.
Print Assumptions C93_unsigned.
Print Assumptions C93_signed_by_signed.
Print Assumptions C93_signed_by_unsigned.
Print Assumptions C93_narrow.
