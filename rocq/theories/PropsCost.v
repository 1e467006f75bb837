(** * C95: how many limb products and limb divisions a call performs

    The runs counted here are those of MCost.v; [C95_same] shows that they are
    runs of the modelled functions. *)

Require Import ZArith List Bool Lia.
From Verif Require Import Prim Spec MAdd MMul MCore MArith MScalar MDiv MApi MCost.
From Verif Require Import Facts PCore PRet PArith PArith2 PPow PBits2 PScalar PDiv DivSpec PApi PMulS PMisc PCost.
Import ListNotations.
Local Open Scope Z_scope.

(** [n] products in a triangle *)
Definition tri (n : nat) : nat := (n * (n + 1) / 2)%nat.
(** the size of an operand without its sign *)
Definition magnitude {c : Cfg} (sg : bool) (x : list Z) : Z := Z.abs (val sg x).
(** limbs needed to write a positive integer down *)
Definition limbs_used {c : Cfg} (v : Z) : nat := Z.to_nat (Z.log2 v / W + 1).

(** ** The counted functions are the modelled ones *)

Theorem C95_same : forall (c : Cfg) sg x y n e,
  snd (c_wrapping_mul x y) = wrapping_mul sg x y /\ snd (c_overflowing_mul sg x y) = overflowing_mul sg x y /\
  snd (c_checked_mul sg x y) = checked_mul sg x y /\ snd (c_mul_widening x y) = mul_widening x y /\
  snd (c_wrapping_mul_ulimb x n) = wrapping_ulimb SMul sg x n /\ snd (c_wrapping_mul_uwide x n) = wrapping_uwide SMul sg x n /\
  snd (c_wrapping_mul_ilimb x n) = wrapping_ilimb SMul x n /\ snd (c_wrapping_mul_iwide x n) = wrapping_iwide SMul x n /\
  snd (c_overflowing_mul_ulimb sg x n) = overflowing_ulimb SMul sg x n /\
  snd (c_overflowing_mul_uwide sg x n) = overflowing_uwide SMul sg x n /\
  snd (c_overflowing_mul_ilimb x n) = overflowing_ilimb SMul x n /\ snd (c_overflowing_mul_iwide x n) = overflowing_iwide SMul x n /\
  snd (c_wrapping_pow x e) = wrapping_pow sg x e /\ snd (c_div_limb x n) = div_limb x n /\
  snd (c_wrapping_div_rem sg x y) = wrapping_div_rem sg x y.
Proof.
  intros c sg x y n e. pose proof (er_scalar_w sg x n). pose proof (er_scalar_o sg x n).
  pose proof (er_wrapping_mul sg x y). pose proof (er_overflowing_mul sg x y). pose proof (er_checked_mul sg x y).
  pose proof (er_mul_widening x y). pose proof (er_wrapping_pow sg x e). pose proof (er_div_limb x n).
  pose proof (er_wrapping_div_rem sg x y). tauto.
Qed.

(** ** Products *)

Lemma rows_tri : forall n, (1 <= n)%nat -> rows n n = tri n.
Proof.
  intros n H. pose proof (rows_eq n n ltac:(lia)) as E. unfold tri. replace (n * (n + 1))%nat with (rows n n * 2)%nat by lia.
  rewrite Nat.div_mul by discriminate. reflexivity.
Qed.
Lemma rows_1 : forall n, (1 <= n)%nat -> rows n 1 = n.
Proof. intros n H. pose proof (rows_eq n 1 ltac:(lia)). lia. Qed.
Lemma rows_2 : forall n, (2 <= n)%nat -> rows n 2 = (2 * n - 1)%nat.
Proof. intros n H. pose proof (rows_eq n 2 ltac:(lia)). lia. Qed.

(** A product of two numbers multiplies the same limbs whatever the operands
    are, in every build and of either type: a triangle of limb products, never
    fewer.  The widening product needs the whole square. *)
Theorem C95_product : forall (c : Cfg) sg x y, Valid -> wf x -> wf y ->
  fst (c_wrapping_mul x y) = repeat Mul (tri N) /\ fst (c_overflowing_mul sg x y) = repeat Mul (tri N) /\
  fst (c_mul_widening x y) = repeat Mul (N * N).
Proof.
  intros c sg x y HV Hx Hy. pose proof (N_ge4 HV) as H4. rewrite <- rows_tri by lia.
  pose proof (proj1 Hx) as Lx. pose proof (proj1 Hy) as Ly. repeat split.
  - rewrite <- Lx at 1. rewrite <- Ly. eapply runs_wrapping_mul. rewrite (er_wrapping_mul sg). apply (wrapping_mul_ok HV); auto.
  - rewrite <- Lx at 1. rewrite <- Ly. eapply runs_overflowing_mul. rewrite er_overflowing_mul. apply (overflowing_mul_ok HV); auto.
  - rewrite <- Lx. eapply runs_mul_widening. rewrite er_mul_widening. apply (mul_widening_wf HV); auto.
Qed.
Example C95_product_ex : let c := c256_64 in
  fst (c_wrapping_mul (ofZ 0) (ofZ 0)) = repeat Mul 10 /\
  c_overflowing_mul true (ofZ (- 5)) (ofZ (2 ^ 200 + 7)) = (repeat Mul 10, Ok (ofZ (- 5 * (2 ^ 200 + 7)), false)) /\
  c_overflowing_mul false (ofZ (2 ^ 255)) (ofZ (2 ^ 255)) = (repeat Mul 10, Ok (ofZ 0, true)).
Proof. vm_compute. auto. Qed.

(** The checked unsigned product is the one form that looks at its operands
    first: it multiplies nothing when an operand is zero or when the two
    logarithms already add up to the width.  The signed one always multiplies. *)
Theorem C95_checked : forall (c : Cfg) x y, Valid -> wf x -> wf y ->
  fst (c_checked_mul false x y) =
    (if (uval x =? 0) || (uval y =? 0) || (BITS <=? Z.log2 (uval x) + Z.log2 (uval y)) then [] else repeat Mul (tri N)) /\
  fst (c_checked_mul true x y) = repeat Mul (tri N).
Proof.
  intros c x y HV Hx Hy. pose proof (N_ge4 HV) as H4.
  pose proof (proj1 Hx) as Lx. pose proof (proj1 Hy) as Ly.
  assert (G : forall sg, runs (c_opt (c_overflowing_mul sg x y)) (repeat Mul (tri N))).
  { intros sg. rewrite <- rows_tri by lia. apply runs_opt. rewrite <- Lx at 1. rewrite <- Ly. apply runs_overflowing_mul. }
  split.
  2:{ eapply G. change (c_opt (c_overflowing_mul true x y)) with (c_checked_mul true x y). rewrite er_checked_mul.
      apply (checked_mul_ok HV); auto. }
  pose proof (er_checked_mul false x y) as E. rewrite (checked_mul_ok HV) in E by auto. revert E.
  unfold c_checked_mul. cbn [negb]. rewrite !(checked_ilog2_ok HV) by auto. cbn [val].
  pose proof (uval_range HV x Hx) as Rx. pose proof (uval_range HV y Hy) as Ry.
  rewrite !cbind_free.
  destruct (Z.leb_spec (uval x) 0), (Z.leb_spec (uval y) 0), (Z.eqb_spec (uval x) 0), (Z.eqb_spec (uval y) 0);
    try lia; try (cbn; reflexivity).
  cbn [orb]. pose proof (tbits1 HV) as T. pose proof (BITS_pos HV).
  assert (BB : BITS < 2 ^ 31).
  { exact (BITS_lt31 HV). }
  assert (Z.log2 (uval x) < BITS) by (apply Z.log2_lt_pow2; lia). assert (Z.log2 (uval y) < BITS) by (apply Z.log2_lt_pow2; lia).
  pose proof (Z.log2_nonneg (uval x)). pose proof (Z.log2_nonneg (uval y)).
  assert (U : uadd 32 (Z.log2 (uval x)) (Z.log2 (uval y)) = Ok (Z.log2 (uval x) + Z.log2 (uval y))).
  { unfold uadd, uchk, in_u. destruct (Z.leb_spec 0 (Z.log2 (uval x) + Z.log2 (uval y))); [|lia].
    destruct (Z.ltb_spec (Z.log2 (uval x) + Z.log2 (uval y)) (2 ^ 32)); [reflexivity|lia]. }
  rewrite U, cbind_free, T, cbind_free.
  destruct (Z.ltb_spec (BITS - 1) (Z.log2 (uval x) + Z.log2 (uval y))), (Z.leb_spec BITS (Z.log2 (uval x) + Z.log2 (uval y)));
    try lia; cbn [fst snd]; [reflexivity|]. intro E. exact (G false _ E).
Qed.
Example C95_checked_ex : let c := c256_64 in
  c_checked_mul false (ofZ (2 ^ 200)) (ofZ (2 ^ 57)) = ([], Ok None) /\
  c_checked_mul false (ofZ (2 ^ 200)) (ofZ 6) = (repeat Mul 10, Ok (Some (ofZ (6 * 2 ^ 200)))) /\
  c_checked_mul true (ofZ (2 ^ 200)) (ofZ (2 ^ 57)) = (repeat Mul 10, Ok None).
Proof. vm_compute. auto. Qed.

(** ** Products with a scalar *)

(** Unsigned scalars of one limb cost one product per limb and those of two
    limbs one less than twice that, in the wrapping forms of both types and in the
    overflowing forms of the unsigned type.  Every other scalar form pads the
    scalar to full width first and costs as much as a full product. *)
Theorem C95_scalar : forall (c : Cfg) x n, Valid -> wf x ->
  (fits_u W n -> fst (c_wrapping_mul_ulimb x n) = repeat Mul N /\ fst (c_overflowing_mul_ulimb false x n) = repeat Mul N /\
     fst (c_overflowing_mul_ulimb true x n) = repeat Mul (tri N)) /\
  (fits_u (2 * W) n -> fst (c_wrapping_mul_uwide x n) = repeat Mul (2 * N - 1) /\
     fst (c_overflowing_mul_uwide false x n) = repeat Mul (2 * N - 1) /\
     fst (c_overflowing_mul_uwide true x n) = repeat Mul (tri N)) /\
  (fits_s W n -> fst (c_wrapping_mul_ilimb x n) = repeat Mul (tri N) /\ fst (c_overflowing_mul_ilimb x n) = repeat Mul (tri N)) /\
  (fits_s (2 * W) n -> fst (c_wrapping_mul_iwide x n) = repeat Mul (tri N) /\ fst (c_overflowing_mul_iwide x n) = repeat Mul (tri N)).
Proof.
  intros c x n HV Hx. pose proof (N_ge4 HV) as H4. pose proof (proj1 Hx) as Lx.
  assert (GW : forall f, runs (let$ rhs := free (lay f (length x) n) in c_wrapping_mul x rhs) (repeat Mul (rows N (spread f N)))).
  { intros f. apply runs_skip. intros rhs E. apply lay_length in E. rewrite Lx in E. rewrite <- E, <- Lx. apply runs_wrapping_mul. }
  assert (GO : forall sg f, runs (let$ rhs := free (lay f (length x) n) in c_overflowing_mul sg x rhs) (repeat Mul (rows N (spread f N)))).
  { intros sg f. apply runs_skip. intros rhs E. apply lay_length in E. rewrite Lx in E. rewrite <- E, <- Lx. apply runs_overflowing_mul. }
  pose proof (er_scalar_w false x n) as (W1 & W2 & W3 & W4). pose proof (er_scalar_o false x n) as (O1 & O2 & O3 & O4).
  pose proof (er_scalar_o true x n) as (P1 & P2 & _).
  rewrite <- rows_tri by lia. rewrite <- (rows_2 N) by lia. rewrite <- (rows_1 N) at 1 2 by lia.
  split; [|split; [|split]]; intro F.
  - split; [|split].
    + eapply (GW FLimb). fold (c_wrapping_mul_ulimb x n). rewrite W1. apply (wrapping_ulimb_ok HV); auto.
    + eapply (GO false FLimb). eapply eq_trans; [exact O1|]. apply (overflowing_ulimb_ok HV); auto.
    + eapply (GO true FULimb). eapply eq_trans; [exact P1|]. apply (overflowing_ulimb_ok HV); auto.
  - split; [|split].
    + eapply (GW FWide). fold (c_wrapping_mul_uwide x n). rewrite W2. apply (wrapping_uwide_ok HV); auto.
    + eapply (GO false FWide). eapply eq_trans; [exact O2|]. apply (overflowing_uwide_ok HV); auto.
    + eapply (GO true FUWide). eapply eq_trans; [exact P2|]. apply (overflowing_uwide_ok HV); auto.
  - split.
    + eapply (GW FILimb). fold (c_wrapping_mul_ilimb x n). rewrite W3. apply (wrapping_ilimb_ok HV); auto.
    + eapply (GO true FILimb). fold (c_overflowing_mul_ilimb x n). rewrite O3. apply (overflowing_ilimb_ok HV); auto.
  - split.
    + eapply (GW FIWide). fold (c_wrapping_mul_iwide x n). rewrite W4. apply (wrapping_iwide_ok HV); auto.
    + eapply (GO true FIWide). fold (c_overflowing_mul_iwide x n). rewrite O4. apply (overflowing_iwide_ok HV); auto.
Qed.
Example C95_scalar_ex : let c := c256_64 in
  c_wrapping_mul_ulimb (ofZ (2 ^ 200)) 3 = (repeat Mul 4, Ok (ofZ (3 * 2 ^ 200))) /\
  c_wrapping_mul_uwide (ofZ (2 ^ 100)) (2 ^ 70) = (repeat Mul 7, Ok (ofZ (2 ^ 170))) /\
  c_wrapping_mul_ilimb (ofZ (2 ^ 200)) (- 3) = (repeat Mul 10, Ok (ofZ (- 3 * 2 ^ 200))) /\
  c_overflowing_mul_ulimb true (ofZ 2) 3 = (repeat Mul 10, Ok (ofZ 6, false)).
Proof. vm_compute. auto. Qed.

(** The documented counts, for 256 bits in 64-bit limbs: ten products for a
    full multiplication (lib.rs 51, int/wrapping.rs 51, int/overflowing.rs 80)
    and four with an unsigned limb (uint/limb.rs 57) are what the source asks
    for, always, not at worst. *)
Theorem C95_docs : forall x y n, wf (c := c256_64) x -> wf (c := c256_64) y -> fits_u 64 n ->
  length (fst (c_wrapping_mul (c := c256_64) x y)) = 10%nat /\
  (forall sg, length (fst (c_overflowing_mul (c := c256_64) sg x y)) = 10%nat) /\
  length (fst (c_wrapping_mul_ulimb (c := c256_64) x n)) = 4%nat.
Proof.
  intros x y n Hx Hy Hn.
  destruct (C95_scalar c256_64 x n valid_c256_64 Hx) as (S1 & _). destruct (S1 Hn) as (U & _).
  split; [|split].
  - destruct (C95_product c256_64 false x y valid_c256_64 Hx Hy) as (P & _). rewrite P. reflexivity.
  - intros sg. destruct (C95_product c256_64 sg x y valid_c256_64 Hx Hy) as (_ & P & _). rewrite P. reflexivity.
  - rewrite U. reflexivity.
Qed.

(** The counts documented for the scalar forms that pad are too low: at most
    four for [wrapping_mul_ilimb] (int/limb.rs 520) and the overflowing
    products with an unsigned limb (1256) or wide scalar (1367), five for
    those with a signed one (1269, 1380).  No operands meet them. *)
Theorem C95_docs_refuted : exists x n, wf (c := c256_64) x /\ fits_s 64 n /\ fits_u 64 n /\
  (4 < muls (fst (c_wrapping_mul_ilimb (c := c256_64) x n)))%nat /\
  (4 < muls (fst (c_overflowing_mul_ulimb (c := c256_64) true x n)))%nat /\
  (4 < muls (fst (c_overflowing_mul_uwide (c := c256_64) true x n)))%nat /\
  (5 < muls (fst (c_overflowing_mul_ilimb (c := c256_64) x n)))%nat /\
  (5 < muls (fst (c_overflowing_mul_iwide (c := c256_64) x n)))%nat.
Proof.
  exists (ofZ (c := c256_64) 7), 3. split; [apply (wf_ofZ valid_c256_64)|]. vm_compute. repeat split; try discriminate; lia.
Qed.
Theorem C95_docs_never : forall x n, wf (c := c256_64) x -> fits_s 64 n ->
  muls (fst (c_wrapping_mul_ilimb (c := c256_64) x n)) = 10%nat /\
  muls (fst (c_overflowing_mul_ilimb (c := c256_64) x n)) = 10%nat.
Proof.
  intros x n Hx Hn. destruct (C95_scalar c256_64 x n valid_c256_64 Hx) as (_ & _ & S & _). destruct (S Hn) as (A & B).
  rewrite A, B. split; reflexivity.
Qed.

(** ** Powers *)

(** A power takes one product per set bit of the exponent and one squaring per
    binary digit after the first; the base does not matter. *)
Theorem C95_pow : forall (c : Cfg) x e, Valid -> wf x -> 1 <= e < 2 ^ 32 ->
  fst (c_wrapping_pow x e) = repeat Mul (Z.to_nat (bit_count 32 e true + Z.log2 e) * tri N) /\
  fst (c_wrapping_pow x 0) = [].
Proof.
  intros c x e HV Hx He. pose proof (N_ge4 HV) as H4. split; [|reflexivity].
  pose proof (er_wrapping_pow false x e) as E. rewrite (wrapping_pow_ok HV) in E by (auto; lia). revert E.
  unfold c_wrapping_pow. destruct (Z.eqb_spec e 0); [lia|].
  assert (O : exists one, from_u8 1 = Ok one /\ wf one).
  { eexists. split; [apply (from_u8_ok HV); unfold fits_u; lia|apply (wf_ofZ HV)]. }
  destruct O as (one & -> & Ho). rewrite cbind_free. intro E.
  rewrite <- rows_tri by lia. rewrite (runs_pow_loop HV pow_fuel e x one Hx Ho ltac:(lia) _ E).
  rewrite <- (Nat2Z.id (pow_products pow_fuel e)), pow_products_eq by (change (Z.of_nat pow_fuel) with 32; lia). reflexivity.
Qed.
Example C95_pow_ex : let c := c256_64 in
  c_wrapping_pow (ofZ 3) 13 = (repeat Mul 60, Ok (ofZ (3 ^ 13))) /\ bit_count 32 13 true + Z.log2 13 = 6.
Proof. vm_compute. auto. Qed.

(** ** Divisions *)

Section D.
Context {c : Cfg}.
Hypothesis HV : Valid.
Let HW2 : 2 <= W <= 64.
Proof. destruct (W_cases HV) as [->| ->]; lia. Qed.

Let Wp : 0 < W.
Proof. lia. Qed.
Let Wn0 : W <> 0.
Proof. lia. Qed.
Let Wg : 0 <= W.
Proof. lia. Qed.
Lemma last_index_used : forall x, wf x -> 0 < uval x ->
  exists i, last_index x = Ok i /\ (i < N)%nat /\ limbs_used (uval x) = S i.
Proof.
  intros x (L & D) H. pose proof (N_ge4 HV) as H4. destruct (last_index_ok HW2 x D ltac:(lia)) as (i & E & Hi & Lt & Ge).
  exists i. split; [exact E|]. split; [lia|]. unfold limbs_used.
  assert (Z.log2 (uval x) / W = Z.of_nat i) as ->; [|lia].
  unfold uval in *. assert (Z.log2 (lval W x) < W * Z.of_nat (S i)).
  { apply Z.log2_lt_pow2; lia. }
  assert (W * Z.of_nat i <= Z.log2 (lval W x)).
  { destruct i as [|i]; [rewrite Z.mul_0_r; apply Z.log2_nonneg|]. apply Z.log2_le_pow2; [lia|]. apply Ge. discriminate. }
  symmetry. apply (Z.div_unique _ _ _ (Z.log2 (lval W x) - W * Z.of_nat i)); nia.
Qed.
Lemma used_one : forall v, 0 < v -> (limbs_used v = 1%nat <-> v < 2 ^ W).
Proof.
  intros v H. unfold limbs_used. pose proof (Z.log2_nonneg v). assert (0 <= Z.log2 v / W) by (apply Z.div_pos; lia). split.
  - intro E. apply Z.log2_lt_pow2; [lia|]. assert (E0 : Z.log2 v / W = 0) by lia.
    pose proof (Z.div_mod (Z.log2 v) W Wn0) as E1. pose proof (Z.mod_pos_bound (Z.log2 v) W Wp). rewrite E0 in E1. lia.
  - intro E. apply Z.log2_lt_pow2 in E; [|lia]. rewrite Z.div_small by lia. reflexivity.
Qed.

Lemma zero_above_2 : forall x, wf x -> is_zero x 2 = Ok (uval x <? 2 ^ (2 * W)).
Proof.
  intros x (L & D). pose proof (N_ge4 HV) as H4. rewrite (is_zero_ok HW2) by (auto; lia). f_equal. unfold uval.
  rewrite (lval_split W x 2) by lia. pose proof (pv_range W x 2 Wg D ltac:(lia)) as R1.
  pose proof (lval_range W (skipn 2 x) Wg (digits_skipn _ _ _ D)) as R2.
  replace (W * Z.of_nat 2) with (2 * W) in * by lia.
  destruct (Z.eqb_spec (lval W (skipn 2 x)) 0), (Z.ltb_spec (pv W x 2 + 2 ^ (2 * W) * lval W (skipn 2 x)) (2 ^ (2 * W)));
    try reflexivity; nia.
Qed.

Lemma div_full_cost : forall x y, wf x -> wf y -> uval y <> 0 ->
  (uval x <= uval y -> fst (c_div_full x y) = []) /\
  (uval y < uval x -> uval y < 2 ^ W -> fst (c_div_full x y) = if uval x <? 2 ^ (2 * W) then [Div] else repeat Div N) /\
  (uval y < uval x -> 2 ^ W <= uval y -> let k := (limbs_used (uval x) - limbs_used (uval y) + 1)%nat in
     cost (c_div_full x y) (k * N) (k * (N + 2)) k).
Proof.
  intros x y Hx Hy Hn. pose proof (N_ge4 HV) as H4. pose proof (uval_range HV y Hy) as Ry. pose proof Hx as (Lx & Dx). pose proof Hy as (Ly & Dy).
  assert (CN : forall A B C, (if (length y =? 1)%nat then A else B) = (C : co (list Z * list Z)) <-> B = C).
  { intros. destruct (Nat.eqb_spec (length y) 1); [lia|tauto]. }
  assert (DF : c_div_full x y = match uval x ?= uval y with
    | Lt => free (let* r := truncate (length y) x in Ok (repeat 0 (length x), r))
    | Eq => free (let* q := scalar1 (length x) 1 in let* r := scalar1 (length y) 0 in Ok (q, r))
    | Gt => c_full_gt x y end).
  { unfold c_div_full. cbv zeta. apply CN. rewrite (div_cmp_ok HW2) by auto. fold (uval x). fold (uval y).
    rewrite cbind_free. destruct (Z.compare_spec (uval x) (uval y)); try reflexivity.
    rewrite (is_zero_ok HW2) by (auto; lia). cbn [skipn]. fold (uval x). destruct (Z.eqb_spec (uval x) 0); [lia|].
    apply cbind_free. }
  rewrite DF. destruct (Z.compare_spec (uval x) (uval y)).
  - repeat split; try lia; reflexivity.
  - repeat split; try lia; reflexivity.
  - split; [lia|]. destruct (last_index_used y Hy ltac:(lia)) as (i & Ei & Hi & Ui).
    destruct (last_index_used x Hx ltac:(lia)) as (j & Ej & Hj & Uj). unfold c_full_gt. rewrite Ei. split; intros _ Hs.
    + apply used_one in Hs; [|lia]. assert (i = 0%nat) as -> by lia.
      rewrite cbind_free. cbn [Nat.eqb]. rewrite get_ok by lia. rewrite cbind_free.
      assert (Hd : 0 < nth 0 y 0 < 2 ^ W).
      { apply used_one in Ui; [|lia]. unfold uval in *. clear - Ui Ry Hn Dy HW2 Wg. destruct y as [|a t]; [cbn in Hn; lia|].
        cbn [nth lval] in *. inversion Dy; subst. pose proof (lval_range W t Wg H2).
        assert (0 < 2 ^ W) by (apply Z.pow_pos_nonneg; lia). assert (lval W t = 0) by nia. nia. }
      pose proof (runs_div_limb x (nth 0 y 0) _ ltac:(lia) (zero_above_2 x Hx)) as R. rewrite Lx in R.
      unfold c_limb_padded. pose proof (div_limb_ok HW2 x _ Dx ltac:(lia) Hd) as E. rewrite <- er_div_limb in E.
      rewrite <- (R _ E). destruct (c_div_limb x (nth 0 y 0)) as (t & o). cbn [snd] in E. subst o. cbn [cbind].
      rewrite scalar1_ok by (pose proof (Z.mod_pos_bound (lval W x) (nth 0 y 0)); lia). rewrite cbind_free. cbn [free fst snd].
      apply app_nil_r.
    + assert (i <> 0%nat) by (intros ->; apply used_one in Ui; lia).
      rewrite Ui, Uj. apply cost_skip. intros i' [= <-].
      destruct (Nat.eqb_spec i 0); [lia|]. apply cost_skip. rewrite Ej. intros j' [= <-]. apply cost_skip. intros _ _.
      rewrite <- Ly. replace (S j - S i)%nat with (j - i)%nat by lia. apply cost_knuth.
Qed.
End D.

(** Dividing by one limb: one division per limb of the type, or a single wide
    one when the number fits two limbs. *)
Theorem C95_limb_division : forall (c : Cfg) x n, Valid -> wf x -> 0 < n < 2 ^ W ->
  fst (c_div_limb x n) = if uval x <? 2 ^ (2 * W) then [Div] else repeat Div N.
Proof.
  intros c x n HV Hx Hn. pose proof (N_ge4 HV) as H4. assert (HW : 2 <= W <= 64) by (destruct (W_cases HV) as [->| ->]; lia).
  pose proof Hx as (Lx & Dx). pose proof (runs_div_limb x n _ ltac:(lia) (zero_above_2 HV x Hx)) as R. rewrite Lx in R.
  eapply R. rewrite er_div_limb. apply (div_limb_ok HW); auto. lia.
Qed.
Example C95_limb_division_ex : let c := c256_64 in
  c_div_limb (ofZ (2 ^ 128)) 10 = (repeat Div 4, Ok (ofZ (2 ^ 128 / 10), 6)) /\
  c_div_limb (ofZ (2 ^ 128 - 1)) 10 = ([Div], Ok (ofZ ((2 ^ 128 - 1) / 10), 5)).
Proof. vm_compute. auto. Qed.

(** Dividing by a number, of either type, by the sizes of the operands.
    Nothing is divided when the divisor is not smaller; a divisor of one limb
    costs what [C95_limb_division] says; otherwise each of the [k] quotient
    digits takes at most one division and [N + 2] products, and a division that
    completes has made at least [N] products per digit, however short the
    divisor is.  The upper bounds include the divisions that panic. *)
Theorem C95_division : forall (c : Cfg) sg x y, Valid -> wf x -> wf y -> val sg y <> 0 ->
  let t := fst (c_wrapping_div_rem sg x y) in
  let k := (limbs_used (magnitude sg x) - limbs_used (magnitude sg y) + 1)%nat in
  (magnitude sg x <= magnitude sg y -> t = []) /\
  (magnitude sg y < magnitude sg x -> magnitude sg y < 2 ^ W ->
     t = if magnitude sg x <? 2 ^ (2 * W) then [Div] else repeat Div N) /\
  (magnitude sg y < magnitude sg x -> 2 ^ W <= magnitude sg y ->
     (divs t <= k)%nat /\ (muls t <= k * (N + 2))%nat /\
     (forall q, wrapping_div_rem sg x y = Ok q -> (k * N <= muls t)%nat)).
Proof.
  intros c sg x y HV Hx Hy Hn. cbv zeta. rewrite <- er_wrapping_div_rem.
  assert (G : exists ux uy, wf ux /\ wf uy /\ uval ux = magnitude sg x /\ uval uy = magnitude sg y /\
    exists f, c_wrapping_div_rem sg x y = let$ s := c_div_full ux uy in free (f s)).
  { unfold magnitude. destruct sg; cbn [val] in *.
    - exists (ofZ (Z.abs (sval x))), (ofZ (Z.abs (sval y))). split; [apply (wf_ofZ HV)|]. split; [apply (wf_ofZ HV)|].
      split; [apply (uval_abs HV); auto|]. split; [apply (uval_abs HV); auto|].
      unfold c_wrapping_div_rem. rewrite !(unsigned_abs_ok HV) by auto. rewrite !cbind_free.
      eexists (fun s => let '(div, rem) := s in _). unfold cbind. destruct (c_div_full _ _) as (t & [(q & r)| |]); reflexivity.
    - exists x, y. pose proof (uval_range HV x Hx). pose proof (uval_range HV y Hy). repeat split; try apply Hx; try apply Hy; try lia.
      unfold c_wrapping_div_rem. eexists (fun s => let '(div, rem) := s in _). unfold cbind.
      destruct (c_div_full x y) as (t & [(q & r)| |]); reflexivity. }
  destruct G as (ux & uy & Hux & Huy & Ex & Ey & f & ->). rewrite <- Ex, <- Ey.
  assert (Hn' : uval uy <> 0) by (rewrite Ey; unfold magnitude; lia).
  destruct (div_full_cost HV ux uy Hux Huy Hn') as (A & B & C).
  assert (F : fst (let$ s := c_div_full ux uy in free (f s)) = fst (c_div_full ux uy)).
  { unfold cbind, free. destruct (c_div_full ux uy) as (t & [a| |]); cbn; try reflexivity. apply app_nil_r. }
  rewrite F. split; [exact A|]. split; [exact B|]. intros H1 H2. destruct (C H1 H2) as (C1 & C2 & C3).
  split; [exact C3|]. split; [exact C2|]. intros q Eq. rewrite snd_cbind in Eq.
  destruct (snd (c_div_full ux uy)) as [a| |] eqn:E; try discriminate. exact (C1 a eq_refl).
Qed.
(** The bounds are reached: three quotient digits, each with two products in
    its estimate and four in its subtraction. *)
Example C95_division_ex : let c := c256_64 in
  let x := ofZ 0xffffffffffffffff80000000000000007fffffffffffffff6546790267e674c0 in
  let y := ofZ (2 ^ 64 + 1) in
  (limbs_used (uval x) - limbs_used (uval y) + 1 = 3)%nat /\
  fst (c_wrapping_div_rem false x y) = concat (repeat (Div :: repeat Mul 6) 3) /\
  snd (c_wrapping_div_rem false x y) = Ok (ofZ (uval x / uval y), ofZ (uval x mod uval y)).
Proof. vm_compute. auto. Qed.
Example C95_division_signed_ex : let c := c256_64 in
  fst (c_wrapping_div_rem true (ofZ (- 2 ^ 255)) (ofZ (- 7))) = repeat Div 4 /\
  fst (c_wrapping_div_rem true (ofZ (- 7)) (ofZ (- 2 ^ 255))) = [] /\
  fst (c_wrapping_div_rem true (ofZ (- 2 ^ 100)) (ofZ (2 ^ 70))) = Div :: repeat Mul 5.
Proof. vm_compute. auto. Qed.

(** No division of 256-bit numbers takes more than four limb divisions or
    eighteen limb products. *)
Theorem C95_worst : forall sg x y, wf (c := c256_64) x -> wf (c := c256_64) y -> val (c := c256_64) sg y <> 0 ->
  (divs (fst (c_wrapping_div_rem (c := c256_64) sg x y)) <= 4)%nat /\
  (muls (fst (c_wrapping_div_rem (c := c256_64) sg x y)) <= 18)%nat.
Proof.
  intros sg x y Hx Hy Hn. pose proof valid_c256_64 as HV.
  destruct (C95_division c256_64 sg x y HV Hx Hy Hn) as (A & B & C). 
  destruct (Z_le_gt_dec (magnitude (c := c256_64) sg x) (magnitude (c := c256_64) sg y)) as [L|L].
  { rewrite (A L). cbn. lia. }
  destruct (Z_lt_le_dec (magnitude (c := c256_64) sg y) (2 ^ 64)) as [S|S].
  { rewrite (B ltac:(lia) S). destruct (_ <? _); cbn; lia. }
  destruct (C ltac:(lia) S) as (C1 & C2 & _).
  assert (K : (limbs_used (c := c256_64) (magnitude (c := c256_64) sg x) - limbs_used (c := c256_64) (magnitude (c := c256_64) sg y) + 1 <= 3)%nat).
  { assert (M : magnitude (c := c256_64) sg x < 2 ^ 256).
    { unfold magnitude. destruct sg; cbn [val].
      - pose proof (sval_range HV x Hx). change (BITS (c := c256_64)) with 256 in *. lia.
      - pose proof (uval_range HV x Hx). change (BITS (c := c256_64)) with 256 in *. lia. }
    unfold limbs_used. change (W (Cfg := c256_64)) with 64 in *.
    assert (Z.log2 (magnitude (c := c256_64) sg x) < 256) by (apply Z.log2_lt_pow2; lia).
    assert (64 <= Z.log2 (magnitude (c := c256_64) sg y)) by (apply Z.log2_le_pow2; lia).
    assert (Z.log2 (magnitude (c := c256_64) sg x) / 64 < 4) by (apply Z.div_lt_upper_bound; lia).
    assert (1 <= Z.log2 (magnitude (c := c256_64) sg y) / 64) by (apply Z.div_le_lower_bound; lia). lia. }
  change (N (Cfg := c256_64)) with 4%nat in *. lia.
Qed.

(** ** Assumptions (each must print "Closed under the global context") *)

Print Assumptions C95_same.
Print Assumptions C95_product.
Print Assumptions C95_checked.
Print Assumptions C95_scalar.
Print Assumptions C95_docs.
Print Assumptions C95_docs_refuted.
Print Assumptions C95_docs_never.
Print Assumptions C95_pow.
Print Assumptions C95_limb_division.
Print Assumptions C95_division.
Print Assumptions C95_worst.
